(** Property C91: a front end, from the patterns and the grammar to the tree. *)
From Verif Require Import Base RegexModel SpecRegex NfaModel SpecNfa LexerModel SpecLexer SpecMunch SpecPanic SpecPlain
  GrammarModel CfsmModel SlrModel PangoModel SpecCfg SpecWrap SpecFront SlrWitness FrontProofs.

(** C91: ordinary patterns without empty alternatives, of which only the one for
    the end character makes the end token and none makes the unused token; a grammar
    without epsilon and useless variables whose textbook SLR(1) table has no two requests for one cell, with the
    two more rules of C74.  Then all that is called returns: the grammar and the
    lexer are built, [Slr::new] makes a parser, and for every text with the end
    character behind it the parser returns the one outcome that the languages of
    the patterns and the grammar prescribe, the same for every hash order. *)
Theorem C91_front_end {env : Env} {V K} `{DecEq V} `{DecEq K} (teq : K -> K -> bool) cs (g : grammar V K) z e o
    (ts : list (list char * generator K)) es c :
  lawful teq -> build (do_calls cs) = Val g -> clean g -> ~ textbook_clash g teq ->
  fresh_variable g z -> fresh_terminal teq g e -> fresh_terminal teq g o -> teq o e = false ->
  parsed ts es -> (forall x, In x es -> ~ gapped x) -> plain es ->
  (forall i gen x, nth_error (map snd ts) i = Some gen -> first_match lang es x i ->
     teq o (gen_run gen x) = false /\ (teq e (gen_run gen x) = true -> x = [c])) ->
  exists w, build (do_calls (wrapped cs (g_start g) z e o)) = Val w /\
    forall text, ~ In c text -> exists lx r, build_lexer ts (text ++ [c]) = Val (inl lx) /\
      outcome lang es (map snd ts) g teq z e (text ++ [c]) r /\
      forall (ho : HashOrder) p, exists N, forall fuel, N <= fuel ->
        (let! tb := slr_new teq fuel p w in parse_lexer teq fuel tb lx) = Val r.
Proof. exact (front_end teq cs g z e o ts es c). Qed.
Print Assumptions C91_front_end.

(** For such patterns and grammars a text has one outcome at most. *)
Theorem C91_one_outcome {env : Env} {V K} `{DecEq V} `{DecEq K} (teq : K -> K -> bool) cs (g : grammar V K) z e o
    (gens : list (generator K)) es input r r' :
  lawful teq -> build (do_calls cs) = Val g -> clean g -> ~ textbook_clash g teq ->
  fresh_variable g z -> fresh_terminal teq g e -> fresh_terminal teq g o -> teq o e = false ->
  outcome lang es gens g teq z e input r -> outcome lang es gens g teq z e input r' -> r = r'.
Proof. exact (one_outcome teq cs g z e o gens es input r r'). Qed.
Print Assumptions C91_one_outcome.

(** Calculations with names and numbers of any length. *)
Example C91_sample {env : Env} : lawful calc_eq /\ build (do_calls calc_calls) = Val calc /\ clean calc /\ ~ textbook_clash calc calc_eq /\
  (fresh_variable calc 3 /\ fresh_terminal calc_eq calc 5 /\ fresh_terminal calc_eq calc 6) /\ calc_eq 6 5 = false /\
  parsed calc_tokens calc_es /\ (forall x, In x calc_es -> ~ gapped x) /\ plain calc_es /\
  (forall i gen x, nth_error (map snd calc_tokens) i = Some gen -> first_match lang calc_es x i ->
     calc_eq 6 (gen_run gen x) = false /\ (calc_eq 5 (gen_run gen x) = true -> x = [59%N])).
Proof.
  split; [exact calc_lawful|]. split; [exact calc_build|]. split; [exact calc_clean|]. split; [exact calc_no_clash|]. split; [exact calc_fresh|].
  split; [reflexivity|]. split; [exact calc_parsed|]. split; [exact calc_gaps|]. split; [exact calc_plain|exact calc_kinds].
Qed.

(** [ab+12*(x);] has the tree that binds [*] more tightly; the tokens of names
    and numbers carry the length and the value; [ab+;] is no sentence and [ab?;] is not
    covered by the patterns. *)
Example C91_run : let _ := ascii_env true in
  let run text := match build_lexer calc_tokens (str text) with
    | Val (inl lx) => let! tb := slr_new (ho := id_order) calc_eq 60 [] calc_wrapped in parse_lexer (ho := id_order) calc_eq 60 tb lx
    | _ => Panic
    end in
  let leaf k := Node (Ter k) [] : node nat nat in
  let name k := Node (Var 1) [Node (Var 2) [leaf k]] in
  run "ab+12*(x);"%string = Val (Some (Node (Var 3) [leaf 5;
    Node (Var 0) [Node (Var 1) [Node (Var 2) [leaf 4; Node (Var 0) [name 9]; leaf 3]; leaf 2; name 32];
                  leaf 1; Node (Var 0) [name 11]]])) /\
  run "ab+;"%string = Val None /\ run "ab?;"%string = Val None.
Proof. split; [|split]; vm_compute; reflexivity. Qed.
