(** Properties C74, C75: with an end token the parser is exact. *)
From Verif Require Import Base RegexModel SpecRegex NfaModel SpecNfa LexerModel SpecLexer SpecMunch
  GrammarModel CfsmModel SlrModel PangoModel SpecCfg SpecWrap SlrWitness WrapProofs WrapText.

(** C74: the two more rules can always be added. *)
Theorem C74_builds {V T} `{DecEq V} `{DecEq T} cs (g : grammar V T) z e o : build (do_calls cs) = Val g ->
  exists w, build (do_calls (wrapped cs (g_start g) z e o)) = Val w.
Proof. exact (wrapped_builds cs g z e o). Qed.
Print Assumptions C74_builds.

(** C74: [Slr::new] panics for the wrapped grammar exactly if the textbook table
    of the grammar has two requests for one cell. *)
Theorem C74_new {V T} `{DecEq V} `{DecEq T} {ho : HashOrder} (teq : T -> T -> bool) cs (g w : grammar V T) z e o p :
  lawful teq -> build (do_calls cs) = Val g -> build (do_calls (wrapped cs (g_start g) z e o)) = Val w ->
  fresh_variable g z -> fresh_terminal teq g e -> fresh_terminal teq g o -> teq o e = false ->
  exists n r, (forall fuel, n <= fuel -> slr_new teq fuel p w = r) /\
    ((r = Panic /\ textbook_clash g teq) \/ (exists tb, r = Val tb /\ ~ textbook_clash g teq)).
Proof. exact (fun Ht => wrapped_new teq Ht cs g w z e o p). Qed.
Print Assumptions C74_new.

(** It has none for an SLR(1) grammar without circular unit rules in which no
    state reads a terminal in two items. *)
Theorem C74_no_clash {V T} (teq : T -> T -> bool) (g : grammar V T) :
  (forall t t', teq t t' = true -> t = t') -> ~ slr_conflict g ->
  (forall u h a r h' a' r' t, lr0 g u (h, a, Ter t :: r) -> lr0 g u (h', a', Ter t :: r') -> (h, a, r) = (h', a', r')) ->
  (forall h a, lr0 g [Var (g_start g)] (h, a, []) -> ~ lookahead g h None) -> ~ textbook_clash g teq.
Proof. exact (no_textbook_clash teq g). Qed.
Print Assumptions C74_no_clash.

Example C74_no_clash_sample : (forall t t', Nat.eqb t t' = true -> t = t') /\ ~ slr_conflict stmts /\
  (forall u h a r h' a' r' t, lr0 stmts u (h, a, Ter t :: r) -> lr0 stmts u (h', a', Ter t :: r') -> (h, a, r) = (h', a', r')) /\
  (forall h a, lr0 stmts [Var (g_start stmts)] (h, a, []) -> ~ lookahead stmts h None).
Proof.
  split; [intros t t'; apply Nat.eqb_eq|]. split; [exact stmts_no_conflict|]. split; [exact stmts_single|].
  intros h a H. exfalso. exact (stmts_no_accept h a H).
Qed.

(** C74: the parser of the wrapped grammar, given any tokens and then the end,
    returns their derivation tree under the new start variable, or [Err] if there is none; it
    never panics and ends after linearly many turns. *)
Theorem C74_exact {V T} `{DecEq V} `{DecEq T} {ho : HashOrder} (teq : T -> T -> bool) cs (g w : grammar V T) z e o fuel p tb ts :
  lawful teq -> build (do_calls cs) = Val g -> build (do_calls (wrapped cs (g_start g) z e o)) = Val w ->
  fresh_variable g z -> teq o e = false -> clean g -> slr_new teq fuel p w = Val tb ->
  let turns := (2 * S (length ts) + 1) * (length (g_rules w) + 1) + 1 in
  (exists x, parses g teq ts x /\
     forall fuel', turns <= fuel' -> parse teq fuel' tb (ts ++ [e]) = Val (Some (Node (Var z) [Node (Ter e) []; to_node x]))) \/
  ((forall x, ~ parses g teq ts x) /\ forall fuel', turns <= fuel' -> parse teq fuel' tb (ts ++ [e]) = Val None).
Proof. exact (fun Ht => wrapped_parse teq Ht cs g w z e o fuel p tb ts). Qed.
Print Assumptions C74_exact.

(** C74: the same for all lists of tokens without [o]; the token that ends the
    input may differ from [e] if [terminal_eq] takes it for [e]. *)
Theorem C74_all_inputs {V T} `{DecEq V} `{DecEq T} {ho : HashOrder} (teq : T -> T -> bool) cs (g w : grammar V T) z e o fuel p tb ts :
  lawful teq -> build (do_calls cs) = Val g -> build (do_calls (wrapped cs (g_start g) z e o)) = Val w ->
  fresh_variable g z -> clean g -> slr_new teq fuel p w = Val tb -> (forall t, In t ts -> teq o t = false) ->
  let turns := (2 * length ts + 1) * (length (g_rules w) + 1) + 1 in
  (exists ks e' x, ts = ks ++ [e'] /\ teq e e' = true /\ parses g teq ks x /\
     forall fuel', turns <= fuel' -> parse teq fuel' tb ts = Val (Some (Node (Var z) [Node (Ter e') []; to_node x]))) \/
  ((forall ks e' x, ts = ks ++ [e'] -> teq e e' = true -> ~ parses g teq ks x) /\
   forall fuel', turns <= fuel' -> parse teq fuel' tb ts = Val None).
Proof. exact (fun Ht => wrapped_parse_any teq Ht cs g w z e o fuel p tb ts). Qed.
Print Assumptions C74_all_inputs.

(** C74: there is then at most one derivation tree, so the result is the only one. *)
Theorem C74_unambiguous {V T} `{DecEq V} `{DecEq T} {ho : HashOrder} (teq : T -> T -> bool) cs (g w : grammar V T) z e o fuel p tb ts x x' :
  lawful teq -> build (do_calls cs) = Val g -> build (do_calls (wrapped cs (g_start g) z e o)) = Val w ->
  fresh_variable g z -> teq o e = false -> clean g -> slr_new teq fuel p w = Val tb ->
  parses g teq ts x -> parses g teq ts x' -> x = x'.
Proof. exact (fun Ht => wrapped_unique teq Ht cs g w z e o fuel p tb ts x x'). Qed.
Print Assumptions C74_unambiguous.

(** Sums with parentheses: without the wrapping [x+(x)] is an error. *)
Example C74_sample : lawful Nat.eqb /\ build (do_calls sums_calls) = Val sums /\
  build (do_calls (wrapped sums_calls (g_start sums) 2 5 6)) = Val sums_wrapped /\
  (fresh_variable sums 2 /\ fresh_terminal Nat.eqb sums 5 /\ fresh_terminal Nat.eqb sums 6) /\ Nat.eqb 6 5 = false /\ clean sums /\
  slr_new (ho := id_order) Nat.eqb 60 [] sums_wrapped = Val sums_table /\ parses sums Nat.eqb [1; 2; 3; 1; 4] sums_tree /\
  parse Nat.eqb 100 sums_table ([1; 2; 3; 1; 4] ++ [5]) = Val (Some (Node (Var 2) [Node (Ter 5) []; to_node sums_tree])) /\
  parse Nat.eqb 100 sums_table ([1; 2; 3; 1] ++ [5]) = Val None /\
  slr_new (ho := id_order) Nat.eqb 60 [] sums = Val sums_bare /\ parse Nat.eqb 100 sums_bare [1; 2; 3; 1; 4] = Val None.
Proof.
  split; [exact eq_lawful|]. split; [reflexivity|]. split; [reflexivity|]. split; [exact sums_fresh|]. split; [reflexivity|].
  split; [exact sums_clean|]. split; [vm_compute; reflexivity|]. split; [exact sums_parses|].
  split; [vm_compute; reflexivity|]. split; [vm_compute; reflexivity|]. split; vm_compute; reflexivity.
Qed.

(** A clash between accepting and reducing: [0 -> 1], [1 -> 0 | x]. *)
Example C74_clash : textbook_clash (gram [(0, [var 1]); (1, [var 0]); (1, [ter 1])]) Nat.eqb.
Proof.
  right. exists (1, [var 0], []). split; [reflexivity|]. split.
  - apply (lr0_goto _ [] 1 [] (var 0) []); [|constructor; discriminate].
    apply (lr0_close _ [] 0 [] 1 [] [var 0]); [|a_rule|constructor; discriminate].
    apply (lr0_start (gram [(0, [var 1]); (1, [var 0]); (1, [ter 1])]) [var 1]); [a_rule|constructor; discriminate].
  - exists []. apply (step_at _ _ [] 0 [var 1] []); [constructor|a_rule].
Qed.

(** C75: a text with an end character behind it, patterns as in C58 of which only
    the one for the end character makes tokens that equal [e], and a wrapped
    grammar: the parser returns the tree of the tokens if maximal munch covers
    the whole text and the tokens are a sentence, else [Err]. *)
Theorem C75_text {env : Env} {ho : HashOrder} {V K} `{DecEq V} `{DecEq K} (teq : K -> K -> bool) cs (g w : grammar V K) z e o fuel p tb
    (ts : list (list char * generator K)) text c lx es L :
  lawful teq -> build (do_calls cs) = Val g -> build (do_calls (wrapped cs (g_start g) z e o)) = Val w ->
  fresh_variable g z -> clean g -> slr_new teq fuel p w = Val tb ->
  build_lexer ts (text ++ [c]) = Val (inl lx) -> parsed ts es -> agreed L es -> steady es -> (forall e, In e es -> loops_ok e = true) ->
  (forall i gen x, nth_error (map snd ts) i = Some gen -> first_match L es x i ->
     teq o (gen_run gen x) = false /\ (teq e (gen_run gen x) = true -> x = [c])) ->
  ~ In c text ->
  exists N r, (forall fuel', N <= fuel' -> parse_lexer teq fuel' tb lx = Val r) /\
    match r with
    | Some n => exists ks e' x, reads_all L es (map snd ts) (text ++ [c]) (ks ++ [e']) /\ teq e e' = true /\ parses g teq ks x /\
        n = Node (Var z) [Node (Ter e') []; to_node x]
    | None => forall ks e' x, reads_all L es (map snd ts) (text ++ [c]) (ks ++ [e']) -> teq e e' = true -> ~ parses g teq ks x
    end.
Proof. exact (text_exact teq cs g w z e o fuel p tb ts text c lx es L). Qed.
Print Assumptions C75_text.

(** Sums as texts ending with a semicolon.  A text that begins with a sum but goes
    on with a character that is no token is an error (compare C43). *)
Example C75_sample {env : Env} (text : list char) : lawful Nat.eqb /\ build (do_calls sums_calls) = Val sums /\
  build (do_calls (wrapped sums_calls (g_start sums) 2 5 6)) = Val sums_wrapped /\ fresh_variable sums 2 /\ clean sums /\
  slr_new (ho := id_order) Nat.eqb 60 [] sums_wrapped = Val sums_table /\
  (exists lx, build_lexer sums_tokens (text ++ [59%N]) = Val (inl lx)) /\ parsed sums_tokens sums_es /\ agreed lang sums_es /\ steady sums_es /\
  (forall e, In e sums_es -> loops_ok e = true) /\
  (forall i gen x, nth_error (map snd sums_tokens) i = Some gen -> first_match lang sums_es x i ->
     Nat.eqb 6 (gen_run gen x) = false /\ (Nat.eqb 5 (gen_run gen x) = true -> x = [59%N])) /\
  (exists lx, build_lexer sums_tokens (str "x+(x);"%string) = Val (inl lx) /\
     parse_lexer (ho := id_order) Nat.eqb 100 sums_table lx = Val (Some (Node (Var 2) [Node (Ter 5) []; to_node sums_tree]))) /\
  (exists lx, build_lexer sums_tokens (str "x+(x)?x;"%string) = Val (inl lx) /\ parse_lexer (ho := id_order) Nat.eqb 100 sums_table lx = Val None).
Proof.
  split; [exact eq_lawful|]. split; [reflexivity|]. split; [reflexivity|]. split; [exact (proj1 sums_fresh)|]. split; [exact sums_clean|].
  split; [vm_compute; reflexivity|]. split; [eexists; vm_compute; reflexivity|]. split; [exact sums_parsed|]. split; [exact sums_agreed|].
  split; [exact sums_steady|]. split; [exact sums_loops|]. split; [exact sums_kinds|].
  split; eexists; (split; [vm_compute; reflexivity|vm_compute; reflexivity]).
Qed.
