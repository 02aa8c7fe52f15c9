(** Property C117: which patterns can make the lexer run for ever. *)
From Verif Require Import Base RegexModel SpecRegex NfaModel SpecNfa SpecSpin SpecHang LexerModel SpecLexer SpecCalls GrammarModel SlrModel PangoModel
  SpecCfg SpecMachine SpecWhole ExprModel ExprProofs HangProofs HangWhole PropsTurns PropsWhole.

(** C117: a function of the regex tells whether matching some text never ends. *)
Theorem C117_matching {env : Env} fits e m : nfa_from e = Val m -> told fits e ->
  (hangs fits e = true <-> exists w, forall (ho : HashOrder) fuel, simulate fuel m w = Diverge).
Proof. exact (matching_hangs fits e m). Qed.
Print Assumptions C117_matching.
(** If not, matching every text ends, after the number of turns of C116. *)
Theorem C117_matching_safe {env : Env} fits e m : nfa_from e = Val m -> told fits e -> hangs fits e = false ->
  forall w (ho : HashOrder) fuel, patience m <= fuel -> exists b, simulate fuel m w = Val b.
Proof. exact (matching_safe fits e m). Qed.
Print Assumptions C117_matching_safe.

(** C117: the same for a lexer: some text makes some number of calls run for ever
    exactly if one of its patterns hangs. *)
Theorem C117_lexing {env : Env} fits (K : Type) (ts : list (list char * generator K)) es input lx :
  build_lexer ts input = Val (inl lx) -> parsed ts es -> (forall e, In e es -> told fits e) ->
  (existsb (hangs fits) es = true <->
   exists input' lx' n, build_lexer ts input' = Val (inl lx') /\ forall (ho : HashOrder) fuel, lex_calls fuel n lx' = Diverge).
Proof. exact (lexing_hangs fits ts es input lx). Qed.
Print Assumptions C117_lexing.
Theorem C117_lexing_safe {env : Env} fits (K : Type) (ts : list (list char * generator K)) es input lx :
  build_lexer ts input = Val (inl lx) -> parsed ts es -> (forall e, In e es -> told fits e) -> existsb (hangs fits) es = false ->
  forall n (ho : HashOrder) fuel, patience (lx_nfa lx) <= fuel -> exists r, lex_calls fuel n lx = Val r.
Proof. exact (lexing_safe fits ts es input lx). Qed.
Print Assumptions C117_lexing_safe.

(** C117: then parsing a text can only run for ever in the parser. *)
Theorem C117_parsing_safe {env : Env} {V K} `{DecEq V} `{DecEq K} fits (teq : K -> K -> bool) (g : grammar V K) (ho : HashOrder) fuel0 p tb
    (ts : list (list char * generator K)) input lx es L fuel :
  lawful teq -> built g -> slr_new teq fuel0 p g = Val tb -> build_lexer ts input = Val (inl lx) -> parsed ts es -> agreed L es ->
  (forall e, In e es -> told fits e) -> existsb (hangs fits) es = false ->
  Nat.max (patience (lx_nfa lx)) ((2 * length input + 1) * (length (g_rules g) + 1) + 1) <= fuel ->
  (parse_lexer teq fuel tb lx = Diverge <-> roams L es (map snd ts) teq g (starting input)).
Proof. exact (fun Ht => whole_safe fits teq Ht g ho fuel0 p tb ts input lx es L fuel). Qed.
Print Assumptions C117_parsing_safe.

Ltac all_told := cbn; repeat match goal with
  | |- _ /\ _ => split
  | |- _ <-> _ => split; [intros _; eexists; reflexivity|reflexivity]
  | |- True => exact I
  end.
(** Two patterns with a repeated group that matches the empty text: one hangs on
    some text, the other on none. *)
Example C117_sample {env : Env} : exists e1 m1 e2 m2, let fits := fun _ : lit => true in
  regex_parse (str "a(b*)*"%string) = Val (ParseOk e1) /\ nfa_from e1 = Val m1 /\ told fits e1 /\ hangs fits e1 = true /\ loops_ok e1 = false /\
  regex_parse (str "(a{0})*b"%string) = Val (ParseOk e2) /\ nfa_from e2 = Val m2 /\ told fits e2 /\ hangs fits e2 = false /\ loops_ok e2 = false.
Proof.
  eexists _, _, _, _. cbn zeta. repeat (split; [vm_compute; reflexivity|]).
  split; [all_told|]. repeat (split; [vm_compute; reflexivity|]).
  split; [all_told|]. repeat (split; [vm_compute; reflexivity|]). vm_compute; reflexivity.
Qed.
(** The patterns of the example program do not hang. *)
Example C117_program {env : Env} : exists lx, build_lexer expr_tokens (str "3+4?*1"%string) = Val (inl lx) /\ parsed expr_tokens expr_es /\
  (forall e, In e expr_es -> told (fun _ => true) e) /\ existsb (hangs (fun _ => true)) expr_es = false.
Proof.
  destruct C68_sample as (lx & _ & _ & _ & Hlx & _). exists lx. split; [exact Hlx|]. split; [exact expr_parsed|]. split; [|vm_compute; reflexivity].
  intros e [<-|[<-|[<-|[]]]]; [|all_told|all_told]. split; [intros _; exists 48%N; cbn; unfold digit_char; lia|reflexivity].
Qed.
