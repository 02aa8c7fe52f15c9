(** Property C116: how long to wait for an answer. *)
From Verif Require Import Base RegexModel SpecRegex NfaModel SpecNfa SpecSpin LexerModel SpecLexer SpecCalls SpecStuck GrammarModel SlrModel PangoModel
  SpecCfg SpecMachine SpecWhole ExprModel ExprProofs GrowthProofs TurnProofs TurnWhole NfaSpin PropsSpin PropsWhole.

(** How many turns the loop of a closure can take and still end. *)
Notation patience m := (length (nfa_states m) * 5 ^ length (nfa_states m)) (only parsing).

(** C116: if matching a text ends at all, in any hash order, the loop of no closure
    takes more turns than that, in no hash order, and the answer is the same. *)
Theorem C116_matching {env : Env} e m (ho1 ho : HashOrder) fuel1 fuel w b : nfa_from e = Val m -> patience m <= fuel ->
  simulate (ho := ho1) fuel1 m w = Val b -> simulate (ho := ho) fuel m w = Val b.
Proof. exact (from_turns e m ho1 ho fuel1 fuel w b). Qed.
Print Assumptions C116_matching.
(** So it is known after that many turns whether it ends. *)
Theorem C116_matching_known {env : Env} e m (ho : HashOrder) fuel w : nfa_from e = Val m -> patience m <= fuel ->
  (simulate fuel m w = Diverge <-> spinning e w).
Proof. exact (from_decided e m ho fuel w). Qed.
Print Assumptions C116_matching_known.

(** C116: the same for the calls of a lexer, with what the lexer then is. *)
Theorem C116_lexing {env : Env} (K : Type) (ts : list (list char * generator K)) input lx (ho1 ho : HashOrder) fuel1 fuel n os lx' :
  build_lexer ts input = Val (inl lx) -> patience (lx_nfa lx) <= fuel ->
  lex_calls (ho := ho1) fuel1 n lx = Val (os, lx') -> lex_calls (ho := ho) fuel n lx = Val (os, lx').
Proof. exact (lexer_turns ts input lx ho1 ho fuel1 fuel n os lx'). Qed.
Print Assumptions C116_lexing.
Theorem C116_lexing_known {env : Env} (K : Type) (ts : list (list char * generator K)) input lx es L n (ho : HashOrder) fuel :
  build_lexer ts input = Val (inl lx) -> parsed ts es -> agreed L es -> patience (lx_nfa lx) <= fuel ->
  (lex_calls fuel n lx = Diverge <->
   exists os s, reaches L es (map snd ts) (starting input) os s /\ length os < n /\ stuck es s).
Proof. exact (lexer_decided ts input lx es L n ho fuel). Qed.
Print Assumptions C116_lexing_known.

(** C116: the same for parsing a text.  The loops of the parser take at most a
    number of turns that is linear in the length of the text. *)
Theorem C116_parsing {env : Env} {V K} `{DecEq V} `{DecEq K} (teq : K -> K -> bool) (g : grammar V K) (ho0 ho1 ho : HashOrder) fuel0 p tb
    (ts : list (list char * generator K)) input lx fuel1 fuel r :
  lawful teq -> built g -> slr_new (ho := ho0) teq fuel0 p g = Val tb -> build_lexer ts input = Val (inl lx) ->
  Nat.max (patience (lx_nfa lx)) ((2 * length input + 1) * (length (g_rules g) + 1) + 1) <= fuel ->
  parse_lexer (ho := ho1) teq fuel1 tb lx = r -> r <> Diverge -> parse_lexer (ho := ho) teq fuel tb lx = r.
Proof. exact (fun Ht => whole_turns teq Ht g ho0 ho1 ho fuel0 p tb ts input lx fuel1 fuel r). Qed.
Print Assumptions C116_parsing.
Theorem C116_parsing_known {env : Env} {V K} `{DecEq V} `{DecEq K} (teq : K -> K -> bool) (g : grammar V K) (ho : HashOrder) fuel0 p tb
    (ts : list (list char * generator K)) input lx es L fuel :
  lawful teq -> built g -> slr_new teq fuel0 p g = Val tb -> build_lexer ts input = Val (inl lx) -> parsed ts es -> agreed L es ->
  Nat.max (patience (lx_nfa lx)) ((2 * length input + 1) * (length (g_rules g) + 1) + 1) <= fuel ->
  (parse_lexer teq fuel tb lx = Diverge <->
   starves L es (map snd ts) teq g (starting input) \/ roams L es (map snd ts) teq g (starting input)).
Proof. exact (fun Ht => whole_decided teq Ht g ho fuel0 p tb ts input lx es L fuel). Qed.
Print Assumptions C116_parsing_known.

(** A regex one of whose texts is matched and another makes it run for ever: both
    are known after the stated number of turns. *)
Example C116_sample {env : Env} (ho : HashOrder) : exists m, nfa_from spinner = Val m /\
  simulate (ho := ho) (patience m) m (str "b"%string) = Val false /\
  simulate (ho := ho) (patience m) m (str "ab"%string) = Diverge.
Proof.
  destruct (nfa_from spinner) as [m| |] eqn:E; [|vm_compute in E; discriminate|vm_compute in E; discriminate].
  exists m. split; [reflexivity|]. split.
  - apply (C116_matching spinner m id_order ho 20); [exact E|apply le_n|]. vm_compute in E. injection E as <-. vm_compute. reflexivity.
  - apply (C116_matching_known spinner m ho); [exact E|apply le_n|exact spinner_spins].
Qed.

(** The example program. *)
Example C116_program {env : Env} (ho : HashOrder) : exists lx n, build_lexer expr_tokens (str "3+4?*1"%string) = Val (inl lx) /\
  forall fuel, Nat.max (patience (lx_nfa lx)) ((2 * length (str "3+4?*1"%string) + 1) * (length (g_rules expr_grammar) + 1) + 1) <= fuel ->
  parse_lexer (ho := ho) terminal_eq fuel expr_table lx = Val (Some n).
Proof.
  destruct C68_sample as (lx & Hl & Hb & Hn & Hlx & _ & _ & n & E). exists lx, n. split; [exact Hlx|]. intros fuel Hf.
  exact (C116_parsing terminal_eq expr_grammar id_order id_order ho 60 [] expr_table expr_tokens _ lx 60 fuel _ Hl Hb Hn Hlx Hf E ltac:(discriminate)).
Qed.
