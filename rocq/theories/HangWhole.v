(** Parsing a text with patterns that do not hang. *)
From Verif Require Import Base RegexModel SpecRegex NfaModel SpecNfa SpecSpin SpecHang LexerModel SpecLexer SpecCalls SpecStuck GrammarModel SlrModel PangoModel
  SpecCfg SpecMachine SpecWhole HangProofs GrowthProofs TurnWhole.

Lemma whole_safe {env : Env} {V K} {dv : DecEq V} {dt : DecEq K} fits (teq : K -> K -> bool) (Ht : lawful teq) (g : grammar V K) (ho : HashOrder) fuel0 p tb
    (ts : list (list char * generator K)) input lx es L fuel :
  built g -> slr_new teq fuel0 p g = Val tb -> build_lexer ts input = Val (inl lx) -> parsed ts es -> agreed L es ->
  (forall e, In e es -> told fits e) -> existsb (hangs fits) es = false ->
  Nat.max (factor (lx_nfa lx)) (turns g (length input)) <= fuel ->
  (parse_lexer teq fuel tb lx = Diverge <-> roams L es (map snd ts) teq g (starting input)).
Proof.
  intros Hb H Hlx Hp Ha Htold Hh Hf. rewrite (whole_decided teq Ht g ho fuel0 p tb ts input lx es L fuel Hb H Hlx Hp Ha Hf).
  split; [intros [Hs|Hr]; [exfalso|exact Hr]|auto]. destruct Hs as (ks & s & k & m & _ & _ & _ & e & He & Hs).
  assert (Hx : existsb (hangs fits) es = true) by (apply existsb_exists; exists e; split; [exact He|apply (hangs_spinning fits e (Htold e He)); eauto]). congruence.
Qed.
