(** Property C64: what becomes of every pattern text. *)
From Verif Require Import Base RegexModel SpecRegex SpecPattern SpecErrors SpecTokens SpecPanic LexerModel NfaModel RegexProofs
  RegexTokens RegexPanicProofs.

(** C64: the texts that are read, and what as. *)
Theorem C64_read {env : Env} w e : regex_parse w = Val (ParseOk e) <-> pattern_of w e.
Proof. exact (pattern_of_ok w e). Qed.
Print Assumptions C64_read.
(** The texts whose parsing panics. *)
Theorem C64_panics {env : Env} w : regex_parse w = Panic <-> pattern_crashes w.
Proof. exact (pattern_crashes_ok w). Qed.
Print Assumptions C64_panics.
(** All others are rejected. *)
Theorem C64_rejected {env : Env} w :
  (exists errs, regex_parse w = Val (ParseErr errs)) <-> ~ pattern_crashes w /\ ~ exists e, pattern_of w e.
Proof. exact (pattern_rejects w). Qed.
Print Assumptions C64_rejected.
(** Without overflow checks no text makes the parser panic. *)
Theorem C64_unchecked {env : Env} w : pattern_crashes w -> overflow_checks = true.
Proof. exact (pattern_crashes_checked w). Qed.
Print Assumptions C64_unchecked.
(** The three outcomes of adding a pattern to the lexer, after any patterns that
    were added before. *)
Theorem C64_add_token {env : Env} (K : Type) (lg0 lg : lexgen K) ts p g :
  lexgen_new = Val lg0 -> add_tokens lg0 ts = Val (inl lg) ->
  (add_token lg p g = Panic <-> pattern_crashes p \/ exists e, pattern_of p e /\ gapped e) /\
  ((exists lg', add_token lg p g = Val (inl lg')) <-> exists e, pattern_of p e /\ ~ gapped e) /\
  ((exists errs, add_token lg p g = Val (inr errs)) <-> ~ pattern_crashes p /\ ~ exists e, pattern_of p e).
Proof. exact (add_token_cases K lg0 lg ts p g). Qed.
Print Assumptions C64_add_token.

(** The same overflow is met, not reached after a stray parenthesis, not reached
    after an error, and met although the tokens before it are wrong, because the
    end of the range is checked one token later. *)
Example C64_met : let _ := ascii_env true in pattern_crashes (str "a{4294967296}"%string).
Proof. intros env. apply (@C64_panics env). vm_compute. reflexivity. Qed.
Example C64_stray : let _ := ascii_env true in
  pattern_of (str "a){4294967296}"%string) (ELit (LMatch $"a") None) /\ ~ pattern_crashes (str "a){4294967296}"%string).
Proof.
  intros env. split; [apply (@C64_read env); vm_compute; reflexivity|]. intros H. apply (@C64_panics env) in H. vm_compute in H. discriminate.
Qed.
Example C64_error_first : let _ := ascii_env true in
  ~ pattern_crashes (str "*{4294967296}"%string) /\ ~ exists e, pattern_of (str "*{4294967296}"%string) e.
Proof. intros env. apply (@C64_rejected env). eexists. vm_compute. reflexivity. Qed.
Example C64_range : let _ := ascii_env true in
  pattern_crashes (str "[a-]{4294967296}"%string) /\ ~ pattern_crashes (str "[a-]b{4294967296}"%string).
Proof.
  intros env. split; [apply (@C64_panics env); vm_compute; reflexivity|]. intros H. apply (@C64_panics env) in H. vm_compute in H. discriminate.
Qed.
(** The panic by the rules alone. *)
Example C64_by_rules : let _ := ascii_env true in pattern_crashes (str "a{4294967299"%string).
Proof.
  intros env. exists [{| tk_kind := TMatch $"a"; tk_pos := (0, 1) |}]. split.
  - apply (@tokens_ok env). vm_compute. reflexivity.
  - left. split.
    + exists [], (ELit (LMatch $"a") None). apply (read_all (ELit (LMatch $"a") None)).
      * repeat constructor.
      * intros [H|(u & H)]; [discriminate|]. destruct u as [|x [|y u]]; discriminate.
    + intros (e & He & rest & E). destruct (expr_tokens e) as [|k ks]; [discriminate|]. injection E as _ E. destruct ks; discriminate.
Qed.
(** Adding a pattern: an empty alternative inside, one at the end, none. *)
Example C64_add_sample : let _ := ascii_env true in
  (exists e, pattern_of (str "a(|b)"%string) e /\ gapped e) /\
  (~ exists e, pattern_of (str "a|"%string) e) /\
  (exists e, pattern_of (str "(a|b)c"%string) e /\ ~ gapped e).
Proof.
  intros env. split; [|split].
  - eexists. split; [apply (@C64_read env); vm_compute; reflexivity|]. apply gapped_ok. vm_compute. reflexivity.
  - apply (@C64_rejected env). eexists. vm_compute. reflexivity.
  - eexists. split; [apply (@C64_read env); vm_compute; reflexivity|]. intros H. apply gapped_ok in H. vm_compute in H. discriminate.
Qed.
