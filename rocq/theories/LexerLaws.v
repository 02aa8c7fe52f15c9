(** Regexes that are alike give the same matches and the same tokens. *)
From Verif Require Import Base RegexModel SpecRegex NfaModel SpecNfa SpecSpin LexerModel SpecLexer SpecCalls SpecStuck SpecLaws
  LawProofs NfaProofs NfaSpin LexerRef LexerSpin.

Section Laws.
  Context {env : Env}.

  Lemma matching_alike (ho : HashOrder) e e' m m' fuel w b : alike e e' -> nfa_from e = Val m -> nfa_from e' = Val m' ->
    simulate fuel m w = Val b -> exists N, forall (ho' : HashOrder) fuel', N <= fuel' -> simulate fuel' m' w = Val b.
  Proof.
    intros Ha Hm Hm' Hs.
    assert (Hn : ~ spinning e' w).
    { intros H. apply (al_spin _ _ Ha) in H. pose proof (proj1 (spinning_exact e m w Hm) H ho fuel). congruence. }
    destruct (proj2 (spinning_exact e' m' w Hm') Hn) as (N & HN). exists N. intros ho' fuel' Hf. destruct (HN ho' fuel' Hf) as (b' & Hb').
    rewrite Hb'. f_equal. pose proof (simulate_impl ho e m fuel w b Hm Hs) as H1. pose proof (simulate_impl ho' e' m' fuel' w b' Hm' Hb') as H2.
    pose proof (al_lang _ _ Ha w) as H3. destruct b, b'; try reflexivity; intuition congruence.
  Qed.

  Lemma patterns_alike es es' : Forall2 same_pattern es es' -> Forall2 alike es es'.
  Proof. induction 1; constructor; auto using pattern_alike. Qed.

  Context {K : Type}.

  Lemma alike_nth es es' i e : Forall2 alike es es' -> nth_error es i = Some e -> exists e', nth_error es' i = Some e' /\ alike e e'.
  Proof.
    intros H. revert i. induction H as [|x y l l' Hxy H IH]; intros [|i]; cbn; try discriminate.
    - intros [= ->]. eauto.
    - apply IH.
  Qed.
  Lemma alike_in es es' e : Forall2 alike es es' -> In e es -> exists e', In e' es' /\ alike e e'.
  Proof.
    intros H Hin. destruct (In_nth_error _ _ Hin) as (i & Hi). destruct (alike_nth _ _ _ _ H Hi) as (e' & He' & Ha).
    exists e'. split; [eapply nth_error_In; exact He'|exact Ha].
  Qed.
  Lemma alike_list_sym es es' : Forall2 alike es es' -> Forall2 alike es' es.
  Proof. induction 1; constructor; auto. apply alike_sym. assumption. Qed.

  Lemma matched_alike es es' x : Forall2 alike es es' -> matched impl_lang es x -> matched impl_lang es' x.
  Proof. intros H (e & He & Hx). destruct (alike_in _ _ _ H He) as (e' & He' & Ha). exists e'. split; [assumption|]. apply (al_lang _ _ Ha). assumption. Qed.
  Lemma feedable_alike es es' x : Forall2 alike es es' -> feedable es x -> feedable es' x.
  Proof.
    intros H [->|(e & He & Hx)]; [left; reflexivity|]. destruct (alike_in _ _ _ H He) as (e' & He' & Ha). right. exists e'. split; [assumption|].
    apply (al_begun _ _ Ha). assumption.
  Qed.
  Lemma first_alike es es' x i : Forall2 alike es es' -> first_match impl_lang es x i -> first_match impl_lang es' x i.
  Proof.
    intros H ((e & He & Hx) & Hj). split.
    - destruct (alike_nth _ _ _ _ H He) as (e' & He' & Ha). exists e'. split; [assumption|]. apply (al_lang _ _ Ha). assumption.
    - intros j e' Hlt He' Hx'. destruct (alike_nth _ _ _ _ (alike_list_sym _ _ H) He') as (e2 & He2 & Ha). apply (Hj j e2 Hlt He2).
      apply (al_lang _ _ Ha). assumption.
  Qed.
  Lemma last_alike es es' u v : Forall2 alike es es' -> last_match impl_lang es u v -> last_match impl_lang es' u v.
  Proof. intros H Hl v1 v2 E Hne Hm. apply (Hl v1 v2 E Hne). apply (matched_alike _ _ _ (alike_list_sym _ _ H)). assumption. Qed.
  Lemma stuck_alike es es' s : Forall2 alike es es' -> stuck es s -> stuck es' s.
  Proof. intros H (e & He & Hx). destruct (alike_in _ _ _ H He) as (e' & He' & Ha). exists e'. split; [assumption|]. apply (al_spin _ _ Ha). assumption. Qed.

  Lemma call_alike es es' (gens : list (generator K)) s o s' : Forall2 alike es es' -> call impl_lang es gens s o s' -> call impl_lang es' gens s o s'.
  Proof.
    intros H. pose proof (alike_list_sym _ _ H) as H'. intros [u v c r i g E Hne Hf Hnf Hm Hg Hl|v c r E Hf Hnf Hl|i g E Hm Hg|Hf Hm].
    - eapply call_token; eauto using feedable_alike, first_alike, last_alike.
    - eapply call_vain; eauto using feedable_alike, last_alike.
    - eapply call_last; eauto using first_alike.
    - apply call_over; [eauto using feedable_alike|]. destruct Hm as [Hm|Hm]; [left; exact Hm|right]. intros Hx. apply Hm. eauto using matched_alike.
  Qed.
  Lemma calls_alike es es' (gens : list (generator K)) s os : Forall2 alike es es' -> calls impl_lang es gens s os -> calls impl_lang es' gens s os.
  Proof. intros H Hc. induction Hc; [constructor|]. econstructor; [eapply call_alike; eassumption|assumption]. Qed.
  Lemma reaches_alike es es' (gens : list (generator K)) s os s' : Forall2 alike es es' -> reaches impl_lang es gens s os s' -> reaches impl_lang es' gens s os s'.
  Proof. intros H Hc. induction Hc; [constructor|]. econstructor; [eapply call_alike; eassumption|assumption]. Qed.

  Lemma lexing_alike (ts ts' : list (list char * generator K)) es es' input lx lx' (ho : HashOrder) fuel n os lx1 :
    Forall2 alike es es' -> map snd ts = map snd ts' -> parsed ts es -> parsed ts' es' ->
    build_lexer ts input = Val (inl lx) -> build_lexer ts' input = Val (inl lx') -> lex_calls fuel n lx = Val (os, lx1) ->
    exists N lx2, forall (ho' : HashOrder) fuel', N <= fuel' -> lex_calls fuel' n lx' = Val (os, lx2).
  Proof.
    intros Ha Hg Hp Hp' Hb Hb' Hr. pose proof (alike_list_sym _ _ Ha) as Ha'.
    assert (Hi : agreed impl_lang es) by (left; reflexivity). assert (Hi' : agreed impl_lang es') by (left; reflexivity).
    destruct (lexer_calls ts input lx es ho fuel n os lx1 impl_lang Hb Hp Hi Hr) as (Hn & Hc).
    destruct (lexer_free ts' input lx' es' impl_lang n Hb' Hp' Hi') as (os' & N & lx2 & Hn' & Hc' & HN).
    - intros os0 s Hre Hlt Hst. rewrite <- Hg in Hre.
      pose proof (lexer_stuck ts input lx es impl_lang os0 s ho fuel n Hb Hp Hi (reaches_alike _ _ _ _ _ _ Ha' Hre) (stuck_alike _ _ _ Ha' Hst) Hlt). congruence.
    - exists N, lx2. rewrite <- Hg in Hc'. apply (calls_alike _ _ _ _ _ Ha') in Hc'.
      assert (E : os = os').
      { apply (calls_unique impl_lang es (map snd ts) (fun x => matched_feedable impl_lang ts input lx es x Hb Hp Hi) os (starting input) os' Hc Hc'). lia. }
      rewrite E. exact HN.
  Qed.
End Laws.
