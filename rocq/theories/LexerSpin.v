(** The calls of a lexer that never return. *)
From Verif Require Import Base RegexModel SpecRegex NfaModel SpecNfa NfaCompileProofs NfaLangProofs NfaSimProofs
  NfaMachineProofs NfaTermProofs LexerModel NfaProofs NfaWitness SpecLexer LexerProofs LexerCallsProofs LexerWitness
  SpecCalls LexerRef SpecSpin NfaSpin SpecStuck.

Section Calls.
  Context {env : Env} {K : Type}.
  Variables (m : nfa) (es : list expr) (gs : list (generator K)) (L : expr -> list char -> Prop).
  Hypothesis Hm : machine m 2 es.
  Hypothesis Ht : targets_ok m.
  Hypothesis Hgs : length gs = length es.
  Hypothesis HL : agreed L es.
  Hypothesis Hfeed : forall x, matched L es x -> feedable es x.

  Lemma txt_held (lx : lexer K) s n : holds lx s -> exists y, letters (ahead s) = txt lx n ++ y.
  Proof.
    intros Hh. exists (map snd (skipn n (items (lx_iter lx)))). unfold txt, letters.
    rewrite <- map_app, firstn_skipn, (holds_ahead lx s Hh). reflexivity.
  Qed.

  Lemma next_stuck (ho : HashOrder) fuel lx s : ours m es gs lx -> holds lx s -> stuck es s -> lex_next fuel lx = Diverge.
  Proof.
    intros Ho Hh (e & He & u & v & E & Hs).
    destruct (lex_next fuel lx) as [[o lx']| |] eqn:En; [exfalso| |reflexivity].
    - pose proof (next_val m es gs Hm Ht Hgs _ _ _ _ Ho En) as Hr. pose proof (result_finite m es gs Hm Hgs _ _ _ Hr) as Hf.
      destruct (Hf (length u)) as (U & HU).
      assert (Eu : txt lx (length u) = u).
      { unfold txt. rewrite (holds_ahead lx s Hh), <- firstn_map. change (map snd (ahead s)) with (letters (ahead s)).
        rewrite E, firstn_app, Nat.sub_diag, firstn_all. apply app_nil_r. }
      rewrite Eu in HU. exact (spin_infinite m 2 es Hm u e He Hs U HU).
    - destruct (next_no_panic m es gs Hm Ht Hgs _ _ Ho En).
  Qed.

  Lemma next_free lx s : ours m es gs lx -> holds lx s -> ~ stuck es s ->
    exists N o lx', call_result m es gs lx o lx' /\ forall (ho : HashOrder) fuel, N <= fuel -> lex_next fuel lx = Val (o, lx').
  Proof.
    intros Ho Hh Hns. apply (next_settled m es gs Hm Ht Hgs lx Ho). intros n.
    destruct (spinless_finite m 2 es Hm (txt lx n)) as (U & HU & _).
    - intros e He Hs. apply Hns. exists e. split; [exact He|]. destruct (txt_held lx s n Hh) as (y & ->).
      apply spinning_app. exact Hs.
    - exists U. intros r Hr. apply HU. exact Hr.
  Qed.

  Lemma refine lx s o lx' : holds lx s -> call_result m es gs lx o lx' -> exists s', call L es gs s o s' /\ holds lx' s'.
  Proof.
    intros Hh Hr. destruct o as [t|].
    - exact (refine_some m es gs L Hm Hgs HL _ _ _ _ Hh Hr).
    - exact (refine_none m es gs L Hm Hgs HL _ _ _ Hh Hr).
  Qed.

  Lemma calls_stuck (ho : HashOrder) fuel n os : forall lx s s', ours m es gs lx -> holds lx s -> reaches L es gs s os s' -> stuck es s' ->
    length os < n -> lex_calls fuel n lx = Diverge.
  Proof.
    revert n. induction os as [|o os IH]; intros [|n] lx s s' Ho Hh Hr Hs Hl; cbn [length] in Hl; try lia; cbn [lex_calls].
    - inversion Hr; subst. rewrite (next_stuck ho fuel lx s' Ho Hh Hs). reflexivity.
    - inversion Hr as [|? ? s1 ? ? Hc Hr']; subst.
      destruct (lex_next fuel lx) as [[o1 lx1]| |] eqn:En; cbn [bind]; [| |reflexivity].
      + pose proof (next_val m es gs Hm Ht Hgs _ _ _ _ Ho En) as Hcr. destruct (refine _ _ _ _ Hh Hcr) as (s2 & Hc2 & Hh2).
        destruct (call_unique L es gs Hfeed _ _ _ _ _ Hc Hc2) as [_ ->].
        rewrite (IH n lx1 s2 s' (result_ours m es gs _ _ _ Hcr Ho) Hh2 Hr' Hs); [reflexivity|lia].
      + destruct (next_no_panic m es gs Hm Ht Hgs _ _ Ho En).
  Qed.

  Lemma calls_free n : forall lx s, ours m es gs lx -> holds lx s ->
    (forall os s', reaches L es gs s os s' -> length os < n -> ~ stuck es s') ->
    exists os N lx', length os = n /\ calls L es gs s os /\ forall (ho : HashOrder) fuel, N <= fuel -> lex_calls fuel n lx = Val (os, lx').
  Proof.
    induction n as [|n IH]; intros lx s Ho Hh Hns; cbn [lex_calls].
    - exists [], 0, lx. split; [reflexivity|]. split; [constructor|auto].
    - destruct (next_free lx s Ho Hh) as (N1 & o & lx1 & Hcr & HN1).
      { apply (Hns [] s); [constructor|cbn; lia]. }
      destruct (refine _ _ _ _ Hh Hcr) as (s1 & Hc & Hh1).
      destruct (IH lx1 s1 (result_ours m es gs _ _ _ Hcr Ho) Hh1) as (os & N2 & lx2 & El & Hcs & HN2).
      { intros os s' Hr Hlt. apply (Hns (o :: os) s'); [econstructor; eassumption|cbn; lia]. }
      exists (o :: os), (Nat.max N1 N2), lx2. split; [cbn; lia|]. split; [econstructor; eassumption|].
      intros ho fuel Hf. rewrite HN1 by lia. cbn [bind]. rewrite HN2 by lia. reflexivity.
  Qed.
End Calls.

Section Built.
  Context {env : Env} {K : Type}.

  Lemma lexer_stuck (ts : list (list char * generator K)) input lx es L os s (ho : HashOrder) fuel n :
    build_lexer ts input = Val (inl lx) -> parsed ts es -> agreed L es ->
    reaches L es (map snd ts) (starting input) os s -> stuck es s -> length os < n -> lex_calls fuel n lx = Diverge.
  Proof.
    intros Hb Hp Ha Hr Hs Hn. pose proof (fun x => matched_feedable L ts input lx es x Hb Hp Ha) as Hfeed.
    destruct (build_state_es ts input lx es Hb Hp) as [_ Hm Ht Hl Ho Hi].
    apply (calls_stuck (lx_nfa lx) es (map snd ts) L Hm Ht Hl Ha Hfeed ho fuel n os lx (starting input) s Ho); [|exact Hr|exact Hs|exact Hn].
    left. rewrite Hi. repeat split.
  Qed.

  Lemma lexer_free (ts : list (list char * generator K)) input lx es L n :
    build_lexer ts input = Val (inl lx) -> parsed ts es -> agreed L es ->
    (forall os s, reaches L es (map snd ts) (starting input) os s -> length os < n -> ~ stuck es s) ->
    exists os N lx', length os = n /\ calls L es (map snd ts) (starting input) os /\
      forall (ho : HashOrder) fuel, N <= fuel -> lex_calls fuel n lx = Val (os, lx').
  Proof.
    intros Hb Hp Ha Hns. destruct (build_state_es ts input lx es Hb Hp) as [_ Hm Ht Hl Ho Hi].
    apply (calls_free (lx_nfa lx) es (map snd ts) L Hm Ht Hl Ha n lx (starting input) Ho); [|exact Hns].
    left. rewrite Hi. repeat split.
  Qed.
End Built.
