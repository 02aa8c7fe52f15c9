(** The lexer with a new order at every iteration and the lexer of
    [LexerModel] give the same results. *)
From Verif Require Import Base RegexModel SpecRegex RegexParseProofs RegexProofs NfaModel SpecNfa NfaCompileProofs NfaLangProofs Iter LexerModel
  TickModel NfaSimProofs NfaMachineProofs NfaProofs TickProofs LexerProofs LexerCallsProofs LexerWitness.

Definition same {A} (l l' : list A) : Prop := forall x, In x l <-> In x l'.
Lemma same_sym {A} (l l' : list A) : same l l' -> same l' l.
Proof. intros H x. symmetry. apply H. Qed.

Section Feed.
  Context {env : Env}.

  Lemma same_ok m l l' : same l l' -> runs_ok m l -> runs_ok m l'.
  Proof. intros H Hr x Hx. apply Hr, H. assumption. Qed.
  Lemma same_fed m c l l' x : same l l' -> fed m (fun r => In r l) c x <-> fed m (fun r => In r l') c x.
  Proof. intros H. split; intros (r & r' & Hr & Hx); exists r, r'; (split; [apply H|]; assumption). Qed.
  Lemma fed_ok m c R x : wf_nfa m -> fed m R c x -> has_state m x.
  Proof. intros Hwf (r & r' & _ & H1 & H2). eapply star_has_state; [eassumption| |eassumption]. eapply char_has_state; eassumption. Qed.

  Lemma feed_tick m (ho1 : HashOrder) fuel rs c l a : wf_nfa m -> runs_ok m rs -> @sim_feed env ho1 fuel m rs c = Val (l, a) ->
    runs_ok m l /\ forall (ho2 : HashOrder) fuel' t rs', length l <= fuel' -> same rs rs' ->
    exists l' t', @tick_feed env ho2 fuel' t m rs' c = Val (l', a, t') /\ same l l'.
  Proof.
    intros Hwf Hr H. unfold sim_feed in H. destruct (feed_runs _ _ _ _) as [l0| |] eqn:E; try discriminate. cbn [bind] in H.
    destruct (sim_accepting m l0) as [a0| |] eqn:Ea; try discriminate. cbn [bind] in H. injection H as -> ->.
    pose proof (@feed_runs_spec env ho1 m fuel rs c l Hwf Hr E) as Hl. pose proof (@feed_runs_ok env ho1 m fuel rs c l Hwf Hr E) as Hok.
    split; [assumption|]. intros ho2 fuel' t rs' Hf Hs. pose proof (same_ok m _ _ Hs Hr) as Hr'.
    destruct (@tick_feed_runs_total env ho2 m l fuel' rs' c Hwf Hr') with (t := t) as (l' & t' & E').
    - intros x Hx. apply Hl. apply (same_fed m c _ _ x Hs). assumption.
    - assumption.
    - pose proof (@tick_feed_runs_spec env ho2 m fuel' rs' c Hwf Hr' _ _ _ E') as Hl'.
      assert (Hsl : same l l') by (intros x; rewrite Hl, Hl'; apply same_fed; assumption).
      exists l', t'. split; [|assumption]. unfold tick_feed. rewrite E'. cbn [bind]. rewrite <- (accepting_set m l l' Hok Hsl), Ea. reflexivity.
  Qed.

  Lemma tick_feed_back m (ho2 : HashOrder) fuel t rs c l a t' : wf_nfa m -> runs_ok m rs -> @tick_feed env ho2 fuel t m rs c = Val (l, a, t') ->
    runs_ok m l /\ forall (ho1 : HashOrder) fuel' rs', length l <= fuel' -> same rs rs' ->
    exists l', @sim_feed env ho1 fuel' m rs' c = Val (l', a) /\ same l l'.
  Proof.
    intros Hwf Hr H. unfold tick_feed in H. destruct (tick_feed_runs _ _ _ _ _) as [[l0 t0]| |] eqn:E; try discriminate. cbn [bind] in H.
    destruct (sim_accepting m l0) as [a0| |] eqn:Ea; try discriminate. cbn [bind] in H. injection H as -> -> ->.
    pose proof (@tick_feed_runs_spec env ho2 m fuel rs c Hwf Hr _ _ _ E) as Hl.
    assert (Hok : runs_ok m l) by (intros x Hx; apply Hl in Hx; eapply fed_ok; eassumption).
    split; [assumption|]. intros ho1 fuel' rs' Hf Hs. pose proof (same_ok m _ _ Hs Hr) as Hr'.
    destruct (@feed_runs_total env ho1 m l fuel' rs' c Hwf Hr') as (l' & E').
    - intros x Hx. apply Hl. apply (same_fed m c _ _ x Hs). assumption.
    - assumption.
    - pose proof (@feed_runs_spec env ho1 m fuel' rs' c l' Hwf Hr' E') as Hl'.
      assert (Hsl : same l l') by (intros x; rewrite Hl, Hl'; apply same_fed; assumption).
      exists l'. split; [|assumption]. unfold sim_feed. rewrite E'. cbn [bind]. rewrite <- (accepting_set m l l' Hok Hsl), Ea. reflexivity.
  Qed.

  (** *** The answer of the simulator *)

  Lemma str_tick m (ho1 : HashOrder) fuel w : wf_nfa m -> forall rs last l b, runs_ok m rs -> @feed_str_from env ho1 fuel m rs last w = Val (l, b) ->
    exists N, forall (ho2 : HashOrder) fuel' t rs', N <= fuel' -> same rs rs' ->
    exists l' t', @tick_feed_str env ho2 fuel' t m rs' last w = Val (l', b, t').
  Proof.
    intros Hwf. induction w as [|c w IH]; intros rs last l b Hr H; cbn [feed_str_from] in H.
    - exists 0. intros ho2 fuel' t rs' _ Hs. cbn [tick_feed_str]. rewrite <- (accepting_set m rs rs' Hr Hs).
      destruct last as [b0|]; destruct (sim_accepting m rs) as [b1| |]; try discriminate; cbn [bind] in *; injection H as <- <-; eauto.
    - destruct (sim_feed fuel m rs c) as [[l1 a]| |] eqn:E; try discriminate. cbn [bind] in H.
      destruct (feed_tick m ho1 fuel rs c l1 a Hwf Hr E) as [Hok HF]. destruct (IH _ _ _ _ Hok H) as (N & HN).
      exists (Nat.max (length l1) N). intros ho2 fuel' t rs' Hf Hs. cbn [tick_feed_str].
      destruct (HF ho2 fuel' t rs') as (l' & t' & -> & Hs'); [lia|assumption|]. cbn [bind fst snd]. apply HN; [lia|assumption].
  Qed.
  Lemma tick_str_back m (ho2 : HashOrder) fuel w : wf_nfa m -> forall t rs last l b t', runs_ok m rs -> @tick_feed_str env ho2 fuel t m rs last w = Val (l, b, t') ->
    exists N, forall (ho1 : HashOrder) fuel' rs', N <= fuel' -> same rs rs' ->
    exists l', @feed_str_from env ho1 fuel' m rs' last w = Val (l', b).
  Proof.
    intros Hwf. induction w as [|c w IH]; intros t rs last l b t' Hr H; cbn [tick_feed_str] in H.
    - exists 0. intros ho1 fuel' rs' _ Hs. cbn [feed_str_from]. rewrite <- (accepting_set m rs rs' Hr Hs).
      destruct last as [b0|]; destruct (sim_accepting m rs) as [b1| |]; try discriminate; cbn [bind] in *; injection H as <- <- _; eauto.
    - destruct (tick_feed fuel t m rs c) as [[[l1 a] t1]| |] eqn:E; try discriminate. cbn [bind fst snd] in H.
      destruct (tick_feed_back m ho2 fuel t rs c l1 a t1 Hwf Hr E) as [Hok HF]. destruct (IH _ _ _ _ _ _ Hok H) as (N & HN).
      exists (Nat.max (length l1) N). intros ho1 fuel' rs' Hf Hs. cbn [feed_str_from].
      destruct (HF ho1 fuel' rs') as (l' & -> & Hs'); [lia|assumption|]. cbn [bind]. apply HN; [lia|assumption].
  Qed.

  Lemma new_same m (ho1 ho2 : HashOrder) fuel fuel' t rs rs' t' : wf_nfa m -> @sim_new ho1 fuel m = Val rs -> @tick_new ho2 fuel' t m = Val (rs', t') ->
    same rs rs'.
  Proof.
    intros Hwf H1 H2 x. rewrite (proj2 (@sim_new_spec ho1 m fuel rs Hwf H1)), (proj2 (@tick_new_spec ho2 m fuel' t rs' t' Hwf H2)). reflexivity.
  Qed.
  Ltac new_same_tac := match goal with H1 : @sim_new ?h1 ?f ?m = Val ?rs, H2 : @tick_new ?h2 ?f' ?t ?m = Val (?rs', ?t') |- _ => exact (new_same m h1 h2 f f' t rs rs' t' ltac:(assumption) H1 H2) end.
  Lemma sim_new_total (ho : HashOrder) m fuel : wf_nfa m -> length (nfa_states m) <= fuel -> exists rs, sim_new fuel m = Val rs.
  Proof. intros Hwf Hf. unfold sim_new. destruct (static_closure_total m fuel Hwf Hf) as (l & ->). cbn [bind]. eauto. Qed.

  Lemma simulate_tick m m' w (ho1 ho2 : HashOrder) b : nfa_build m' = Val m ->
    (exists fuel, @simulate env ho1 fuel m w = Val b) <-> (exists N, forall fuel t, N <= fuel -> exists t', @tick_simulate env ho2 fuel t m w = Val (b, t')).
  Proof.
    intros Hb. apply nfa_build_spec in Hb. destruct Hb as [_ Hwf]. split.
    - intros (fuel & H). unfold simulate in H. destruct (sim_new fuel m) as [rs| |] eqn:E1; try discriminate. cbn [bind] in H.
      destruct (feed_str fuel m rs w) as [[l b']| |] eqn:E2; try discriminate. cbn [bind] in H. injection H as ->.
      destruct (str_tick m ho1 fuel w Hwf rs None l b (proj1 (sim_new_spec m fuel rs Hwf E1)) E2) as (N & HN).
      exists (Nat.max (length (nfa_states m)) N). intros fuel' t Hf. unfold tick_simulate.
      destruct (@tick_new_total ho2 m fuel' t Hwf) as (rs' & t1 & E3); [lia|]. rewrite E3. cbn [bind].
      destruct (HN ho2 fuel' t1 rs') as (l' & t2 & ->); [lia|new_same_tac|]. cbn [bind snd]. eauto.
    - intros (N & HN). destruct (HN N 0 (le_n _)) as (t' & H). unfold tick_simulate in H.
      destruct (tick_new N 0 m) as [[rs t1]| |] eqn:E1; try discriminate. cbn [bind] in H.
      destruct (tick_feed_str _ _ _ _ _ _) as [[[l b'] t2]| |] eqn:E2; try discriminate. cbn [bind snd] in H. injection H as -> ->.
      destruct (tick_str_back m ho2 N w Hwf t1 rs None l b t' (proj1 (tick_new_spec m N 0 rs t1 Hwf E1)) E2) as (N' & HN').
      exists (Nat.max (length (nfa_states m)) N'). unfold simulate.
      destruct (sim_new_total ho1 m (Nat.max (length (nfa_states m)) N') Hwf) as (rs' & E3); [lia|]. rewrite E3. cbn [bind]. unfold feed_str.
      destruct (HN' ho1 (Nat.max (length (nfa_states m)) N') rs') as (l' & ->); [lia| |reflexivity].
      apply same_sym. new_same_tac.
  Qed.
End Feed.

Ltac new_same_tac := match goal with H1 : @sim_new ?h1 ?f ?m = Val ?rs, H2 : @tick_new ?h2 ?f' ?t ?m = Val (?rs', ?t') |- _ => exact (new_same m h1 h2 f f' t rs rs' t' ltac:(assumption) H1 H2) end.

Section Lex.
  Context {env : Env} {K : Type}.

  Lemma lex_loop_tick (ho1 : HashOrder) fuel (lx : lexer K) : wf_nfa (lx_nfa lx) -> forall steps i rs kind o lx', runs_ok (lx_nfa lx) rs ->
    @lex_loop env ho1 K fuel steps lx i rs kind = Val (o, lx') ->
    exists N, forall (ho2 : HashOrder) fuel' t rs', N <= fuel' -> same rs rs' ->
    exists t', @tick_lex_loop env ho2 K fuel' t steps lx i rs' kind = Val (o, lx', t').
  Proof.
    intros Hwf. induction steps as [|steps IH]; intros i rs kind o lx' Hr H; cbn [lex_loop] in H; cbn [tick_lex_loop];
      destruct (iter_next i) as [[ch|] i1].
    - discriminate.
    - exists 0. intros ho2 fuel' t rs' _ Hs. rewrite <- (accepting_set _ rs rs' Hr Hs). destruct (sim_accepting _ rs) as [[]| |]; try discriminate; cbn [bind] in *.
      + injection H as ->. eauto.
      + injection H as <- <-. eauto.
    - destruct (sim_can_feed (lx_nfa lx) rs ch) as [can| |] eqn:Ec; try discriminate. cbn [bind] in H.
      destruct can; cbn [negb] in H.
      2:{ exists 0. intros ho2 fuel' t rs' _ Hs. rewrite <- (can_feed_set _ rs rs' ch Hr Hs), Ec. cbn [bind negb]. injection H as ->. eauto. }
      destruct (sim_feed fuel (lx_nfa lx) rs ch) as [[l a]| |] eqn:E; try discriminate. cbn [bind] in H.
      destruct (feed_tick _ ho1 fuel rs ch l a Hwf Hr E) as [Hok HF]. destruct a.
      + destruct (hd_error (sim_final_states (lx_nfa lx) l)) as [f|] eqn:Ef; try discriminate. cbn [of_option bind] in H.
        destruct (find_token f (lx_tokens lx)) as [g|] eqn:Eg; try discriminate. cbn [of_option bind] in H.
        destruct (IH _ _ _ _ _ Hok H) as (N & HN). exists (Nat.max (length l) N). intros ho2 fuel' t rs' Hf Hs.
        rewrite <- (can_feed_set _ rs rs' ch Hr Hs), Ec. cbn [bind negb].
        destruct (HF ho2 fuel' t rs') as (l' & t' & -> & Hs'); [lia|assumption|]. cbn [bind].
        rewrite <- (final_states_set _ l l' Hs'), Ef. cbn [of_option bind]. rewrite Eg. cbn [of_option bind]. apply HN; [lia|assumption].
      + destruct (IH _ _ _ _ _ Hok H) as (N & HN). exists (Nat.max (length l) N). intros ho2 fuel' t rs' Hf Hs.
        rewrite <- (can_feed_set _ rs rs' ch Hr Hs), Ec. cbn [bind negb].
        destruct (HF ho2 fuel' t rs') as (l' & t' & -> & Hs'); [lia|assumption|]. cbn [bind]. apply HN; [lia|assumption].
    - exists 0. intros ho2 fuel' t rs' _ Hs. rewrite <- (accepting_set _ rs rs' Hr Hs). destruct (sim_accepting _ rs) as [[]| |]; try discriminate; cbn [bind] in *.
      + injection H as ->. eauto.
      + injection H as <- <-. eauto.
  Qed.

  Lemma tick_loop_back (ho2 : HashOrder) fuel (lx : lexer K) : wf_nfa (lx_nfa lx) -> forall steps t i rs kind o lx' t', runs_ok (lx_nfa lx) rs ->
    @tick_lex_loop env ho2 K fuel t steps lx i rs kind = Val (o, lx', t') ->
    exists N, forall (ho1 : HashOrder) fuel' rs', N <= fuel' -> same rs rs' ->
    @lex_loop env ho1 K fuel' steps lx i rs' kind = Val (o, lx').
  Proof.
    intros Hwf. induction steps as [|steps IH]; intros t i rs kind o lx' t' Hr H; cbn [tick_lex_loop] in H; cbn [lex_loop];
      destruct (iter_next i) as [[ch|] i1].
    - discriminate.
    - exists 0. intros ho1 fuel' rs' _ Hs. rewrite <- (accepting_set _ rs rs' Hr Hs). destruct (sim_accepting _ rs) as [[]| |]; try discriminate; cbn [bind] in *.
      + injection H as -> ->. reflexivity.
      + injection H as <- <- _. reflexivity.
    - destruct (sim_can_feed (lx_nfa lx) rs ch) as [can| |] eqn:Ec; try discriminate. cbn [bind] in H.
      destruct can; cbn [negb] in H.
      2:{ exists 0. intros ho1 fuel' rs' _ Hs. rewrite <- (can_feed_set _ rs rs' ch Hr Hs), Ec. cbn [bind negb]. injection H as -> ->. reflexivity. }
      destruct (tick_feed fuel t (lx_nfa lx) rs ch) as [[[l a] t1]| |] eqn:E; try discriminate. cbn [bind] in H.
      destruct (tick_feed_back _ ho2 fuel t rs ch l a t1 Hwf Hr E) as [Hok HF]. destruct a.
      + destruct (hd_error (sim_final_states (lx_nfa lx) l)) as [f|] eqn:Ef; try discriminate. cbn [of_option bind] in H.
        destruct (find_token f (lx_tokens lx)) as [g|] eqn:Eg; try discriminate. cbn [of_option bind] in H.
        destruct (IH _ _ _ _ _ _ _ Hok H) as (N & HN). exists (Nat.max (length l) N). intros ho1 fuel' rs' Hf Hs.
        rewrite <- (can_feed_set _ rs rs' ch Hr Hs), Ec. cbn [bind negb].
        destruct (HF ho1 fuel' rs') as (l' & -> & Hs'); [lia|assumption|]. cbn [bind].
        rewrite <- (final_states_set _ l l' Hs'), Ef. cbn [of_option bind]. rewrite Eg. cbn [of_option bind]. apply HN; [lia|assumption].
      + destruct (IH _ _ _ _ _ _ _ Hok H) as (N & HN). exists (Nat.max (length l) N). intros ho1 fuel' rs' Hf Hs.
        rewrite <- (can_feed_set _ rs rs' ch Hr Hs), Ec. cbn [bind negb].
        destruct (HF ho1 fuel' rs') as (l' & -> & Hs'); [lia|assumption|]. cbn [bind]. apply HN; [lia|assumption].
    - exists 0. intros ho1 fuel' rs' _ Hs. rewrite <- (accepting_set _ rs rs' Hr Hs). destruct (sim_accepting _ rs) as [[]| |]; try discriminate; cbn [bind] in *.
      + injection H as -> ->. reflexivity.
      + injection H as <- <- _. reflexivity.
  Qed.

  Lemma loop_nfa (ho : HashOrder) fuel (lx : lexer K) : forall steps i rs kind o lx', lex_loop fuel steps lx i rs kind = Val (o, lx') -> lx_nfa lx' = lx_nfa lx.
  Proof.
    assert (He : forall i kind o lx', emit lx i kind = (o, lx') -> lx_nfa lx' = lx_nfa lx).
    { intros i [k|] o lx' H; cbn in H.
      - unfold emit in H. destruct (consume_token i) as [t i']. injection H as _ <-. reflexivity.
      - injection H as _ <-. reflexivity. }
    induction steps as [|steps IH]; intros i rs kind o lx' H; cbn [lex_loop] in H; destruct (iter_next i) as [[ch|] i1]; try discriminate.
    - destruct (sim_accepting _ rs) as [[]| |]; try discriminate; cbn [bind] in H; injection H; intros; subst; eauto.
    - destruct (sim_can_feed _ _ _) as [[]| |]; try discriminate; cbn [bind negb] in H.
      + destruct (sim_feed _ _ _ _) as [[l []]| |]; try discriminate; cbn [bind] in H.
        * destruct (hd_error _); try discriminate. cbn [of_option bind] in H. destruct (find_token _ _); try discriminate. cbn [of_option bind] in H. eauto.
        * eauto.
      + injection H as H. eauto.
    - destruct (sim_accepting _ rs) as [[]| |]; try discriminate; cbn [bind] in H; injection H; intros; subst; eauto.
  Qed.

  Lemma next_tick (ho1 : HashOrder) fuel (lx : lexer K) o lx' : wf_nfa (lx_nfa lx) -> @lex_next env ho1 K fuel lx = Val (o, lx') ->
    lx_nfa lx' = lx_nfa lx /\ exists N, forall (ho2 : HashOrder) fuel' t, N <= fuel' -> exists t', @tick_next env ho2 K fuel' t lx = Val (o, lx', t').
  Proof.
    intros Hwf H. unfold lex_next in H. destruct (sim_new fuel (lx_nfa lx)) as [rs| |] eqn:E; try discriminate. cbn [bind] in H.
    split; [eapply loop_nfa; eassumption|].
    destruct (lex_loop_tick ho1 fuel lx Hwf _ _ _ _ _ _ (proj1 (sim_new_spec _ fuel rs Hwf E)) H) as (N & HN).
    exists (Nat.max (length (nfa_states (lx_nfa lx))) N). intros ho2 fuel' t Hf. unfold tick_next.
    destruct (@tick_new_total ho2 (lx_nfa lx) fuel' t Hwf) as (rs' & t1 & E3); [lia|]. rewrite E3. cbn [bind].
    apply HN; [lia|]. new_same_tac.
  Qed.
  Lemma tick_next_back (ho2 : HashOrder) fuel t (lx : lexer K) o lx' t' : wf_nfa (lx_nfa lx) -> @tick_next env ho2 K fuel t lx = Val (o, lx', t') ->
    lx_nfa lx' = lx_nfa lx /\ exists N, forall (ho1 : HashOrder) fuel', N <= fuel' -> @lex_next env ho1 K fuel' lx = Val (o, lx').
  Proof.
    intros Hwf H. unfold tick_next in H. destruct (tick_new fuel t (lx_nfa lx)) as [[rs t1]| |] eqn:E; try discriminate. cbn [bind] in H.
    destruct (tick_loop_back ho2 fuel lx Hwf _ _ _ _ _ _ _ _ (proj1 (tick_new_spec _ fuel t rs t1 Hwf E)) H) as (N & HN).
    assert (HN' : forall (ho1 : HashOrder) fuel', Nat.max (length (nfa_states (lx_nfa lx))) N <= fuel' -> @lex_next env ho1 K fuel' lx = Val (o, lx')).
    { intros ho1 fuel' Hf. unfold lex_next. destruct (sim_new_total ho1 (lx_nfa lx) fuel' Hwf) as (rs' & E3); [lia|]. rewrite E3. cbn [bind].
      apply HN; [lia|]. apply same_sym. new_same_tac. }
    split; [|eauto]. pose proof (HN' id_order _ (le_n _)) as H'. unfold lex_next in H'.
    destruct (@sim_new id_order _ _) as [rs'| |]; try discriminate. cbn [bind] in H'. eapply (loop_nfa id_order). eassumption.
  Qed.

  Lemma calls_tick (ho1 : HashOrder) fuel n : forall (lx : lexer K) os lx', wf_nfa (lx_nfa lx) -> @lex_calls env ho1 K fuel n lx = Val (os, lx') ->
    exists N, forall (ho2 : HashOrder) fuel' t, N <= fuel' -> exists t', @tick_calls env ho2 K fuel' t n lx = Val (os, lx', t').
  Proof.
    induction n as [|n IH]; intros lx os lx' Hwf H; cbn [lex_calls] in H; cbn [tick_calls].
    - injection H as <- <-. exists 0. eauto.
    - destruct (lex_next fuel lx) as [[o l]| |] eqn:E; try discriminate. cbn [bind] in H.
      destruct (lex_calls fuel n l) as [[os' l2]| |] eqn:E2; try discriminate. cbn [bind] in H. injection H as <- <-.
      destruct (next_tick ho1 fuel lx o l Hwf E) as [En (N1 & HN1)]. destruct (IH l os' l2) as (N2 & HN2); [rewrite En; assumption|assumption|].
      exists (Nat.max N1 N2). intros ho2 fuel' t Hf. destruct (HN1 ho2 fuel' t) as (t1 & ->); [lia|]. cbn [bind].
      destruct (HN2 ho2 fuel' t1) as (t2 & ->); [lia|]. cbn [bind]. eauto.
  Qed.
  Lemma tick_calls_back (ho2 : HashOrder) fuel n : forall t (lx : lexer K) os lx' t', wf_nfa (lx_nfa lx) -> @tick_calls env ho2 K fuel t n lx = Val (os, lx', t') ->
    exists N, forall (ho1 : HashOrder) fuel', N <= fuel' -> @lex_calls env ho1 K fuel' n lx = Val (os, lx').
  Proof.
    induction n as [|n IH]; intros t lx os lx' t' Hwf H; cbn [tick_calls] in H; cbn [lex_calls].
    - injection H as <- <- _. exists 0. reflexivity.
    - destruct (tick_next fuel t lx) as [[[o l] t1]| |] eqn:E; try discriminate. cbn [bind] in H.
      destruct (tick_calls fuel t1 n l) as [[[os' l2] t2]| |] eqn:E2; try discriminate. cbn [bind] in H. injection H as <- <- _.
      destruct (tick_next_back ho2 fuel t lx o l t1 Hwf E) as [En (N1 & HN1)]. destruct (IH t1 l os' l2 t2) as (N2 & HN2); [rewrite En; assumption|assumption|].
      exists (Nat.max N1 N2). intros ho1 fuel' Hf. rewrite HN1 by lia. cbn [bind]. rewrite HN2 by lia. reflexivity.
  Qed.

  (** A panic would be one of the other lexer, too. *)
  Lemma tick_loop_panic (ho2 : HashOrder) fuel (lx : lexer K) : wf_nfa (lx_nfa lx) -> forall steps t i rs kind, runs_ok (lx_nfa lx) rs ->
    @tick_lex_loop env ho2 K fuel t steps lx i rs kind = Panic ->
    exists N, forall (ho1 : HashOrder) fuel' rs', N <= fuel' -> same rs rs' ->
    @lex_loop env ho1 K fuel' steps lx i rs' kind = Panic.
  Proof.
    intros Hwf. induction steps as [|steps IH]; intros t i rs kind Hr H; cbn [tick_lex_loop] in H; cbn [lex_loop];
      destruct (iter_next i) as [[ch|] i1]; try discriminate.
    - exists 0. intros ho1 fuel' rs' _ Hs. rewrite <- (accepting_set _ rs rs' Hr Hs). destruct (sim_accepting _ rs) as [[]| |]; try discriminate. reflexivity.
    - destruct (sim_can_feed (lx_nfa lx) rs ch) as [can| |] eqn:Ec; try discriminate; cbn [bind] in H.
      2:{ exists 0. intros ho1 fuel' rs' _ Hs. rewrite <- (can_feed_set _ rs rs' ch Hr Hs), Ec. reflexivity. }
      destruct can; cbn [negb] in H; try discriminate.
      destruct (tick_feed fuel t (lx_nfa lx) rs ch) as [[[l a] t1]| |] eqn:E; try discriminate; cbn [bind] in H.
      + destruct (tick_feed_back _ ho2 fuel t rs ch l a t1 Hwf Hr E) as [Hok HF]. destruct a.
        * destruct (hd_error (sim_final_states (lx_nfa lx) l)) as [f|] eqn:Ef; cbn [of_option bind] in H.
          2:{ exists (length l). intros ho1 fuel' rs' Hf Hs. rewrite <- (can_feed_set _ rs rs' ch Hr Hs), Ec. cbn [bind negb].
              destruct (HF ho1 fuel' rs') as (l' & -> & Hs'); [lia|assumption|]. cbn [bind].
              rewrite <- (final_states_set _ l l' Hs'), Ef. reflexivity. }
          destruct (find_token f (lx_tokens lx)) as [g|] eqn:Eg; cbn [of_option bind] in H.
          2:{ exists (length l). intros ho1 fuel' rs' Hf Hs. rewrite <- (can_feed_set _ rs rs' ch Hr Hs), Ec. cbn [bind negb].
              destruct (HF ho1 fuel' rs') as (l' & -> & Hs'); [lia|assumption|]. cbn [bind].
              rewrite <- (final_states_set _ l l' Hs'), Ef. cbn [of_option bind]. rewrite Eg. reflexivity. }
          destruct (IH _ _ _ _ Hok H) as (N & HN). exists (Nat.max (length l) N). intros ho1 fuel' rs' Hf Hs.
          rewrite <- (can_feed_set _ rs rs' ch Hr Hs), Ec. cbn [bind negb].
          destruct (HF ho1 fuel' rs') as (l' & -> & Hs'); [lia|assumption|]. cbn [bind].
          rewrite <- (final_states_set _ l l' Hs'), Ef. cbn [of_option bind]. rewrite Eg. cbn [of_option bind]. apply HN; [lia|assumption].
        * destruct (IH _ _ _ _ Hok H) as (N & HN). exists (Nat.max (length l) N). intros ho1 fuel' rs' Hf Hs.
          rewrite <- (can_feed_set _ rs rs' ch Hr Hs), Ec. cbn [bind negb].
          destruct (HF ho1 fuel' rs') as (l' & -> & Hs'); [lia|assumption|]. cbn [bind]. apply HN; [lia|assumption].
      + exfalso. unfold tick_feed in E. pose proof (tick_feed_runs_no_panic (lx_nfa lx) fuel rs ch Hwf Hr t) as Hp.
        destruct (tick_feed_runs _ _ _ _ _) as [[l t1]| |] eqn:E1; try discriminate; [|congruence]. cbn [bind] in E.
        destruct (sim_accepting_spec (lx_nfa lx) l) as (b & Eb & _).
        { intros x Hx. apply (tick_feed_runs_spec (lx_nfa lx) fuel rs ch Hwf Hr _ _ _ E1) in Hx. eapply fed_ok; eassumption. }
        rewrite Eb in E. discriminate.
    - exists 0. intros ho1 fuel' rs' _ Hs. rewrite <- (accepting_set _ rs rs' Hr Hs). destruct (sim_accepting _ rs) as [[]| |]; try discriminate. reflexivity.
  Qed.

  Lemma tick_calls_panic (ho2 : HashOrder) fuel n : forall t (lx : lexer K), wf_nfa (lx_nfa lx) -> @tick_calls env ho2 K fuel t n lx = Panic ->
    exists fuel', @lex_calls env id_order K fuel' n lx = Panic.
  Proof.
    intros t lx Hwf H. enough (exists N, forall fuel', N <= fuel' -> @lex_calls env id_order K fuel' n lx = Panic) as (N & HN) by eauto.
    revert t lx Hwf H. induction n as [|n IH]; intros t lx Hwf H; cbn [tick_calls] in H; cbn [lex_calls]; [discriminate|].
    destruct (tick_next fuel t lx) as [[[o l] t1]| |] eqn:E; try discriminate; cbn [bind] in H.
    - destruct (tick_calls fuel t1 n l) as [[[os' l2] t2]| |] eqn:E2; try discriminate.
      destruct (tick_next_back ho2 fuel t lx o l t1 Hwf E) as [En (N1 & HN1)]. destruct (IH t1 l) as (N2 & HN2); [rewrite En; assumption|assumption|].
      exists (Nat.max N1 N2). intros fuel' Hf. rewrite HN1 by lia. cbn [bind]. rewrite HN2 by lia. reflexivity.
    - unfold tick_next in E. destruct (tick_new fuel t (lx_nfa lx)) as [[rs t1]| |] eqn:En; try discriminate; cbn [bind] in E.
      + destruct (tick_loop_panic ho2 fuel lx Hwf _ _ _ _ _ (proj1 (tick_new_spec _ fuel t rs t1 Hwf En)) E) as (N & HN).
        exists (Nat.max (length (nfa_states (lx_nfa lx))) N). intros fuel' Hf. unfold lex_next.
        destruct (sim_new_total id_order (lx_nfa lx) fuel' Hwf) as (rs' & E3); [lia|]. rewrite E3. cbn [bind].
        rewrite HN; [reflexivity|lia|]. apply same_sym. new_same_tac.
      + exfalso. apply (tick_new_no_panic (lx_nfa lx) fuel t Hwf En).
  Qed.

  (** ** Lexers that were built *)

  Lemma lexer_tick (ts : list (list char * generator K)) input (lx : lexer K) n os lx' (ho1 ho2 : HashOrder) : build_lexer ts input = Val (inl lx) ->
    ((exists fuel, @lex_calls env ho1 K fuel n lx = Val (os, lx')) <->
     (exists N, forall fuel t, N <= fuel -> exists t', @tick_calls env ho2 K fuel t n lx = Val (os, lx', t'))) /\
    (forall fuel t os' l t', @tick_calls env ho2 K fuel t n lx = Val (os', l, t') -> exists fuel', @lex_calls env ho1 K fuel' n lx = Val (os', l)) /\
    (forall fuel t, @tick_calls env ho2 K fuel t n lx <> Panic).
  Proof.
    intros Hb. destruct (build_state ts input lx Hb) as (es & [_ Hm Ht Hl Ho Hi]). pose proof Hm as Hm'.
    assert (Hwf : wf_nfa (lx_nfa lx)) by apply (machine_wf _ _ _ Hm).
    assert (Hback : forall fuel t os' l t', @tick_calls env ho2 K fuel t n lx = Val (os', l, t') -> exists fuel', @lex_calls env ho1 K fuel' n lx = Val (os', l)).
    { intros fuel t os' l t' H. destruct (tick_calls_back ho2 fuel n t lx os' l t' Hwf H) as (N & HN). exists N. apply HN. apply le_n. }
    split; [split|split; [assumption|]].
    - intros (fuel & H). destruct (calls_tick ho1 fuel n lx os lx' Hwf H) as (N & HN). exists N. intros fuel' t Hf. apply HN. assumption.
    - intros (N & HN). destruct (HN N 0 (le_n _)) as (t' & H). eauto.
    - intros fuel t H. destruct (tick_calls_panic ho2 fuel n t lx Hwf H) as (fuel' & H').
      exact (lexer_no_panic ts input lx id_order fuel' n Hb H').
  Qed.
End Lex.
