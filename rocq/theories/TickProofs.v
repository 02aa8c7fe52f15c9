(** A new order at every iteration changes nothing. *)
From Verif Require Import Base RegexModel SpecRegex RegexParseProofs RegexProofs NfaModel SpecNfa NfaCompileProofs NfaLangProofs Iter LexerModel TickModel NfaSimProofs NfaProofs.

Section Sim.
  Context {env : Env} {ho : HashOrder}.

  Lemma in_tick_sets t i x : forall l j,
    (exists ts, In (i, ts) (tick_sets t j l) /\ In x ts) <-> exists ts, In (i, ts) l /\ In x ts.
  Proof.
    induction l as [|[i' us] l IH]; intros j; cbn [tick_sets]; [reflexivity|]. split.
    - intros (ts & [[= <- <-]|H] & Hx).
      + exists us. split; [left; reflexivity|]. apply in_hash_at in Hx. assumption.
      + destruct (proj1 (IH (S j))) as (us' & H1 & H2); [eauto|]. exists us'. cbn. auto.
    - intros (ts & [[= -> ->]|H] & Hx).
      + exists (hash_at [t; 1; j] ts). split; [left; reflexivity|]. apply in_hash_at. assumption.
      + destruct (proj2 (IH (S j))) as (us' & H1 & H2); [eauto|]. exists us'. cbn. auto.
  Qed.

  Lemma in_tick_trans m t s st i x : get_state m s = Some st ->
    (exists ts, In (i, ts) (tick_trans t st) /\ In x ts) <-> has_edge m (s, i, x).
  Proof.
    intros Hs. unfold tick_trans. rewrite in_tick_sets. unfold has_edge. split.
    - intros (ts & H1 & H2). apply in_hash_at in H1. eauto.
    - intros (st' & ts & E & H1 & H2). replace st' with st in * by congruence. exists ts. rewrite in_hash_at. auto.
  Qed.

  Lemma in_tick_targets m k s st y : get_state m s = Some st -> In y (tick_targets k st) <-> static_step m s y.
  Proof.
    intros Hs. unfold tick_targets. rewrite in_flat_map. split.
    - intros ((i & ts) & H1 & H2). cbn in H2. exists i. rewrite <- (in_tick_trans m k s st i y Hs).
      destruct i as [l| |q]; [destruct H2| |].
      + split; [eauto|exact I].
      + cbn. destruct (is_satisfied q 0) eqn:E; [|destruct H2]. split; [eauto|reflexivity].
    - intros (i & Hi & Hst). rewrite <- (in_tick_trans m k s st i y Hs) in Hi. destruct Hi as (ts & H1 & H2).
      exists (i, ts). split; [assumption|]. cbn. destruct i as [l| |q]; cbn in Hst; [destruct Hst|assumption|].
      rewrite Hst. assumption.
  Qed.

  Lemma in_tick_eps m k st r r' : get_state m (r_state r) = Some st -> In r' (tick_eps k st r) <-> eps_step m r r'.
  Proof.
    intros Hs. unfold tick_eps. rewrite in_flat_map. split.
    - intros ((i & ts) & H1 & H2). cbn in H2. unfold eps_step. destruct i as [l| |q]; [destruct H2| |].
      + apply in_map_iff in H2. destruct H2 as (t & <- & Ht). exists IEps, t. split; [|reflexivity].
        rewrite <- (in_tick_trans m k _ st _ _ Hs). eauto.
      + destruct (is_satisfied q _) eqn:E; [|destruct H2].
        apply in_map_iff in H2. destruct H2 as (t & <- & Ht). exists (IQuant q), t. split; [|auto].
        rewrite <- (in_tick_trans m k _ st _ _ Hs). eauto.
    - intros (i & t & Hi & H). rewrite <- (in_tick_trans m k _ st _ _ Hs) in Hi. destruct Hi as (ts & H1 & H2).
      exists (i, ts). split; [assumption|]. cbn. destruct i as [l| |q]; [destruct H| |].
      + subst. apply in_map_iff. eauto.
      + destruct H as [-> ->]. apply in_map_iff. eauto.
  Qed.

  Lemma in_tick_char m k st r c r' : get_state m (r_state r) = Some st -> In r' (tick_char k st r c) <-> char_step m c r r'.
  Proof.
    intros Hs. unfold tick_char. rewrite in_flat_map. split.
    - intros ((i & ts) & H1 & H2). cbn in H2. unfold char_step. destruct i as [l| |q]; cbn in H2; [|destruct H2|destruct H2].
      destruct (lit_contains l c) eqn:E; [|destruct H2].
      apply in_map_iff in H2. destruct H2 as (t & <- & Ht). exists l, t. split; [|auto].
      rewrite <- (in_tick_trans m k _ st _ _ Hs). eauto.
    - intros (l & t & Hi & Hl & ->). rewrite <- (in_tick_trans m k _ st _ _ Hs) in Hi. destruct Hi as (ts & H1 & H2).
      exists (ILit l, ts). split; [assumption|]. cbn. rewrite Hl. apply in_map_iff. eauto.
  Qed.

  (** *** The states a simulator starts with *)

  Lemma tick_static_spec m : wf_nfa m -> forall fuel t queue result l t',
    (forall x, In x queue -> In x result) -> (forall x, In x result -> exists st, get_state m x = Some st) ->
    (forall x y, In x result -> ~ In x queue -> static_step m x y -> In y result) ->
    tick_static fuel t m queue result = Val (l, t') ->
    (forall x, In x result -> In x l) /\ (forall x, In x l -> exists y, In y result /\ star (static_step m) y x) /\
    (forall x y, In x l -> static_step m x y -> In y l) /\ (sorted_ids 0 result -> sorted_ids 0 l).
  Proof.
    intros Hwf. induction fuel as [|fuel IH]; intros t queue result l t' Hq Hs Hc H.
    - destruct queue; [|discriminate]. injection H as <- <-. split; [auto|]. split; [|split; [eauto|auto]].
      intros x Hx. exists x. split; [assumption|constructor].
    - destruct queue as [|a queue].
      + injection H as <- <-. split; [auto|]. split; [|split; [eauto|auto]]. intros x Hx. exists x. split; [assumption|constructor].
      + cbn [tick_static] in H. destruct (Hs a (Hq a (or_introl eq_refl))) as (st & Hst). rewrite Hst in H. cbn [of_option bind] in H.
        destruct (static_push _ _ _) as [q' r'] eqn:E. 
        assert (Hsort : sorted_ids 0 result -> sorted_ids 0 r').
        { revert E. clear. generalize (tick_targets t st) as l, queue as q. intros l. revert result.
          induction l as [|x l IH]; intros result q E Hr; cbn in E; [injection E as _ <-; assumption|].
          destruct (memb x result); [eapply IH; eassumption|]. eapply IH; [eassumption|]. apply bset_insert_sorted; [lia|assumption]. }
        apply static_push_spec in E. destruct E as (E1 & E2 & _).
        apply IH in H.
        * destruct H as (H1 & H2 & H3 & H4). split; [|split; [|split; [assumption|auto]]].
          -- intros x Hx. apply H1, E1. auto.
          -- intros x Hx. destruct (H2 x Hx) as (y & Hy & Hstar). apply E1 in Hy. destruct Hy as [Hy|Hy]; [eauto|].
             exists a. split; [apply Hq; left; reflexivity|]. eapply star_left; [|exact Hstar].
             eapply in_tick_targets; eassumption.
        * intros x Hx. apply E2 in Hx. apply E1. destruct Hx as [Hx|[Hx _]]; [left; apply Hq; right|]; auto.
        * intros x Hx. apply E1 in Hx. destruct Hx as [Hx|Hx]; [auto|]. apply (in_tick_targets m _ a) in Hx; [|assumption].
          destruct Hx as (i & Hx & _). eapply Hwf; eassumption.
        * intros x y Hx Hnq Hxy. apply E1. destruct (Nat.eq_dec x a) as [->|Hne].
          -- right. apply (in_tick_targets m _ a); assumption.
          -- apply E1 in Hx. destruct Hx as [Hx|Hx].
             ++ left. apply (Hc x); [assumption| |assumption]. intros [->|Hin]; [contradiction|]. apply Hnq, E2. auto.
             ++ destruct (in_dec Nat.eq_dec x result) as [Hr|Hr].
                ** left. apply (Hc x); [assumption| |assumption]. intros [->|Hin]; [contradiction|]. apply Hnq, E2. auto.
                ** exfalso. apply Hnq, E2. auto.
  Qed.

  Lemma tick_static_total m : wf_nfa m -> forall fuel t queue result,
    (forall x, In x queue -> In x result) -> (forall x, In x result -> exists st, get_state m x = Some st) ->
    NoDup result -> length (nfa_states m) + length queue <= fuel + length result ->
    exists l t', tick_static fuel t m queue result = Val (l, t').
  Proof.
    intros Hwf. induction fuel as [|fuel IH]; intros t queue result Hq Hs Hn Hl.
    - assert (Hle : length result <= length (nfa_states m)).
      { rewrite <- (map_length st_id (nfa_states m)). apply NoDup_incl_length; [assumption|].
        intros x Hx. apply get_state_in_ids. auto. }
      destruct queue; [do 2 eexists; reflexivity|]. cbn in Hl. lia.
    - destruct queue as [|a queue]; [do 2 eexists; reflexivity|]. cbn [tick_static].
      destruct (Hs a (Hq a (or_introl eq_refl))) as (st & Hst). rewrite Hst. cbn [of_option bind].
      destruct (static_push _ _ _) as [q' r'] eqn:E. pose proof (static_push_nodup _ _ _ _ _ E Hn) as Hn'.
      apply static_push_spec in E. destruct E as (E1 & E2 & E3). apply IH.
      + intros x Hx. apply E2 in Hx. apply E1. destruct Hx as [Hx|[Hx _]]; [left; apply Hq; right|]; auto.
      + intros x Hx. apply E1 in Hx. destruct Hx as [Hx|Hx]; [auto|]. apply (in_tick_targets m _ a) in Hx; [|assumption].
        destruct Hx as (i & Hx & _). eapply Hwf; eassumption.
      + assumption.
      + cbn in Hl. lia.
  Qed.

  Lemma tick_static_no_panic m : wf_nfa m -> forall fuel t queue result,
    (forall x, In x queue -> exists st, get_state m x = Some st) -> tick_static fuel t m queue result <> Panic.
  Proof.
    intros Hwf. induction fuel as [|fuel IH]; intros t queue result H.
    - destruct queue; discriminate.
    - destruct queue as [|a queue]; [discriminate|]. cbn [tick_static].
      destruct (H a (or_introl eq_refl)) as (st & Hst). rewrite Hst. cbn [of_option bind].
      destruct (static_push _ _ _) as [q' r'] eqn:E. apply static_push_spec in E. destruct E as (_ & E2 & _).
      apply IH. intros x Hx. apply E2 in Hx. destruct Hx as [Hx|[Hx _]]; [apply H; right; assumption|].
      apply (in_tick_targets m _ a) in Hx; [|assumption]. destruct Hx as (i & Hx & _). eapply Hwf; eassumption.
  Qed.

  Lemma tick_new_spec m fuel t rs t' : wf_nfa m -> tick_new fuel t m = Val (rs, t') ->
    runs_ok m rs /\ forall x, In x rs <-> r_cnt x = [] /\ star (static_step m) (nfa_start m) (r_state x).
  Proof.
    intros Hwf H. unfold tick_new in H. destruct (tick_static _ _ _ _ _) as [[l t1]| |] eqn:E; try discriminate.
    cbn in H. injection H as <- <-.
    assert (Hs : forall x, In x l <-> star (static_step m) (nfa_start m) x).
    { apply tick_static_spec in E; [|assumption| | |].
      - destruct E as (H1 & H2 & H3 & _). intros x. split.
        + intros Hx. destruct (H2 x Hx) as (y & [<-|[]] & Hs). assumption.
        + induction 1; [apply H1; left; reflexivity|]. eauto.
      - auto.
      - intros x [<-|[]]. apply Hwf.
      - intros x y [<-|[]] Hn. exfalso. apply Hn. left. reflexivity. }
    split.
    - intros r Hr. apply in_map_iff in Hr. destruct Hr as (p & <- & Hp). apply Hs in Hp. clear -Hwf Hp. unfold has_state. cbn.
      destruct Hp as [|y z _ (i & Hi & _)]; [apply Hwf|]. eapply Hwf; eassumption.
    - intros x. rewrite in_map_iff. split.
      + intros (p & <- & Hp). cbn. apply Hs in Hp. auto.
      + intros [Hc Hp]. exists (r_state x). destruct x as [p c]. cbn in *. subst. split; [reflexivity|]. apply Hs. assumption.
  Qed.
  Lemma tick_new_total m fuel t : wf_nfa m -> length (nfa_states m) <= fuel -> exists rs t', tick_new fuel t m = Val (rs, t').
  Proof.
    intros Hwf Hf. unfold tick_new. destruct (tick_static_total m Hwf fuel t [nfa_start m] [nfa_start m]) as (l & t' & ->).
    - auto.
    - intros x [<-|[]]. apply Hwf.
    - constructor; [auto|constructor].
    - cbn. lia.
    - cbn [bind]. eauto.
  Qed.
  Lemma tick_new_no_panic m fuel t : wf_nfa m -> tick_new fuel t m <> Panic.
  Proof.
    intros Hwf. unfold tick_new. pose proof (tick_static_no_panic m Hwf fuel t [nfa_start m] [nfa_start m]) as H.
    destruct (tick_static _ _ _ _ _) as [[l t1]| |]; cbn [bind]; [discriminate| |discriminate].
    intros _. apply H; [|reflexivity]. intros x [<-|[]]. apply Hwf.
  Qed.

  (** *** Closures *)

  Lemma tick_loop_spec m : wf_nfa m -> forall fuel t queue result l t',
    (forall x, In x queue -> In x result) -> (forall x, In x result -> has_state m x) ->
    (forall x y, In x result -> ~ In x queue -> eps_step m x y -> In y result) ->
    tick_loop fuel t m queue result = Val (l, t') ->
    (forall x, In x result -> In x l) /\ (forall x, In x l -> exists y, In y result /\ star (eps_step m) y x) /\
    (forall x y, In x l -> eps_step m x y -> In y l).
  Proof.
    intros Hwf. induction fuel as [|fuel IH]; intros t queue result l t' Hq Hs Hc H.
    - destruct queue; [|discriminate]. injection H as <- <-. split; [auto|]. split; [|eauto].
      intros x Hx. exists x. split; [assumption|constructor].
    - destruct queue as [|a queue].
      + injection H as <- <-. split; [auto|]. split; [|eauto]. intros x Hx. exists x. split; [assumption|constructor].
      + cbn [tick_loop] in H. destruct (Hs a (Hq a (or_introl eq_refl))) as (st & Hst). rewrite Hst in H. cbn [of_option bind] in H.
        destruct (closure_push _ _ _) as [q' r'] eqn:E. apply closure_push_spec in E. destruct E as (E1 & E2 & _).
        apply IH in H.
        * destruct H as (H1 & H2 & H3). split; [|split; [|assumption]].
          -- intros x Hx. apply H1, E1. auto.
          -- intros x Hx. destruct (H2 x Hx) as (y & Hy & Hstar). apply E1 in Hy. destruct Hy as [Hy|Hy]; [eauto|].
             exists a. split; [apply Hq; left; reflexivity|]. eapply star_left; [|exact Hstar].
             eapply in_tick_eps; eassumption.
        * intros x Hx. apply E2 in Hx. apply E1. destruct Hx as [Hx|[Hx _]]; [left; apply Hq; right|]; auto.
        * intros x Hx. apply E1 in Hx. destruct Hx as [Hx|Hx]; [auto|]. apply (in_tick_eps m) in Hx; [|assumption].
          eapply eps_has_state; eassumption.
        * intros x y Hx Hnq Hxy. apply E1. destruct (run_eq_dec x a) as [->|Hne].
          -- right. apply (in_tick_eps m); assumption.
          -- apply E1 in Hx. destruct Hx as [Hx|Hx].
             ++ left. apply (Hc x); [assumption| |assumption]. intros [->|Hin]; [contradiction|]. apply Hnq, E2. auto.
             ++ destruct (in_dec run_eq_dec x result) as [Hr|Hr].
                ** left. apply (Hc x); [assumption| |assumption]. intros [->|Hin]; [contradiction|]. apply Hnq, E2. auto.
                ** exfalso. apply Hnq, E2. auto.
  Qed.

  Lemma tick_closure_spec m fuel t r l t' : wf_nfa m -> has_state m r -> tick_closure fuel t m r = Val (l, t') ->
    forall x, In x l <-> star (eps_step m) r x.
  Proof.
    intros Hwf Hr H. unfold tick_closure in H. destruct (tick_loop _ _ _ _ _) as [[l0 t1]| |] eqn:E; try discriminate.
    cbn [bind] in H. injection H as <- <-. intros x. rewrite in_hash_at. apply tick_loop_spec in E; [|assumption| | |].
    - destruct E as (H1 & H2 & H3). split.
      + intros Hx. destruct (H2 x Hx) as (y & [<-|[]] & Hs). assumption.
      + induction 1; [apply H1; left; reflexivity|]. eauto.
    - auto.
    - intros y [<-|[]]. assumption.
    - intros y z [<-|[]] Hn. exfalso. apply Hn. left. reflexivity.
  Qed.

  Lemma tick_loop_total m U : wf_nfa m -> forall fuel t queue result,
    (forall x, In x queue -> In x result) -> (forall x, In x result -> has_state m x /\ forall y, star (eps_step m) x y -> In y U) ->
    NoDup result -> length U + length queue <= fuel + length result ->
    exists l t', tick_loop fuel t m queue result = Val (l, t').
  Proof.
    intros Hwf. induction fuel as [|fuel IH]; intros t queue result Hq Hs Hn Hl.
    - assert (Hle : length result <= length U).
      { apply NoDup_incl_length; [assumption|]. intros x Hx. apply (Hs x Hx). constructor. }
      destruct queue; [do 2 eexists; reflexivity|]. cbn in Hl. lia.
    - destruct queue as [|a queue]; [do 2 eexists; reflexivity|]. cbn [tick_loop].
      destruct (Hs a (Hq a (or_introl eq_refl))) as ((st & Hst) & Ha). rewrite Hst. cbn [of_option bind].
      destruct (closure_push _ _ _) as [q' r'] eqn:E. apply closure_push_spec in E. destruct E as (E1 & E2 & E3 & E4). apply IH.
      + intros x Hx. apply E2 in Hx. apply E1. destruct Hx as [Hx|[Hx _]]; [left; apply Hq; right|]; auto.
      + intros x Hx. apply E1 in Hx. destruct Hx as [Hx|Hx]; [auto|]. apply (in_tick_eps m) in Hx; [|assumption].
        split; [eapply eps_has_state; eassumption|]. intros y Hy. apply Ha. eapply star_left; eassumption.
      + auto.
      + cbn in Hl. lia.
  Qed.

  Lemma tick_closure_total m U fuel t r : wf_nfa m -> has_state m r -> (forall x, star (eps_step m) r x -> In x U) ->
    length U <= fuel -> exists l t', tick_closure fuel t m r = Val (l, t').
  Proof.
    intros Hwf Hr HU Hf. unfold tick_closure.
    destruct (tick_loop_total m U Hwf fuel t [r] [r]) as (l & t' & ->).
    - auto.
    - intros x [<-|[]]. auto.
    - constructor; [auto|constructor].
    - cbn. lia.
    - do 2 eexists. reflexivity.
  Qed.

  Lemma tick_closure_no_panic m fuel t r : wf_nfa m -> has_state m r -> tick_closure fuel t m r <> Panic.
  Proof.
    intros Hwf Hr. unfold tick_closure.
    enough (H : forall fuel t queue result, (forall x, In x queue -> has_state m x) ->
                tick_loop fuel t m queue result <> Panic).
    { specialize (H fuel t [r] [r]). destruct (tick_loop _ _ _ _ _) as [[]| |]; [discriminate| |discriminate].
      intros _. apply H; [|reflexivity]. intros x [<-|[]]. assumption. }
    clear fuel t r Hr. intros fuel. induction fuel as [|fuel IH]; intros t queue result H.
    - destruct queue; discriminate.
    - destruct queue as [|a queue]; [discriminate|]. cbn [tick_loop].
      destruct (H a (or_introl eq_refl)) as (st & Hst). rewrite Hst. cbn [of_option bind].
      destruct (closure_push _ _ _) as [q' r'] eqn:E. apply closure_push_spec in E. destruct E as (_ & E2 & _).
      apply IH. intros x Hx. apply E2 in Hx. destruct Hx as [Hx|[Hx _]]; [apply H; right; assumption|].
      apply (in_tick_eps m) in Hx; [|assumption]. eapply eps_has_state; eassumption.
  Qed.

  (** *** Feeding *)

  Lemma tick_closures_spec m fuel rs : wf_nfa m -> runs_ok m rs -> forall t l t', tick_closures fuel t m rs = Val (l, t') ->
    forall x, In x l <-> exists r, In r rs /\ star (eps_step m) r x.
  Proof.
    intros Hwf. induction rs as [|r rs IH]; intros Hr t l t' H x; cbn [tick_closures] in H.
    - injection H as <- <-. cbn. split; [tauto|]. intros (r & [] & _).
    - destruct (tick_closure fuel t m r) as [[l1 t1]| |] eqn:E1; try discriminate. cbn [bind] in H.
      destruct (tick_closures fuel t1 m rs) as [[l2 t2]| |] eqn:E2; try discriminate.
      cbn [bind] in H. injection H as <- <-. rewrite in_app_iff.
      rewrite (tick_closure_spec m fuel t r l1 t1 Hwf (Hr r (or_introl eq_refl)) E1 x).
      rewrite (IH (fun y Hy => Hr y (or_intror Hy)) t1 l2 t2 E2 x). cbn. split.
      + intros [H|(y & Hy & H)]; eauto.
      + intros (y & [->|Hy] & H); eauto.
  Qed.

  Lemma tick_feed_runs_spec m fuel rs c : wf_nfa m -> runs_ok m rs -> forall t l t', tick_feed_runs fuel t m rs c = Val (l, t') ->
    forall x, In x l <-> fed m (fun r => In r rs) c x.
  Proof.
    intros Hwf. induction rs as [|r rs IH]; intros Hr t l t' H x; cbn [tick_feed_runs] in H.
    - injection H as <- <-. cbn. split; [tauto|]. intros (r & r' & [] & _).
    - destruct (Hr r (or_introl eq_refl)) as (st & Hst). rewrite Hst in H. cbn [of_option bind] in H.
      destruct (tick_closures fuel _ m _) as [[l1 t1]| |] eqn:E1; try discriminate. cbn [bind] in H.
      destruct (tick_feed_runs fuel t1 m rs c) as [[l2 t2]| |] eqn:E2; try discriminate.
      cbn [bind] in H. injection H as <- <-. rewrite in_app_iff.
      assert (Hok : runs_ok m (tick_char t st r c)).
      { intros y Hy. apply (in_tick_char m) in Hy; [|assumption]. eapply char_has_state; eassumption. }
      rewrite (tick_closures_spec m fuel _ Hwf Hok _ l1 t1 E1 x).
      rewrite (IH (fun y Hy => Hr y (or_intror Hy)) t1 l2 t2 E2 x). unfold fed. split.
      + intros [(y & Hy & H)|(y & y' & Hy & H)].
        * apply (in_tick_char m) in Hy; [|assumption]. exists r, y. cbn. auto.
        * exists y, y'. cbn. split; [auto|assumption].
      + intros (y & y' & [->|Hy] & H1 & H2).
        * left. exists y'. split; [|assumption]. apply (in_tick_char m); assumption.
        * right. exists y, y'. auto.
  Qed.

  Lemma tick_closures_total m U fuel rs : wf_nfa m -> runs_ok m rs ->
    (forall r x, In r rs -> star (eps_step m) r x -> In x U) -> length U <= fuel -> forall t, exists l t', tick_closures fuel t m rs = Val (l, t').
  Proof.
    intros Hwf Hr HU Hf. induction rs as [|r rs IH]; intros t; cbn [tick_closures]; [eauto|].
    destruct (tick_closure_total m U fuel t r Hwf) as (l & t1 & ->); [apply Hr; left; reflexivity|intros x; apply HU; left; reflexivity|assumption|].
    cbn [bind]. destruct (IH (fun y Hy => Hr y (or_intror Hy)) (fun y x Hy => HU y x (or_intror Hy)) t1) as (l' & t2 & ->).
    cbn [bind]. eauto.
  Qed.

  Lemma tick_feed_runs_total m U fuel rs c : wf_nfa m -> runs_ok m rs ->
    (forall x, fed m (fun r => In r rs) c x -> In x U) -> length U <= fuel -> forall t, exists l t', tick_feed_runs fuel t m rs c = Val (l, t').
  Proof.
    intros Hwf Hr HU Hf. induction rs as [|r rs IH]; intros t; cbn [tick_feed_runs]; [eauto|].
    destruct (Hr r (or_introl eq_refl)) as (st & Hst). rewrite Hst. cbn [of_option bind].
    destruct (tick_closures_total m U fuel (tick_char t st r c) Hwf) with (t := S t) as (l & t1 & ->).
    - intros y Hy. apply (in_tick_char m) in Hy; [|assumption]. eapply char_has_state; eassumption.
    - intros y x Hy Hx. apply (in_tick_char m) in Hy; [|assumption]. apply HU. exists r, y. cbn. auto.
    - assumption.
    - cbn [bind]. destruct IH with (t := t1) as (l' & t2 & ->); [intros y Hy; apply Hr; right; assumption| |cbn [bind]; eauto].
      intros x (y & y' & Hy & H). apply HU. exists y, y'. cbn. auto.
  Qed.

  Lemma tick_closures_no_panic m fuel rs : wf_nfa m -> runs_ok m rs -> forall t, tick_closures fuel t m rs <> Panic.
  Proof.
    intros Hwf Hr. induction rs as [|r rs IH]; intros t; cbn [tick_closures]; [discriminate|].
    pose proof (tick_closure_no_panic m fuel t r Hwf (Hr r (or_introl eq_refl))) as H.
    destruct (tick_closure fuel t m r) as [[l t1]| |]; cbn [bind]; [|congruence|discriminate].
    assert (H' : tick_closures fuel t1 m rs <> Panic) by (apply IH; intros y Hy; apply Hr; right; assumption).
    destruct (tick_closures fuel t1 m rs) as [[]| |]; cbn [bind]; congruence.
  Qed.

  Lemma tick_feed_runs_no_panic m fuel rs c : wf_nfa m -> runs_ok m rs -> forall t, tick_feed_runs fuel t m rs c <> Panic.
  Proof.
    intros Hwf Hr. induction rs as [|r rs IH]; intros t; cbn [tick_feed_runs]; [discriminate|].
    destruct (Hr r (or_introl eq_refl)) as (st & Hst). rewrite Hst. cbn [of_option bind].
    assert (H : tick_closures fuel (S t) m (tick_char t st r c) <> Panic).
    { apply tick_closures_no_panic; [assumption|]. intros y Hy. apply (in_tick_char m) in Hy; [|assumption].
      eapply char_has_state; eassumption. }
    destruct (tick_closures _ _ _ _) as [[l t1]| |]; cbn [bind]; [|congruence|discriminate].
    assert (H' : tick_feed_runs fuel t1 m rs c <> Panic) by (apply IH; intros y Hy; apply Hr; right; assumption).
    destruct (tick_feed_runs _ _ _ _ _) as [[]| |]; cbn [bind]; congruence.
  Qed.
End Sim.
