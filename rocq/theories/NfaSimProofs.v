(** What the simulator computes: closures are reachability, feeding is one
    step followed by reachability. *)
From Verif Require Import Base RegexModel SpecRegex RegexParseProofs RegexProofs NfaModel SpecNfa NfaCompileProofs NfaLangProofs.

(** ** Reachability, independent of the simulator *)
Section Steps.
  Context {env : Env}.
  Variable m : nfa.

  Definition static_step (p y : nat) : Prop := exists i, has_edge m (p, i, y) /\ static i.

  Definition eps_step (r r' : run) : Prop :=
    exists i t, has_edge m (r_state r, i, t) /\
      match i with
      | ILit _ => False
      | IEps => r' = take_transition r t false
      | IQuant q => is_satisfied q (counters_get (r_state r) (r_cnt r)) = true /\ r' = take_transition r t true
      end.

  Definition char_step (c : char) (r r' : run) : Prop :=
    exists l t, has_edge m (r_state r, ILit l, t) /\ lit_contains l c = true /\ r' = take_transition r t false.
End Steps.

Inductive star {A} (R : A -> A -> Prop) (x : A) : A -> Prop :=
| star_refl : star R x x
| star_step y z : star R x y -> R y z -> star R x z.

Lemma star_trans {A} (R : A -> A -> Prop) x y z : star R x y -> star R y z -> star R x z.
Proof. intros H1 H2. induction H2; [assumption|]. econstructor; eassumption. Qed.
Lemma star_left {A} (R : A -> A -> Prop) x y z : R x y -> star R y z -> star R x z.
Proof. intros H. apply star_trans. econstructor; [constructor|assumption]. Qed.
Lemma star_case {A} (R : A -> A -> Prop) x z : star R x z -> x = z \/ exists y, R x y /\ star R y z.
Proof.
  induction 1 as [|y z H IH Hs]; [auto|]. right. destruct IH as [<-|(u & Hu & H')].
  - exists z. split; [assumption|constructor].
  - exists u. split; [assumption|]. econstructor; eassumption.
Qed.

(** Automata that passed [NfaBuilder::build]. *)
Definition wf_nfa (m : nfa) : Prop :=
  (exists st, get_state m (nfa_start m) = Some st) /\
  forall s i t, has_edge m (s, i, t) -> exists st, get_state m t = Some st.

Lemma get_state_in_ids m i : In i (map st_id (nfa_states m)) <-> exists st, get_state m i = Some st.
Proof.
  unfold get_state. split.
  - intros H. apply in_map_iff in H. destruct H as (st & <- & H). destruct (find _ _) eqn:E; [eauto|].
    apply (find_none _ _ E) in H. rewrite Nat.eqb_refl in H. discriminate.
  - intros (st & H). apply find_some in H. destruct H as [H1 H2]. apply Nat.eqb_eq in H2. subst. apply in_map. assumption.
Qed.

Lemma nfa_build_spec b m : nfa_build b = Val m -> m = b /\ wf_nfa m.
Proof.
  unfold nfa_build. destruct (forallb _ _) eqn:E1; [|discriminate]. destruct (memb _ _) eqn:E2; [|discriminate].
  intros [= <-]. split; [reflexivity|]. split.
  - apply get_state_in_ids. apply memb_in. assumption.
  - intros s i t (st & ts & Hs & Hi & Ht). rewrite forallb_forall in E1. apply get_state_in_ids. apply memb_in. apply E1.
    apply in_flat_map. exists st. split; [apply (get_state_id _ _ _ Hs)|].
    apply in_flat_map. exists (i, ts). auto.
Qed.

Lemma nfa_build_wfb b : wfb b -> 0 < nstates b -> nfa_start b = 0 ->
  (forall s i t, has_edge b (s, i, t) -> t < nstates b) -> nfa_build b = Val b.
Proof.
  intros Hw H0 Hs He. unfold nfa_build.
  replace (forallb _ _) with true; [replace (memb _ _) with true; [reflexivity|]|]; symmetry.
  - apply memb_in. rewrite Hw, Hs. apply in_seq. unfold nstates in H0. lia.
  - apply forallb_forall. intros t Ht. apply memb_in. rewrite Hw. apply in_seq.
    apply in_flat_map in Ht. destruct Ht as (st & Hst & Ht). apply in_flat_map in Ht. destruct Ht as ((i & ts) & Hi & Ht).
    cbn in Ht. enough (t < nstates b) by (unfold nstates in *; lia). apply (He (st_id st) i). exists st, ts.
    split; [|auto].
    (* ids are unique, so the state is the one found *)
    unfold get_state. clear -Hw Hst. unfold wfb in Hw.
    assert (Hnd : NoDup (map st_id (nfa_states b))) by (rewrite Hw; apply seq_NoDup).
    clear Hw. induction (nfa_states b) as [|s l IH]; [destruct Hst|]. cbn in *. inversion Hnd; subst.
    destruct Hst as [->|Hst]; [rewrite Nat.eqb_refl; reflexivity|].
    destruct (Nat.eqb_spec (st_id s) (st_id st)) as [E|]; [|auto]. exfalso. apply H1. rewrite E. apply in_map. assumption.
Qed.

(** ** Counters *)
Fixpoint sorted_from (n : nat) (c : counters) : Prop :=
  match c with
  | [] => True
  | (i, _) :: r => n <= i /\ sorted_from (S i) r
  end.
Definition sorted (c : counters) : Prop := sorted_from 0 c.

Lemma sorted_from_le n n' c : n' <= n -> sorted_from n c -> sorted_from n' c.
Proof. destruct c as [|[i v] r]; cbn; [auto|]. intros H [H1 H2]. split; [lia|assumption]. Qed.

Lemma update_sorted i f : forall c n, n <= i -> sorted_from n c -> sorted_from n (counters_update i f c).
Proof.
  induction c as [|[j v] r IH]; intros n Hn H; cbn [counters_update].
  - cbn. auto.
  - cbn in H. destruct H as [H1 H2]. destruct (Nat.eqb_spec i j) as [->|Hij]; [cbn; auto|].
    destruct (Nat.ltb_spec i j); cbn.
    + split; [assumption|]. split; [lia|assumption].
    + split; [assumption|]. apply IH; [lia|assumption].
Qed.

Lemma get_below n i c : sorted_from n c -> i < n -> counters_get i c = 0.
Proof.
  revert n. induction c as [|[j v] r IH]; intros n H Hi; cbn; [reflexivity|]. destruct H as [H1 H2].
  destruct (Nat.eqb_spec i j); [lia|]. eapply IH; [eassumption|lia].
Qed.

Lemma get_update i f j : forall c n, sorted_from n c ->
  counters_get j (counters_update i f c) = if j =? i then f (counters_get i c) else counters_get j c.
Proof.
  induction c as [|[k v] r IH]; intros n H; cbn [counters_update].
  - cbn. destruct (Nat.eqb_spec j i); reflexivity.
  - cbn in H. destruct H as [H1 H2]. destruct (Nat.eqb_spec i k) as [->|Hik].
    + cbn. rewrite Nat.eqb_refl. destruct (Nat.eqb_spec j k); reflexivity.
    + destruct (Nat.ltb_spec i k).
      * cbn. rewrite (proj2 (Nat.eqb_neq i k)) by assumption.
        rewrite (get_below (S k) i r) by (assumption || lia). reflexivity.
      * cbn. rewrite (proj2 (Nat.eqb_neq i k)) by assumption. rewrite (IH _ H2).
        destruct (Nat.eqb_spec j k), (Nat.eqb_spec j i); try reflexivity. congruence.
Qed.

Definition run_ok (r : run) : Prop := sorted (r_cnt r).
Definition cof (r : run) : cnt := fun i => counters_get i (r_cnt r).

Lemma take_ok r t b : run_ok r -> run_ok (take_transition r t b).
Proof. intros H. unfold run_ok, take_transition. cbn. apply update_sorted; [lia|assumption]. Qed.
Lemma cof_take_false r t i : run_ok r -> cof (take_transition r t false) i = inc (r_state r) (cof r) i.
Proof. intros H. unfold cof, take_transition, inc. cbn. rewrite (get_update _ _ _ _ _ H). destruct (Nat.eqb_spec i (r_state r)); subst; reflexivity. Qed.
Lemma cof_take_true r t i : run_ok r -> cof (take_transition r t true) i = zer (r_state r) (cof r) i.
Proof. intros H. unfold cof, take_transition, zer. cbn. rewrite (get_update _ _ _ _ _ H). reflexivity. Qed.

(** ** The loops *)
Section Sim.
  Context {env : Env} {ho : HashOrder}.

  Lemma in_iter_trans k st i t :
    (exists ts, In (i, ts) (iter_trans k st) /\ In t ts) <-> exists ts, In (i, ts) (st_trans st) /\ In t ts.
  Proof.
    unfold iter_trans. split.
    - intros (ts & H & Ht). apply in_map_iff in H. destruct H as ([j us] & [= -> <-] & H). cbn in Ht.
      rewrite in_hash_iter in H. rewrite in_hash_iter in Ht. eauto.
    - intros (ts & H & Ht). exists (hash_iter k ts). split; [|apply in_hash_iter; assumption].
      apply in_map_iff. exists (i, ts). split; [reflexivity|]. apply in_hash_iter. assumption.
  Qed.

  Lemma in_iter_trans_edge m k s st i t : get_state m s = Some st ->
    (exists ts, In (i, ts) (iter_trans k st) /\ In t ts) <-> has_edge m (s, i, t).
  Proof.
    intros Hs. rewrite in_iter_trans. unfold has_edge. split.
    - intros (ts & H1 & H2). eauto.
    - intros (st' & ts & E & H1 & H2). replace st' with st in * by congruence. eauto.
  Qed.

  Lemma in_static_targets m k s st y : get_state m s = Some st -> In y (static_targets k st) <-> static_step m s y.
  Proof.
    intros Hs. unfold static_targets. rewrite in_flat_map. split.
    - intros ((i & ts) & H1 & H2). cbn in H2. exists i. rewrite <- (in_iter_trans_edge m k s st i y Hs).
      destruct i as [l| |q]; [destruct H2| |].
      + split; [eauto|exact I].
      + cbn. destruct (is_satisfied q 0) eqn:E; [|destruct H2]. split; [eauto|reflexivity].
    - intros (i & Hi & Hst). rewrite <- (in_iter_trans_edge m k s st i y Hs) in Hi. destruct Hi as (ts & H1 & H2).
      exists (i, ts). split; [assumption|]. cbn. destruct i as [l| |q]; cbn in Hst; [destruct Hst|assumption|].
      rewrite Hst. assumption.
  Qed.

  Lemma in_eps_succs m k st r r' : get_state m (r_state r) = Some st -> In r' (eps_succs k st r) <-> eps_step m r r'.
  Proof.
    intros Hs. unfold eps_succs. rewrite in_flat_map. split.
    - intros ((i & ts) & H1 & H2). cbn in H2. unfold eps_step. destruct i as [l| |q]; [destruct H2| |].
      + apply in_map_iff in H2. destruct H2 as (t & <- & Ht). exists IEps, t. split; [|reflexivity].
        rewrite <- (in_iter_trans_edge m k _ st _ _ Hs). eauto.
      + destruct (is_satisfied q _) eqn:E; [|destruct H2].
        apply in_map_iff in H2. destruct H2 as (t & <- & Ht). exists (IQuant q), t. split; [|auto].
        rewrite <- (in_iter_trans_edge m k _ st _ _ Hs). eauto.
    - intros (i & t & Hi & H). rewrite <- (in_iter_trans_edge m k _ st _ _ Hs) in Hi. destruct Hi as (ts & H1 & H2).
      exists (i, ts). split; [assumption|]. cbn. destruct i as [l| |q]; [destruct H| |].
      + subst. apply in_map_iff. eauto.
      + destruct H as [-> ->]. apply in_map_iff. eauto.
  Qed.

  Lemma in_char_succs m k st r c r' : get_state m (r_state r) = Some st -> In r' (char_succs k st r c) <-> char_step m c r r'.
  Proof.
    intros Hs. unfold char_succs. rewrite in_flat_map. split.
    - intros ((i & ts) & H1 & H2). cbn in H2. unfold char_step. destruct i as [l| |q]; cbn in H2; [|destruct H2|destruct H2].
      destruct (lit_contains l c) eqn:E; [|destruct H2].
      apply in_map_iff in H2. destruct H2 as (t & <- & Ht). exists l, t. split; [|auto].
      rewrite <- (in_iter_trans_edge m k _ st _ _ Hs). eauto.
    - intros (l & t & Hi & Hl & ->). rewrite <- (in_iter_trans_edge m k _ st _ _ Hs) in Hi. destruct Hi as (ts & H1 & H2).
      exists (ILit l, ts). split; [assumption|]. cbn. rewrite Hl. apply in_map_iff. eauto.
  Qed.

  (** *** Static closure *)
  Lemma bset_insert_in x y l : In y (bset_insert x l) <-> y = x \/ In y l.
  Proof.
    induction l as [|z r IH]; cbn [bset_insert]; [cbn; intuition|].
    destruct (Nat.eqb_spec x z) as [->|]; [cbn; intuition|]. destruct (x <? z); [cbn; intuition|].
    cbn. rewrite IH. intuition.
  Qed.

  Lemma static_push_spec l : forall q r q' r', static_push l q r = (q', r') ->
    (forall x, In x r' <-> In x r \/ In x l) /\ (forall x, In x q' <-> In x q \/ (In x l /\ ~ In x r)) /\
    length q' + length r = length q + length r'.
  Proof.
    induction l as [|a l IH]; intros q r q' r' H; cbn in H.
    - injection H as <- <-. cbn. intuition.
    - destruct (memb a r) eqn:E.
      + apply memb_in in E. apply IH in H. destruct H as (H1 & H2 & H3). split; [|split; [|assumption]].
        * intros x. rewrite H1. cbn. intuition (subst; auto).
        * intros x. rewrite H2. cbn. intuition (subst; contradiction).
      + apply memb_not_in in E. apply IH in H. destruct H as (H1 & H2 & H3). split; [|split].
        * intros x. rewrite H1, bset_insert_in. cbn. intuition.
        * intros x. rewrite H2, in_app_iff, bset_insert_in. cbn.
          destruct (Nat.eq_dec x a) as [->|Hne]; intuition congruence.
        * assert (Hl : length (bset_insert a r) = S (length r)).
          { clear -E. induction r as [|z r IH]; cbn [bset_insert]; [reflexivity|]. cbn in E.
            destruct (Nat.eqb_spec a z) as [->|]; [exfalso; auto|]. destruct (a <? z); cbn [length]; [reflexivity|]. rewrite IH; auto. }
          rewrite app_length, Hl in H3. cbn in H3. lia.
  Qed.

  Lemma static_loop_spec m : wf_nfa m -> forall fuel queue result l,
    (forall x, In x queue -> In x result) -> (forall x, In x result -> exists st, get_state m x = Some st) ->
    (forall x y, In x result -> ~ In x queue -> static_step m x y -> In y result) ->
    static_loop fuel m queue result = Val l ->
    (forall x, In x result -> In x l) /\ (forall x, In x l -> exists y, In y result /\ star (static_step m) y x) /\
    (forall x y, In x l -> static_step m x y -> In y l).
  Proof.
    intros Hwf. induction fuel as [|fuel IH]; intros queue result l Hq Hs Hc H.
    - destruct queue; [|discriminate]. injection H as <-. split; [auto|]. split; [|eauto].
      intros x Hx. exists x. split; [assumption|constructor].
    - destruct queue as [|a queue].
      + injection H as <-. split; [auto|]. split; [|eauto]. intros x Hx. exists x. split; [assumption|constructor].
      + cbn [static_loop] in H. destruct (Hs a (Hq a (or_introl eq_refl))) as (st & Hst). rewrite Hst in H. cbn [of_option bind] in H.
        destruct (static_push _ _ _) as [q' r'] eqn:E. apply static_push_spec in E. destruct E as (E1 & E2 & _).
        apply IH in H.
        * destruct H as (H1 & H2 & H3). split; [|split; [|assumption]].
          -- intros x Hx. apply H1, E1. auto.
          -- intros x Hx. destruct (H2 x Hx) as (y & Hy & Hstar). apply E1 in Hy. destruct Hy as [Hy|Hy]; [eauto|].
             exists a. split; [apply Hq; left; reflexivity|]. eapply star_left; [|exact Hstar].
             eapply in_static_targets; eassumption.
        * intros x Hx. apply E2 in Hx. apply E1. destruct Hx as [Hx|[Hx _]]; [left; apply Hq; right|]; auto.
        * intros x Hx. apply E1 in Hx. destruct Hx as [Hx|Hx]; [auto|]. apply (in_static_targets m _ a) in Hx; [|assumption].
          destruct Hx as (i & Hx & _). eapply Hwf; eassumption.
        * intros x y Hx Hnq Hxy. apply E1. destruct (Nat.eq_dec x a) as [->|Hne].
          -- right. apply (in_static_targets m _ a); assumption.
          -- apply E1 in Hx. destruct Hx as [Hx|Hx].
             ++ left. apply (Hc x); [assumption| |assumption]. intros [->|Hin]; [contradiction|]. apply Hnq, E2. auto.
             ++ destruct (in_dec Nat.eq_dec x result) as [Hr|Hr].
                ** left. apply (Hc x); [assumption| |assumption]. intros [->|Hin]; [contradiction|]. apply Hnq, E2. auto.
                ** exfalso. apply Hnq, E2. auto.
  Qed.

  Lemma static_closure_spec m fuel l : wf_nfa m -> static_closure fuel m (nfa_start m) = Val l ->
    forall x, In x l <-> star (static_step m) (nfa_start m) x.
  Proof.
    intros Hwf H. apply static_loop_spec in H; [|assumption| | |].
    - destruct H as (H1 & H2 & H3). intros x. split.
      + intros Hx. destruct (H2 x Hx) as (y & [<-|[]] & Hs). assumption.
      + induction 1; [apply H1; left; reflexivity|]. eauto.
    - auto.
    - intros x [<-|[]]. apply Hwf.
    - intros x y [<-|[]] Hn. exfalso. apply Hn. left. reflexivity.
  Qed.

  Lemma bset_insert_nodup x l : NoDup l -> ~ In x l -> NoDup (bset_insert x l).
  Proof.
    induction l as [|y r IH]; intros Hn Hx; cbn [bset_insert]; [constructor; auto|]. inversion Hn; subst.
    destruct (Nat.eqb_spec x y) as [->|]; [exfalso; apply Hx; left; reflexivity|].
    destruct (x <? y); [constructor; assumption|]. constructor.
    - rewrite bset_insert_in. intros [->|H]; [apply n; reflexivity|contradiction].
    - apply IH; [assumption|]. intros H. apply Hx. right. assumption.
  Qed.

  Lemma static_push_nodup l : forall q r q' r', static_push l q r = (q', r') -> NoDup r -> NoDup r'.
  Proof.
    induction l as [|a l IH]; intros q r q' r' H Hn; cbn in H; [injection H as <- <-; assumption|].
    destruct (memb a r) eqn:E; [eapply IH; eassumption|]. eapply IH; [eassumption|]. apply memb_not_in in E.
    apply bset_insert_nodup; assumption.
  Qed.

  Lemma static_loop_total m : wf_nfa m -> forall fuel queue result,
    (forall x, In x queue -> In x result) -> (forall x, In x result -> exists st, get_state m x = Some st) ->
    NoDup result -> length (nfa_states m) + length queue <= fuel + length result ->
    exists l, static_loop fuel m queue result = Val l.
  Proof.
    intros Hwf. induction fuel as [|fuel IH]; intros queue result Hq Hs Hn Hl.
    - assert (Hle : length result <= length (nfa_states m)).
      { rewrite <- (map_length st_id (nfa_states m)). apply NoDup_incl_length; [assumption|].
        intros x Hx. apply get_state_in_ids. auto. }
      destruct queue; [eexists; reflexivity|]. cbn in Hl. lia.
    - destruct queue as [|a queue]; [eexists; reflexivity|]. cbn [static_loop].
      destruct (Hs a (Hq a (or_introl eq_refl))) as (st & Hst). rewrite Hst. cbn [of_option bind].
      destruct (static_push _ _ _) as [q' r'] eqn:E. pose proof (static_push_nodup _ _ _ _ _ E Hn) as Hn'.
      apply static_push_spec in E. destruct E as (E1 & E2 & E3). apply IH.
      + intros x Hx. apply E2 in Hx. apply E1. destruct Hx as [Hx|[Hx _]]; [left; apply Hq; right|]; auto.
      + intros x Hx. apply E1 in Hx. destruct Hx as [Hx|Hx]; [auto|]. apply (in_static_targets m _ a) in Hx; [|assumption].
        destruct Hx as (i & Hx & _). eapply Hwf; eassumption.
      + assumption.
      + cbn in Hl. lia.
  Qed.

  Lemma static_closure_total m fuel : wf_nfa m -> length (nfa_states m) <= fuel ->
    exists l, static_closure fuel m (nfa_start m) = Val l.
  Proof.
    intros Hwf Hf. apply static_loop_total; [assumption|auto| |constructor; [auto|constructor]|cbn; lia].
    intros x [<-|[]]. apply Hwf.
  Qed.

  (** *** Closure of a run *)
  Lemma closure_push_spec l : forall q r q' r', closure_push l q r = (q', r') ->
    (forall x, In x r' <-> In x r \/ In x l) /\ (forall x, In x q' <-> In x q \/ (In x l /\ ~ In x r)) /\
    length q' + length r = length q + length r' /\ (NoDup r -> NoDup r').
  Proof.
    induction l as [|a l IH]; intros q r q' r' H; cbn in H.
    - injection H as <- <-. cbn. intuition.
    - destruct (memb a r) eqn:E.
      + apply memb_in in E. apply IH in H. destruct H as (H1 & H2 & H3 & H4). split; [|split; [|split; assumption]].
        * intros x. rewrite H1. cbn. intuition (subst; auto).
        * intros x. rewrite H2. cbn. intuition (subst; contradiction).
      + apply memb_not_in in E. apply IH in H. destruct H as (H1 & H2 & H3 & H4). split; [|split; [|split]].
        * intros x. rewrite H1, in_app_iff. cbn. intuition.
        * intros x. rewrite H2, !in_app_iff. cbn.
          destruct (run_eq_dec x a) as [->|Hne]; intuition congruence.
        * rewrite !app_length in H3. cbn in H3. lia.
        * intros Hn. apply H4. apply (Permutation_NoDup (l := a :: r)); [apply Permutation_cons_append|constructor; assumption].
  Qed.

  Definition has_state (m : nfa) (r : run) : Prop := exists st, get_state m (r_state r) = Some st.

  Lemma eps_has_state m r r' : wf_nfa m -> eps_step m r r' -> has_state m r'.
  Proof.
    intros Hwf (i & t & He & H). apply Hwf in He. destruct i; [destruct H|subst; assumption|destruct H; subst; assumption].
  Qed.
  Lemma char_has_state m c r r' : wf_nfa m -> char_step m c r r' -> has_state m r'.
  Proof. intros Hwf (l & t & He & _ & ->). apply Hwf in He. exact He. Qed.
  Lemma star_has_state m r r' : wf_nfa m -> has_state m r -> star (eps_step m) r r' -> has_state m r'.
  Proof. intros Hwf H. induction 1; [assumption|]. eapply eps_has_state; eassumption. Qed.

  Lemma closure_loop_spec m : wf_nfa m -> forall fuel queue result l,
    (forall x, In x queue -> In x result) -> (forall x, In x result -> has_state m x) ->
    (forall x y, In x result -> ~ In x queue -> eps_step m x y -> In y result) ->
    closure_loop fuel m queue result = Val l ->
    (forall x, In x result -> In x l) /\ (forall x, In x l -> exists y, In y result /\ star (eps_step m) y x) /\
    (forall x y, In x l -> eps_step m x y -> In y l).
  Proof.
    intros Hwf. induction fuel as [|fuel IH]; intros queue result l Hq Hs Hc H.
    - destruct queue; [|discriminate]. injection H as <-. split; [auto|]. split; [|eauto].
      intros x Hx. exists x. split; [assumption|constructor].
    - destruct queue as [|a queue].
      + injection H as <-. split; [auto|]. split; [|eauto]. intros x Hx. exists x. split; [assumption|constructor].
      + cbn [closure_loop] in H. destruct (Hs a (Hq a (or_introl eq_refl))) as (st & Hst). rewrite Hst in H. cbn [of_option bind] in H.
        destruct (closure_push _ _ _) as [q' r'] eqn:E. apply closure_push_spec in E. destruct E as (E1 & E2 & _).
        apply IH in H.
        * destruct H as (H1 & H2 & H3). split; [|split; [|assumption]].
          -- intros x Hx. apply H1, E1. auto.
          -- intros x Hx. destruct (H2 x Hx) as (y & Hy & Hstar). apply E1 in Hy. destruct Hy as [Hy|Hy]; [eauto|].
             exists a. split; [apply Hq; left; reflexivity|]. eapply star_left; [|exact Hstar].
             eapply in_eps_succs; eassumption.
        * intros x Hx. apply E2 in Hx. apply E1. destruct Hx as [Hx|[Hx _]]; [left; apply Hq; right|]; auto.
        * intros x Hx. apply E1 in Hx. destruct Hx as [Hx|Hx]; [auto|]. apply (in_eps_succs m) in Hx; [|assumption].
          eapply eps_has_state; eassumption.
        * intros x y Hx Hnq Hxy. apply E1. destruct (run_eq_dec x a) as [->|Hne].
          -- right. apply (in_eps_succs m); assumption.
          -- apply E1 in Hx. destruct Hx as [Hx|Hx].
             ++ left. apply (Hc x); [assumption| |assumption]. intros [->|Hin]; [contradiction|]. apply Hnq, E2. auto.
             ++ destruct (in_dec run_eq_dec x result) as [Hr|Hr].
                ** left. apply (Hc x); [assumption| |assumption]. intros [->|Hin]; [contradiction|]. apply Hnq, E2. auto.
                ** exfalso. apply Hnq, E2. auto.
  Qed.

  Lemma run_closure_spec m fuel r l : wf_nfa m -> has_state m r -> run_closure fuel m r = Val l ->
    forall x, In x l <-> star (eps_step m) r x.
  Proof.
    intros Hwf Hr H. unfold run_closure in H. destruct (closure_loop _ _ _ _) as [l0| |] eqn:E; try discriminate.
    cbn in H. injection H as <-. intros x. rewrite in_hash_iter. apply closure_loop_spec in E; [|assumption| | |].
    - destruct E as (H1 & H2 & H3). split.
      + intros Hx. destruct (H2 x Hx) as (y & [<-|[]] & Hs). assumption.
      + induction 1; [apply H1; left; reflexivity|]. eauto.
    - auto.
    - intros y [<-|[]]. assumption.
    - intros y z [<-|[]] Hn. exfalso. apply Hn. left. reflexivity.
  Qed.

  Lemma closure_loop_total m U : wf_nfa m -> forall fuel queue result,
    (forall x, In x queue -> In x result) -> (forall x, In x result -> has_state m x /\ forall y, star (eps_step m) x y -> In y U) ->
    NoDup result -> length U + length queue <= fuel + length result ->
    exists l, closure_loop fuel m queue result = Val l.
  Proof.
    intros Hwf. induction fuel as [|fuel IH]; intros queue result Hq Hs Hn Hl.
    - assert (Hle : length result <= length U).
      { apply NoDup_incl_length; [assumption|]. intros x Hx. apply (Hs x Hx). constructor. }
      destruct queue; [eexists; reflexivity|]. cbn in Hl. lia.
    - destruct queue as [|a queue]; [eexists; reflexivity|]. cbn [closure_loop].
      destruct (Hs a (Hq a (or_introl eq_refl))) as ((st & Hst) & Ha). rewrite Hst. cbn [of_option bind].
      destruct (closure_push _ _ _) as [q' r'] eqn:E. apply closure_push_spec in E. destruct E as (E1 & E2 & E3 & E4). apply IH.
      + intros x Hx. apply E2 in Hx. apply E1. destruct Hx as [Hx|[Hx _]]; [left; apply Hq; right|]; auto.
      + intros x Hx. apply E1 in Hx. destruct Hx as [Hx|Hx]; [auto|]. apply (in_eps_succs m) in Hx; [|assumption].
        split; [eapply eps_has_state; eassumption|]. intros y Hy. apply Ha. eapply star_left; eassumption.
      + auto.
      + cbn in Hl. lia.
  Qed.

  Lemma run_closure_total m U fuel r : wf_nfa m -> has_state m r -> (forall x, star (eps_step m) r x -> In x U) ->
    length U <= fuel -> exists l, run_closure fuel m r = Val l.
  Proof.
    intros Hwf Hr HU Hf. unfold run_closure.
    destruct (closure_loop_total m U Hwf fuel [r] [r]) as (l & ->).
    - auto.
    - intros x [<-|[]]. auto.
    - constructor; [auto|constructor].
    - cbn. lia.
    - eexists. reflexivity.
  Qed.

  Lemma run_closure_no_panic m fuel r : wf_nfa m -> has_state m r -> run_closure fuel m r <> Panic.
  Proof.
    intros Hwf Hr. unfold run_closure.
    enough (H : forall fuel queue result, (forall x, In x queue -> has_state m x) ->
                closure_loop fuel m queue result <> Panic).
    { specialize (H fuel [r] [r]). destruct (closure_loop _ _ _ _); [discriminate| |discriminate].
      intros _. apply H; [|reflexivity]. intros x [<-|[]]. assumption. }
    clear fuel r Hr. intros fuel. induction fuel as [|fuel IH]; intros queue result H.
    - destruct queue; discriminate.
    - destruct queue as [|a queue]; [discriminate|]. cbn [closure_loop].
      destruct (H a (or_introl eq_refl)) as (st & Hst). rewrite Hst. cbn [of_option bind].
      destruct (closure_push _ _ _) as [q' r'] eqn:E. apply closure_push_spec in E. destruct E as (_ & E2 & _).
      apply IH. intros x Hx. apply E2 in Hx. destruct Hx as [Hx|[Hx _]]; [apply H; right; assumption|].
      apply (in_eps_succs m) in Hx; [|assumption]. eapply eps_has_state; eassumption.
  Qed.

  Lemma static_no_panic m fuel : wf_nfa m -> static_closure fuel m (nfa_start m) <> Panic.
  Proof.
    intros Hwf. unfold static_closure.
    enough (H : forall fuel queue result, (forall x, In x queue -> exists st, get_state m x = Some st) ->
                static_loop fuel m queue result <> Panic).
    { apply H. intros x [<-|[]]. apply Hwf. }
    clear fuel. intros fuel. induction fuel as [|fuel IH]; intros queue result H.
    - destruct queue; discriminate.
    - destruct queue as [|a queue]; [discriminate|]. cbn [static_loop].
      destruct (H a (or_introl eq_refl)) as (st & Hst). rewrite Hst. cbn [of_option bind].
      destruct (static_push _ _ _) as [q' r'] eqn:E. apply static_push_spec in E. destruct E as (_ & E2 & _).
      apply IH. intros x Hx. apply E2 in Hx. destruct Hx as [Hx|[Hx _]]; [apply H; right; assumption|].
      apply (in_static_targets m _ a) in Hx; [|assumption]. destruct Hx as (i & Hx & _). eapply Hwf; eassumption.
  Qed.

  (** *** Feeding *)
  Definition runs_ok (m : nfa) (rs : list run) : Prop := forall r, In r rs -> has_state m r.

  Lemma closures_spec m fuel rs l : wf_nfa m -> runs_ok m rs -> closures fuel m rs = Val l ->
    forall x, In x l <-> exists r, In r rs /\ star (eps_step m) r x.
  Proof.
    intros Hwf. revert l. induction rs as [|r rs IH]; intros l Hr H x; cbn in H.
    - injection H as <-. cbn. split; [tauto|]. intros (r & [] & _).
    - destruct (run_closure fuel m r) as [l1| |] eqn:E1; try discriminate.
      destruct (closures fuel m rs) as [l2| |] eqn:E2; try discriminate.
      cbn in H. injection H as <-. rewrite in_app_iff.
      rewrite (run_closure_spec m fuel r l1 Hwf (Hr r (or_introl eq_refl)) E1 x).
      rewrite (IH l2 (fun y Hy => Hr y (or_intror Hy)) eq_refl x). cbn. split.
      + intros [H|(y & Hy & H)]; eauto.
      + intros (y & [->|Hy] & H); eauto.
  Qed.

  Definition fed (m : nfa) (R : run -> Prop) (c : char) (x : run) : Prop :=
    exists r r', R r /\ char_step m c r r' /\ star (eps_step m) r' x.

  Lemma feed_runs_spec m fuel rs c l : wf_nfa m -> runs_ok m rs -> feed_runs fuel m rs c = Val l ->
    forall x, In x l <-> fed m (fun r => In r rs) c x.
  Proof.
    intros Hwf. revert l. induction rs as [|r rs IH]; intros l Hr H x; cbn in H.
    - injection H as <-. cbn. split; [tauto|]. intros (r & r' & [] & _).
    - destruct (Hr r (or_introl eq_refl)) as (st & Hst). rewrite Hst in H. cbn [of_option bind] in H.
      destruct (closures fuel m _) as [l1| |] eqn:E1; try discriminate.
      destruct (feed_runs fuel m rs c) as [l2| |] eqn:E2; try discriminate.
      cbn in H. injection H as <-. rewrite in_app_iff.
      assert (Hok : runs_ok m (char_succs fuel st r c)).
      { intros y Hy. apply (in_char_succs m) in Hy; [|assumption]. eapply char_has_state; eassumption. }
      rewrite (closures_spec m fuel _ l1 Hwf Hok E1 x).
      rewrite (IH l2 (fun y Hy => Hr y (or_intror Hy)) eq_refl x). unfold fed. split.
      + intros [(y & Hy & H)|(y & y' & Hy & H)].
        * apply (in_char_succs m) in Hy; [|assumption]. exists r, y. cbn. auto.
        * exists y, y'. cbn. split; [auto|assumption].
      + intros (y & y' & [->|Hy] & H1 & H2).
        * left. exists y'. split; [|assumption]. apply (in_char_succs m); assumption.
        * right. exists y, y'. auto.
  Qed.

  Lemma feed_runs_ok m fuel rs c l : wf_nfa m -> runs_ok m rs -> feed_runs fuel m rs c = Val l -> runs_ok m l.
  Proof.
    intros Hwf Hr H x Hx. rewrite (feed_runs_spec m fuel rs c l Hwf Hr H x) in Hx. destruct Hx as (r & r' & _ & H1 & H2).
    eapply star_has_state; [eassumption| |eassumption]. eapply char_has_state; eassumption.
  Qed.

  Lemma closures_total m U fuel rs : wf_nfa m -> runs_ok m rs ->
    (forall r x, In r rs -> star (eps_step m) r x -> In x U) -> length U <= fuel -> exists l, closures fuel m rs = Val l.
  Proof.
    intros Hwf Hr HU Hf. induction rs as [|r rs IH]; cbn; [eauto|].
    destruct (run_closure_total m U fuel r Hwf) as (l & ->); [apply Hr; left; reflexivity|intros x; apply HU; left; reflexivity|assumption|].
    destruct IH as (l' & ->); [intros y Hy; apply Hr; right; assumption|intros y x Hy; apply HU; right; assumption|].
    cbn. eauto.
  Qed.

  Lemma feed_runs_total m U fuel rs c : wf_nfa m -> runs_ok m rs ->
    (forall x, fed m (fun r => In r rs) c x -> In x U) -> length U <= fuel -> exists l, feed_runs fuel m rs c = Val l.
  Proof.
    intros Hwf Hr HU Hf. induction rs as [|r rs IH]; cbn; [eauto|].
    destruct (Hr r (or_introl eq_refl)) as (st & Hst). rewrite Hst. cbn [of_option bind].
    destruct (closures_total m U fuel (char_succs fuel st r c) Hwf) as (l & ->).
    - intros y Hy. apply (in_char_succs m) in Hy; [|assumption]. eapply char_has_state; eassumption.
    - intros y x Hy Hx. apply (in_char_succs m) in Hy; [|assumption]. apply HU. exists r, y. cbn. auto.
    - assumption.
    - destruct IH as (l' & ->); [intros y Hy; apply Hr; right; assumption| |cbn; eauto].
      intros x (y & y' & Hy & H). apply HU. exists y, y'. cbn. auto.
  Qed.

  Lemma closures_no_panic m fuel rs : wf_nfa m -> runs_ok m rs -> closures fuel m rs <> Panic.
  Proof.
    intros Hwf Hr. induction rs as [|r rs IH]; cbn; [discriminate|].
    pose proof (run_closure_no_panic m fuel r Hwf (Hr r (or_introl eq_refl))) as H.
    destruct (run_closure fuel m r); cbn; [|congruence|discriminate].
    assert (H' : closures fuel m rs <> Panic) by (apply IH; intros y Hy; apply Hr; right; assumption).
    destruct (closures fuel m rs); cbn; congruence.
  Qed.

  Lemma feed_runs_no_panic m fuel rs c : wf_nfa m -> runs_ok m rs -> feed_runs fuel m rs c <> Panic.
  Proof.
    intros Hwf Hr. induction rs as [|r rs IH]; cbn; [discriminate|].
    destruct (Hr r (or_introl eq_refl)) as (st & Hst). rewrite Hst. cbn [of_option bind].
    assert (H : closures fuel m (char_succs fuel st r c) <> Panic).
    { apply closures_no_panic; [assumption|]. intros y Hy. apply (in_char_succs m) in Hy; [|assumption].
      eapply char_has_state; eassumption. }
    destruct (closures _ _ _); cbn; [|congruence|discriminate].
    assert (H' : feed_runs fuel m rs c <> Panic) by (apply IH; intros y Hy; apply Hr; right; assumption).
    destruct (feed_runs _ _ _ _); cbn; congruence.
  Qed.

  (** *** Answers *)
  Definition final (m : nfa) (r : run) : Prop := fin_of m (r_state r) = Some true.

  Lemma sim_accepting_spec m rs : runs_ok m rs -> exists b, sim_accepting m rs = Val b /\
    (b = true <-> exists r, In r rs /\ final m r).
  Proof.
    induction rs as [|r rs IH]; intros Hr; cbn.
    - exists false. split; [reflexivity|]. split; [discriminate|]. intros (r & [] & _).
    - destruct (Hr r (or_introl eq_refl)) as (st & Hst). rewrite Hst. cbn [of_option bind].
      destruct IH as (b & Hb & Hb'); [intros y Hy; apply Hr; right; assumption|].
      assert (Hf : final m r <-> st_fin st = true).
      { unfold final, fin_of. rewrite Hst. cbn. split; congruence. }
      destruct (st_fin st).
      + exists true. split; [reflexivity|]. split; [|reflexivity]. intros _. exists r. cbn. intuition.
      + exists b. split; [assumption|]. rewrite Hb'. split.
        * intros (y & Hy & H). eauto.
        * intros (y & [->|Hy] & H); [|eauto]. apply Hf in H. discriminate.
  Qed.

  Lemma sim_can_feed_spec m rs c : runs_ok m rs -> exists b, sim_can_feed m rs c = Val b /\
    (b = true <-> exists r st i ts, In r rs /\ get_state m (r_state r) = Some st /\ In (i, ts) (st_trans st) /\ can_take i c = true).
  Proof.
    induction rs as [|r rs IH]; intros Hr; cbn.
    - exists false. split; [reflexivity|]. split; [discriminate|]. intros (r & st & i & ts & [] & _).
    - destruct (Hr r (or_introl eq_refl)) as (st & Hst). rewrite Hst. cbn [of_option bind].
      destruct IH as (b & Hb & Hb'); [intros y Hy; apply Hr; right; assumption|].
      destruct (existsb _ _) eqn:E.
      + exists true. split; [reflexivity|]. split; [|reflexivity]. intros _.
        apply existsb_exists in E. destruct E as ((i & ts) & H1 & H2). exists r, st, i, ts. cbn. auto.
      + exists b. split; [assumption|]. rewrite Hb'. split.
        * intros (y & st' & i & ts & Hy & H). exists y, st', i, ts. auto.
        * intros (y & st' & i & ts & [->|Hy] & H1 & H2 & H3); [|exists y, st', i, ts; auto].
          replace st' with st in * by congruence.
          assert (existsb (fun p => can_take (fst p) c) (st_trans st) = true); [|congruence].
          apply existsb_exists. exists (i, ts). auto.
  Qed.

  (** Sorted lists of states. *)
  Fixpoint sorted_ids (n : nat) (l : list nat) : Prop :=
    match l with [] => True | x :: r => n <= x /\ sorted_ids (S x) r end.
  Lemma bset_insert_sorted x : forall l n, n <= x -> sorted_ids n l -> sorted_ids n (bset_insert x l).
  Proof.
    induction l as [|y r IH]; intros n Hn H; cbn [bset_insert]; [cbn; auto|]. cbn in H. destruct H as [H1 H2].
    destruct (Nat.eqb_spec x y) as [->|]; [cbn; auto|]. destruct (Nat.ltb_spec x y); cbn.
    - split; [assumption|]. split; [lia|assumption].
    - split; [assumption|]. apply IH; [lia|assumption].
  Qed.
  Lemma sorted_ids_lower l : forall n x, sorted_ids n l -> In x l -> n <= x.
  Proof.
    induction l as [|y r IH]; intros n x H Hx; [destruct Hx|]. cbn in H. destruct H as [H1 H2].
    destruct Hx as [->|Hx]; [assumption|]. specialize (IH _ _ H2 Hx). lia.
  Qed.
  Lemma sorted_ids_eq : forall l l' n n', sorted_ids n l -> sorted_ids n' l' -> (forall x, In x l <-> In x l') -> l = l'.
  Proof.
    induction l as [|y r IH]; intros l' n n' H H' E.
    - destruct l' as [|z r']; [reflexivity|]. destruct (proj2 (E z) (or_introl eq_refl)).
    - destruct l' as [|z r']; [destruct (proj1 (E y) (or_introl eq_refl))|].
      cbn in H, H'. destruct H as [H1 H2], H' as [H1' H2'].
      assert (y = z).
      { destruct (proj1 (E y) (or_introl eq_refl)) as [|Hy]; [congruence|].
        destruct (proj2 (E z) (or_introl eq_refl)) as [|Hz]; [congruence|].
        pose proof (sorted_ids_lower _ _ _ H2 Hz). pose proof (sorted_ids_lower _ _ _ H2' Hy). lia. }
      subst z. f_equal. eapply IH; [eassumption|eassumption|]. intros x. split; intros Hx.
      + destruct (proj1 (E x) (or_intror Hx)) as [->|]; [|assumption]. pose proof (sorted_ids_lower _ _ _ H2 Hx). lia.
      + destruct (proj2 (E x) (or_intror Hx)) as [->|]; [|assumption]. pose proof (sorted_ids_lower _ _ _ H2' Hx). lia.
  Qed.

  Lemma sim_final_states_spec m rs :
    sorted_ids 0 (sim_final_states m rs) /\
    forall x, In x (sim_final_states m rs) <-> In x (map st_id (filter st_fin (nfa_states m))) /\ exists r, In r rs /\ r_state r = x.
  Proof.
    unfold sim_final_states. set (F := map st_id _).
    enough (H : forall acc, sorted_ids 0 acc ->
      let l := fold_left (fun acc r => if memb (r_state r) F then bset_insert (r_state r) acc else acc) rs acc in
      sorted_ids 0 l /\ forall x, In x l <-> In x acc \/ (In x F /\ exists r, In r rs /\ r_state r = x)).
    { destruct (H [] I) as [H1 H2]. split; [assumption|]. intros x. rewrite H2. cbn. tauto. }
    induction rs as [|r rs IH]; intros acc Hacc; cbn.
    - split; [assumption|]. intros x. split; [auto|]. intros [H|(_ & r & [] & _)]. assumption.
    - destruct (memb (r_state r) F) eqn:E.
      + apply memb_in in E. destruct (IH (bset_insert (r_state r) acc)) as [H1 H2].
        { apply bset_insert_sorted; [lia|assumption]. }
        split; [assumption|]. intros x. rewrite H2, bset_insert_in. split.
        * intros [[->|H]|(Hx & y & Hy & <-)]; [right; split; [assumption|exists r; auto]|auto|right; split; [assumption|exists y; auto]].
        * intros [H|(Hx & y & [->|Hy] & <-)]; [auto|auto|right; split; [assumption|exists y; auto]].
      + apply memb_not_in in E. destruct (IH acc Hacc) as [H1 H2]. split; [assumption|]. intros x. rewrite H2. split.
        * intros [H|(Hx & y & Hy & <-)]; [auto|right; split; [assumption|exists y; auto]].
        * intros [H|(Hx & y & [->|Hy] & <-)]; [auto|contradiction|right; split; [assumption|exists y; auto]].
  Qed.

  Lemma sim_new_spec m fuel rs : wf_nfa m -> sim_new fuel m = Val rs ->
    runs_ok m rs /\ forall x, In x rs <-> r_cnt x = [] /\ star (static_step m) (nfa_start m) (r_state x).
  Proof.
    intros Hwf H. unfold sim_new in H. destruct (static_closure _ _ _) as [l| |] eqn:E; try discriminate.
    cbn in H. injection H as <-. pose proof (static_closure_spec m fuel l Hwf E) as Hs. split.
    - intros r Hr. apply in_map_iff in Hr. destruct Hr as (p & <- & Hp). apply Hs in Hp. clear -Hwf Hp. unfold has_state. cbn.
      destruct Hp as [|y z _ (i & Hi & _)]; [apply Hwf|]. eapply Hwf; eassumption.
    - intros x. rewrite in_map_iff. split.
      + intros (p & <- & Hp). cbn. apply Hs in Hp. auto.
      + intros [Hc Hp]. exists (r_state x). destruct x as [p c]. cbn in *. subst. split; [reflexivity|]. apply Hs. assumption.
  Qed.
End Sim.
