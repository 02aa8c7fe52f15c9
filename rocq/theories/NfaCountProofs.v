(** Number of runs kept by the simulator. *)
From Verif Require Import Base RegexModel SpecRegex NfaModel SpecNfa NfaCompileProofs NfaLangProofs NfaSimProofs
  NfaMachineProofs NfaTermProofs LexerModel RegexProofs NfaProofs NfaSpin.

(** ** Counting counters *)

(** Counters with keys from [lo] to [lo + n - 1] and values up to [B]. *)
Fixpoint enum (lo n B : nat) : list counters :=
  match n with
  | 0 => [[]]
  | S n => enum (S lo) n B ++ flat_map (fun v => map (cons (lo, v)) (enum (S lo) n B)) (seq 0 (S B))
  end.

Lemma flat_map_const {A B} (f : A -> list B) l k : (forall x, In x l -> length (f x) = k) -> length (flat_map f l) = length l * k.
Proof.
  induction l as [|x l IH]; intros H; cbn [flat_map length]; [reflexivity|]. rewrite app_length, H by (left; reflexivity).
  rewrite IH; [lia|]. intros y Hy. apply H. right. assumption.
Qed.

Lemma enum_length n B : forall lo, length (enum lo n B) = (B + 2) ^ n.
Proof.
  induction n as [|n IH]; intros lo; [reflexivity|]. cbn [enum]. rewrite app_length.
  rewrite (flat_map_const _ _ ((B + 2) ^ n)).
  - rewrite seq_length, IH. cbn [Nat.pow]. lia.
  - intros v _. rewrite map_length. apply IH.
Qed.

Definition small (hi B : nat) (c : counters) : Prop := forall i v, In (i, v) c -> i < hi /\ v <= B.

Lemma enum_complete n B : forall lo c, sorted_from lo c -> small (lo + n) B c -> In c (enum lo n B).
Proof.
  induction n as [|n IH]; intros lo c Hs Hb.
  - destruct c as [|[i v] c]; [left; reflexivity|]. destruct Hs as [Hi _]. destruct (Hb i v (or_introl eq_refl)). lia.
  - cbn [enum]. apply in_or_app. destruct c as [|[i v] c].
    + left. apply IH; [exact I|]. intros i v [].
    + destruct Hs as [Hi Hs]. destruct (Hb i v (or_introl eq_refl)) as [Hi' Hv]. destruct (Nat.eq_dec i lo) as [->|Hne].
      * right. apply in_flat_map. exists v. split; [apply in_seq; lia|]. apply in_map. apply IH; [assumption|].
        intros j u Hj. replace (S lo + n) with (lo + S n) by lia. apply Hb. right. assumption.
      * left. apply IH; [split; [lia|assumption]|]. intros j u Hj. replace (S lo + n) with (lo + S n) by lia. apply Hb. assumption.
Qed.

Lemma update_small i f hi B B' c : small hi B c -> i < hi -> B <= B' -> (forall v, v <= B -> f v <= B') ->
  small hi B' (counters_update i f c).
Proof.
  intros Hc Hi HB Hf. induction c as [|[j v] c IH]; cbn [counters_update]; intros i' v' Hin.
  - destruct Hin as [[= <- <-]|[]]. split; [assumption|]. apply Hf. lia.
  - destruct (i =? j).
    + destruct Hin as [[= <- <-]|Hin].
      * destruct (Hc j v (or_introl eq_refl)). split; [assumption|]. apply Hf. assumption.
      * destruct (Hc i' v' (or_intror Hin)). split; [assumption|lia].
    + destruct (i <? j).
      * destruct Hin as [[= <- <-]|Hin]; [split; [assumption|apply Hf; lia]|]. destruct (Hc i' v' Hin). split; [assumption|lia].
      * destruct Hin as [[= <- <-]|Hin]; [destruct (Hc j v (or_introl eq_refl)); split; [assumption|lia]|].
        apply IH; [|assumption]. intros a b Hab. apply Hc. right. assumption.
Qed.

Section Bounded.
  Context {env : Env}.
  Variables (m : nfa) (k : nat) (l : list expr).
  Hypothesis Hm : machine m k l.

  Notation n := (nstates m).

  Lemma take_small B r t b : has_state m r -> small n B (r_cnt r) -> small n (S B) (r_cnt (take_transition r t b)).
  Proof.
    intros (st & Hst) H. cbn. apply update_small with (B := B); [assumption| |lia|].
    - eapply get_state_lt; [apply Hm|eassumption].
    - intros v Hv. destruct b; lia.
  Qed.

  (** A closure adds at most [K] to the counters. *)
  Lemma star_small K : forall r x B, vrun m k l r -> (forall x, star (eps_step m) r x -> ~ mbads k l (r_state x)) ->
    bnd (has_edge m) (mbads k l) K (r_state r) (cof r) -> small n B (r_cnt r) ->
    star (eps_step m) r x -> small n (B + K) (r_cnt x).
  Proof.
    induction K as [|K IH]; intros r x B Hv Hnb [Hb|Hb] Hs Hx; try (exfalso; apply (Hnb r); [constructor|exact Hb]);
      apply star_case in Hx; destruct Hx as [<-|(y & Hy & Hx)].
    - rewrite Nat.add_0_r. assumption.
    - exfalso. destruct Hy as (i & t & He & H). destruct i as [lt| |q]; [destruct H| |].
      + exact (Hb IEps t _ He eq_refl).
      + destruct H as [Hq _]. exact (Hb (IQuant q) t _ He (conj Hq eq_refl)).
    - intros i v Hi. destruct (Hs i v Hi). split; [assumption|lia].
    - replace (B + S K) with (S B + K) by lia. apply (IH y x (S B)); [eapply vrun_eps; eassumption| | | |assumption].
      + intros z Hz. apply Hnb. eapply star_left; eassumption.
      + destruct Hv as (H1 & _). destruct Hy as (i & t & He & H). destruct i as [lt| |q]; [destruct H| |].
        * subst y. eapply bnd_ceq; [|exact (Hb IEps t _ He eq_refl)]. intros j _. symmetry. apply cof_take_false. assumption.
        * destruct H as [Hq ->]. eapply bnd_ceq; [|exact (Hb (IQuant q) t _ He (conj Hq eq_refl))].
          intros j _. symmetry. apply cof_take_true. assumption.
      + destruct Hv as (_ & H2 & _). destruct Hy as (i & t & He & H). destruct i as [lt| |q]; [destruct H| |].
        * subst y. apply take_small; assumption.
        * destruct H as [_ ->]. apply take_small; assumption.
  Qed.

  Lemma after_small : exists K, forall w, (forall v c u x, w = v ++ c :: u -> after m (init m) (v ++ [c]) x -> ~ mbads k l (r_state x)) ->
    forall x, after m (init m) w x -> vrun m k l x /\ small n (S K * length w) (r_cnt x).
  Proof.
    destruct (machine_bnd m k l Hm) as (K & HK). exists K. intros w.
    rewrite <- (rev_involutive w). induction (rev w) as [|c v IH]; cbn [rev]; intros Hnb x Hx.
    - split; [apply vrun_init; assumption|]. destruct Hx as [-> _]. intros i u [].
    - rewrite after_app in Hx. cbn [after] in Hx. destruct Hx as (r & r' & Hr & Hc & Hst). pose proof Hr as Hr0.
      apply IH in Hr; [|intros v' c' u' y E; apply (Hnb v' c' (u' ++ [c])); rewrite E, <- app_assoc; reflexivity].
      destruct Hr as [Hv Hs]. destruct (vrun_char m k l Hm c r r' Hv Hc) as [Hv' H0].
      split; [eapply vrun_star; eassumption|].
      assert (Hs' : small n (S (S K * length (rev v))) (r_cnt r')).
      { destruct Hc as (lt & t & _ & _ & ->). apply take_small; [apply Hv|assumption]. }
      rewrite app_length. cbn [length].
      replace (S K * (length (rev v) + 1)) with (S (S K * length (rev v)) + K) by lia.
      apply (star_small K r' x); try assumption.
      + intros y Hy. apply (Hnb (rev v) c []); [reflexivity|]. rewrite after_app. cbn [after]. exists r, r'. auto.
      + apply HK; [|assumption|apply Hv'].
        destruct Hv' as (_ & (st & Hst') & _). eapply get_state_lt; [apply Hm|eassumption].
  Qed.

  Lemma distinct_runs : exists a d, forall (ho : HashOrder) fuel w rs, sim_text fuel m w = Val rs ->
    length (nodup run_eq_dec rs) <= (a * S (length w)) ^ d.
  Proof.
    destruct after_small as (K & HK). exists (K + 2 + n), (S n). intros ho fuel w rs H.
    pose proof (machine_wf _ _ _ Hm) as [_ Hwf]. destruct (sim_text_spec m fuel w rs Hwf H) as [_ Hin].
    set (B := S K * length w).
    set (U := flat_map (fun s => map (fun c => {| r_state := s; r_cnt := c |}) (enum 0 n B)) (seq 0 n)).
    assert (HU : length U = n * (B + 2) ^ n).
    { unfold U. rewrite (flat_map_const _ _ ((B + 2) ^ n)); [rewrite seq_length; reflexivity|].
      intros s _. rewrite map_length. apply enum_length. }
    assert (Hnb : forall v c u x, w = v ++ c :: u -> after m (init m) (v ++ [c]) x -> ~ mbads k l (r_state x)).
    { intros v c u x E Hx Hb. replace (c :: u) with ([c] ++ u) in E by reflexivity. rewrite app_assoc in E. rewrite E in H.
      destruct (sim_text_prefix m fuel _ _ _ H) as (rs' & H').
      apply (bad_infinite m k l Hm (v ++ [c]) x) with (L := rs'); [|exact Hx|exact Hb|].
      - intros E0. apply app_eq_nil in E0. destruct E0 as [_ E0]. discriminate.
      - intros y Hy. apply (sim_text_spec m fuel _ _ Hwf H'). exact Hy. }
    transitivity (length U).
    - apply NoDup_incl_length; [apply NoDup_nodup|]. intros x Hx. apply nodup_In in Hx. apply Hin in Hx. apply (HK w Hnb) in Hx.
      destruct Hx as [(H1 & (st & Hst) & _) Hs]. apply in_flat_map. exists (r_state x). split.
      + assert (Hlt : r_state x < n) by (eapply get_state_lt; [apply Hm|eassumption]). apply in_seq. lia.
      + apply in_map_iff. exists (r_cnt x). split; [destruct x; reflexivity|]. apply enum_complete; assumption.
    - rewrite HU. cbn [Nat.pow]. apply Nat.mul_le_mono; [nia|]. apply Nat.pow_le_mono_l. unfold B. nia.
  Qed.
End Bounded.

(** ** A pattern that keeps duplicates *)

Section Double.
  Context {env : Env} {ho : HashOrder}.

  Definition ca : char := $"a".
  Definition twice_a : expr :=
    EGroup (EAlt (ELit (LMatch ca) None) (ELit (LGroup false [GMatch ca]) None)) (Some QAsterisk).

  Definition st0 : state := {| st_id := 0; st_fin := false; st_trans := [(IEps, [2])] |}.
  Definition st1 : state := {| st_id := 1; st_fin := true; st_trans := [] |}.
  Definition st2 : state := {| st_id := 2; st_fin := false;
    st_trans := [(IQuant QAsterisk, [1]); (ILit (LMatch ca), [2]); (ILit (LGroup false [GMatch ca]), [2])] |}.
  Definition twice_nfa : nfa := {| nfa_start := 0; nfa_states := [st0; st1; st2] |}.

  Lemma twice_from : nfa_from twice_a = Val twice_nfa.
  Proof. vm_compute. reflexivity. Qed.

  Lemma perm_flat_map {A B} (f : A -> list B) l l' : Permutation l l' -> Permutation (flat_map f l) (flat_map f l').
  Proof.
    induction 1; cbn; auto.
    - apply Permutation_app_head. assumption.
    - rewrite !app_assoc. apply Permutation_app_tail, Permutation_app_comm.
    - etransitivity; eassumption.
  Qed.
  Lemma hash_one A k (x : A) : hash_iter k [x] = [x].
  Proof. apply Permutation_length_1_inv. symmetry. apply hash_iter_perm. Qed.

  Lemma eps_two j r : r_state r = 2 -> eps_succs j st2 r = [take_transition r 1 true].
  Proof.
    intros Hr. apply Permutation_length_1_inv. symmetry. unfold eps_succs, iter_trans.
    rewrite flat_map_concat_map, map_map, <- flat_map_concat_map.
    etransitivity; [apply perm_flat_map, hash_iter_perm|]. cbn. rewrite hash_one. apply Permutation_refl.
  Qed.
  Lemma char_two j r : char_succs j st2 r ca = [take_transition r 2 false; take_transition r 2 false].
  Proof.
    apply Permutation_repeat with (n := 2). unfold char_succs, iter_trans.
    rewrite flat_map_concat_map, map_map, <- flat_map_concat_map.
    etransitivity; [apply perm_flat_map, hash_iter_perm|]. cbn. rewrite hash_one. apply Permutation_refl.
  Qed.

  Definition twos (rs : list run) : nat := length (filter (fun r => r_state r =? 2) rs).

  Lemma twos_app a b : twos (a ++ b) = twos a + twos b.
  Proof. unfold twos. rewrite filter_app, app_length. reflexivity. Qed.
  Lemma perm_twos a b : Permutation a b -> twos a = twos b.
  Proof.
    unfold twos. induction 1 as [|x a b _ IH|x y a|a b c _ IH1 _ IH2]; cbn [filter]; auto.
    - destruct (r_state x =? 2); cbn; congruence.
    - destruct (r_state x =? 2), (r_state y =? 2); reflexivity.
    - congruence.
  Qed.

  Lemma closure_two fuel r : 2 <= fuel -> r_state r = 2 ->
    exists l, run_closure fuel twice_nfa r = Val l /\ twos l = 1 /\ forall x, In x l -> r_state x = 1 \/ r_state x = 2.
  Proof.
    intros Hf Hr. destruct fuel as [|[|fuel]]; try lia. unfold run_closure. cbn [closure_loop].
    unfold get_state. cbn [nfa_states twice_nfa find st_id st0 st1 st2]. rewrite Hr. cbn [Nat.eqb of_option bind].
    fold st2. rewrite (eps_two _ r Hr). cbn [closure_push].
    assert (Hne : memb (take_transition r 1 true) [r] = false).
    { apply memb_not_in. intros [H|[]]. rewrite H in Hr. discriminate. }
    rewrite Hne. cbn [app closure_loop find st_id Nat.eqb r_state take_transition of_option bind].
    unfold eps_succs, iter_trans. cbn [st_trans st1].
    assert (Hn : hash_iter (S fuel) (A := input * list nat) [] = []).
    { apply Permutation_nil. symmetry. apply hash_iter_perm. }
    rewrite Hn. cbn [map flat_map closure_push closure_loop bind].
    destruct fuel as [|fuel]; cbn [closure_loop bind].
    all: eexists; split; [reflexivity|]; split.
    all: try (rewrite (perm_twos _ _ (hash_iter_perm _ _ _)); unfold twos; cbn [filter]; rewrite Hr; reflexivity).
    all: intros x Hx; rewrite in_hash_iter in Hx; destruct Hx as [<-|[<-|[]]]; [right; assumption|left; reflexivity].
  Qed.

  Lemma feed_double fuel : 2 <= fuel -> forall rs, (forall x, In x rs -> r_state x <= 2) ->
    exists l, feed_runs fuel twice_nfa rs ca = Val l /\ twos l = 2 * twos rs /\ (forall x, In x l -> r_state x <= 2).
  Proof.
    intros Hf. induction rs as [|r rs IH]; intros Hrs; cbn [feed_runs].
    - exists []. split; [reflexivity|]. split; [reflexivity|]. intros x [].
    - destruct IH as (l' & El & Hl & Hx); [intros x Hx; apply Hrs; right; assumption|].
      pose proof (Hrs r (or_introl eq_refl)) as Hr.
      assert (Hn : hash_iter fuel (A := input * list nat) [] = []).
      { apply Permutation_nil. symmetry. apply hash_iter_perm. }
      destruct (r_state r) as [|[|[|s]]] eqn:Er; [| | |lia].
      + cbn [get_state twice_nfa nfa_states find st_id st0 st1 st2 Nat.eqb of_option bind]. fold st0.
        replace (char_succs fuel st0 r ca) with (@nil run).
        * cbn [closures bind]. rewrite El. cbn [bind app]. exists l'. unfold twos at 2. cbn [filter]. rewrite Er. cbn. auto.
        * symmetry. apply Permutation_nil. symmetry. unfold char_succs, iter_trans.
          rewrite flat_map_concat_map, map_map, <- flat_map_concat_map.
          etransitivity; [apply perm_flat_map, hash_iter_perm|]. cbn. apply Permutation_refl.
      + cbn [get_state twice_nfa nfa_states find st_id st0 st1 st2 Nat.eqb of_option bind]. fold st1.
        replace (char_succs fuel st1 r ca) with (@nil run).
        * cbn [closures bind]. rewrite El. cbn [bind app]. exists l'. unfold twos at 2. cbn [filter]. rewrite Er. cbn. auto.
        * unfold char_succs, iter_trans. cbn [st1 st_trans]. rewrite Hn. reflexivity.
      + cbn [get_state twice_nfa nfa_states find st_id st0 st1 st2 Nat.eqb of_option bind]. fold st2.
        rewrite char_two. cbn [closures].
        destruct (closure_two fuel (take_transition r 2 false) Hf eq_refl) as (lc & Ec & Hc & Hs). rewrite Ec. cbn [bind].
        rewrite El. cbn [bind]. eexists. split; [reflexivity|]. split.
        * rewrite !twos_app, Hc, Hl. unfold twos at 3. cbn [filter]. rewrite Er. cbn [Nat.eqb length]. fold (twos rs).
          change (twos []) with 0. lia.
        * intros x H. rewrite !in_app_iff in H.
          destruct H as [[H|[H|[]]]|H]; [destruct (Hs x H); lia|destruct (Hs x H); lia|auto].
  Qed.

  Lemma double_runs fuel n : 3 <= fuel -> exists rs, sim_text fuel twice_nfa (repeat ca n) = Val rs /\ 2 ^ n <= length rs.
  Proof.
    intros Hf.
    pose proof (nfa_from_ok _ _ twice_from) as [_ Hmach]. pose proof (machine_wf _ _ _ Hmach) as [_ Hwf].
    assert (H : forall n rs, (forall x, In x rs -> r_state x <= 2) ->
              exists l, feed_each fuel twice_nfa rs (repeat ca n) = Val l /\ twos l = 2 ^ n * twos rs).
    { clear n. induction n as [|n IH]; intros rs Hrs; cbn [repeat feed_each].
      - exists rs. split; [reflexivity|]. cbn. lia.
      - destruct (feed_double fuel ltac:(lia) rs Hrs) as (l & El & Hl & Hx). unfold sim_feed. rewrite El. cbn [bind].
        assert (Hok : runs_ok twice_nfa l).
        { intros r Hr. pose proof (Hx r Hr) as Hr2. unfold has_state, get_state. cbn [twice_nfa nfa_states find st_id st0 st1 st2].
          destruct (r_state r) as [|[|[|s]]]; cbn [Nat.eqb]; try lia; eauto. }
        destruct (sim_accepting_spec twice_nfa l Hok) as (b & -> & _). cbn [bind].
        destruct (IH l Hx) as (l' & El' & Hl'). exists l'. split; [assumption|]. rewrite Hl', Hl. cbn [Nat.pow]. lia. }
    destruct (static_closure_total twice_nfa fuel Hwf) as (ps & Hps); [cbn; lia|].
    assert (E : sim_new fuel twice_nfa = Val (map (fun i => {| r_state := i; r_cnt := [] |}) ps)) by (unfold sim_new; rewrite Hps; reflexivity).
    destruct (sim_new_spec twice_nfa fuel _ Hwf E) as [H1 H2].
    destruct (H n (map (fun i => {| r_state := i; r_cnt := [] |}) ps)) as (rs & Ers & Hrs).
    { intros x Hx. apply H1 in Hx. destruct Hx as (st & Hst). apply get_state_lt in Hst; [|apply Hmach]. cbn in Hst. lia. }
    exists rs. split; [unfold sim_text; rewrite E; exact Ers|].
    assert (Hone : 1 <= twos (map (fun i => {| r_state := i; r_cnt := [] |}) ps)).
    { assert (Hin : In {| r_state := 2; r_cnt := [] |} (map (fun i => {| r_state := i; r_cnt := [] |}) ps)).
      { apply H2. split; [reflexivity|]. cbn. eapply star_step; [constructor|]. exists IEps. split; [|exact I].
        exists st0, [2]. split; [reflexivity|]. split; [left; reflexivity|left; reflexivity]. }
      unfold twos. destruct (filter _ _) eqn:Ef; [|cbn; lia].
      exfalso. assert (X : In {| r_state := 2; r_cnt := [] |} []) by (rewrite <- Ef; apply filter_In; auto). destruct X. }
    assert (Hle : twos rs <= length rs).
    { unfold twos. clear. induction rs as [|r rs IH]; cbn [filter]; [cbn; lia|]. destruct (r_state r =? 2); cbn; lia. }
    nia.
  Qed.
End Double.
