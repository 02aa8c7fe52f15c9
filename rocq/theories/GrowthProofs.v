(** The number of runs of any regex grows at most exponentially. *)
From Verif Require Import Base RegexModel SpecRegex RegexParseProofs RegexProofs NfaModel SpecNfa NfaCompileProofs NfaLangProofs NfaSimProofs
  NfaMachineProofs NfaTermProofs LexerModel NfaProofs NfaWitness DotProofs LexerProofs SpecLexer NfaSpin
  NfaCountProofs ReturnProofs CounterProofs SpecExtent OnceProofs LexerWitness OnceWork.
From Verif Require CountProofs.

(** Sorted counters with given values for every key. *)
Fixpoint choices (lo n : nat) (f : nat -> list nat) : list counters :=
  match n with
  | 0 => [[]]
  | S n => choices (S lo) n f ++ flat_map (fun v => map (cons (lo, v)) (choices (S lo) n f)) (f lo)
  end.

Lemma choices_length n f b : (forall i, length (f i) = b) -> forall lo, length (choices lo n f) = S b ^ n.
Proof.
  intros Hf. induction n as [|n IH]; intros lo; [reflexivity|]. cbn [choices]. rewrite app_length.
  rewrite (flat_map_const _ _ (S b ^ n)).
  - rewrite Hf, IH. cbn [Nat.pow]. lia.
  - intros v _. rewrite map_length. apply IH.
Qed.

Lemma choices_complete n f : forall lo c, sorted_from lo c -> (forall i v, In (i, v) c -> i < lo + n /\ In v (f i)) -> In c (choices lo n f).
Proof.
  induction n as [|n IH]; intros lo c Hs Hb.
  - destruct c as [|[i v] c]; [left; reflexivity|]. destruct Hs as [Hi _]. destruct (Hb i v (or_introl eq_refl)). lia.
  - cbn [choices]. apply in_or_app. destruct c as [|[i v] c].
    + left. apply IH; [exact I|]. intros i v [].
    + destruct Hs as [Hi Hs]. destruct (Hb i v (or_introl eq_refl)) as [Hi' Hv]. destruct (Nat.eq_dec i lo) as [->|Hne].
      * right. apply in_flat_map. exists v. split; [assumption|]. apply in_map. apply IH; [assumption|].
        intros j u Hj. replace (S lo + n) with (lo + S n) by lia. apply Hb. right. assumption.
      * left. apply IH; [split; [lia|assumption]|]. intros j u Hj. replace (S lo + n) with (lo + S n) by lia. apply Hb. assumption.
Qed.

Section Machine.
  Context {env : Env}.
  Variables (m : nfa) (k : nat) (l : list expr).
  Hypothesis Hm : machine m k l.
  Hypothesis Hd : dup_free m.
  Let Hwf : wf_nfa m := proj2 (machine_wf _ _ _ Hm).

  Lemma eps_other r y i : run_ok r -> eps_step m r y -> i <> r_state r -> cof y i = cof r i.
  Proof.
    intros Hok (p & t & _ & H) Hi. destruct p as [lt| |q]; [destruct H| |destruct H as [_ H]]; subst y;
      [rewrite cof_take_false by assumption|rewrite cof_take_true by assumption]; unfold inc, zer; destruct (Nat.eqb_spec i (r_state r)); congruence.
  Qed.

  (** The counter of a state that is not come to stays. *)
  Lemma never_there j : forall i y z, vrun m k l y -> (forall x, star (eps_step m) y x -> r_state x <> i) -> nsteps m j y z -> cof z i = cof y i.
  Proof.
    induction j as [|j IH]; intros i y z Hv Hn Hz; inversion Hz as [r0|j0 r0 x z0 Hx Hxz]; subst; [reflexivity|].
    rewrite (IH i x z); [|eapply vrun_eps; eassumption| |assumption].
    - apply eps_other; [apply Hv|assumption|]. intros E. exact (Hn y (star_refl _ _) (eq_sym E)).
    - intros x' Hx'. apply Hn. eapply star_left; eassumption.
  Qed.

  (** Without reading, a counter stays, is counted up once, or begins anew. *)
  Lemma star_near r z : vrun m k l r -> r_state r <> 0 -> (forall x, star (eps_step m) r x -> ~ mbads k l (r_state x)) ->
    star (eps_step m) r z -> forall i, In (cof z i) [cof r i; S (cof r i); 0; 1].
  Proof.
    intros Hv H0 Hnb Hs. destruct (star_nsteps m _ _ Hs) as (j & Hj). clear Hs. revert r Hv H0 Hnb Hj.
    induction j as [|j IH]; intros r Hv H0 Hnb Hj i; inversion Hj as [|j0 r0 y z0 Hy Hyz]; subst; [left; reflexivity|].
    assert (Hvy : vrun m k l y) by (eapply vrun_eps; eassumption).
    assert (H0y : r_state y <> 0).
    { destruct Hy as (i' & t & He & H). intros E. apply (machine_start_fresh m k l (r_state r) i' Hm).
      destruct i' as [lt| |q]; [destruct H| |destruct H as [_ H]]; subst y; cbn in E; subst t; exact He. }
    assert (Hnby : forall x, star (eps_step m) y x -> ~ mbads k l (r_state x)).
    { intros x Hx. apply Hnb. eapply star_left; eassumption. }
    specialize (IH y Hvy H0y Hnby Hyz i). destruct (Nat.eq_dec i (r_state r)) as [->|Hi].
    - destruct (Nat.eq_dec (cof y (r_state r)) 0) as [E|Hne].
      + rewrite E in IH. cbn in *. destruct IH as [IH|[IH|[IH|[IH|[]]]]]; auto.
      + assert (E : cof z (r_state r) = cof y (r_state r)).
        { eapply never_there; [exact Hvy| |exact Hyz]. intros x Hx. exact (no_return m k l Hm r y x Hv H0 Hnb Hy Hne Hx). }
        rewrite E. destruct Hy as (p & t & _ & H). destruct Hv as (Hok & _). destruct p as [lt| |q]; [destruct H| |destruct H as [_ H]]; subst y.
        * right. left. rewrite cof_take_false by assumption. unfold inc. rewrite Nat.eqb_refl. reflexivity.
        * exfalso. apply Hne. rewrite cof_take_true by assumption. unfold zer. rewrite Nat.eqb_refl. reflexivity.
    - rewrite (eps_other r y i) in IH; [exact IH|apply Hv|assumption|assumption].
  Qed.

  Definition factor : nat := nstates m * 5 ^ nstates m.

  Section Text.
    Context {ho : HashOrder}.
    Variables (fuel : nat) (text : list char).
    Hypothesis Hnb : forall u v x, text = u ++ v -> u <> [] -> after m (init m) u x -> ~ mbads k l (r_state x).

    Lemma after_keys u v x : text = u ++ v -> after m (init m) u x -> forall i n, In (i, n) (r_cnt x) -> i < nstates m.
    Proof.
      intros E Hx i n Hi. destruct (after_small m k l Hm) as (K & HK). apply (HK u) in Hx.
      - apply (proj2 Hx i n Hi).
      - intros v' c u' y E' Hy. apply (Hnb (v' ++ [c]) (u' ++ v)); [|intros E0; apply app_eq_nil in E0; destruct E0; discriminate|exact Hy].
        rewrite E, E', <- !app_assoc. reflexivity.
    Qed.

    Lemma one_closure u c v r r' L : text = (u ++ [c]) ++ v -> after m (init m) u r -> char_step m c r r' ->
      run_closure fuel m r' = Val L -> length L <= factor.
    Proof.
      intros E Hr Hc HL. pose proof (run_closure_nodup m fuel r' L HL) as Hn.
      destruct (vrun_char m k l Hm c r r' (after_vrun m k l Hm u r Hr) Hc) as [Hv' H0].
      assert (Ha : forall y, star (eps_step m) r' y -> after m (init m) (u ++ [c]) y).
      { intros y Hy. rewrite after_app. cbn [after]. exists r, r'. auto. }
      assert (Hn' : forall y, star (eps_step m) r' y -> ~ mbads k l (r_state y)).
      { intros y Hy. apply (Hnb (u ++ [c]) v); [exact E|intros E0; apply app_eq_nil in E0; destruct E0; discriminate|auto]. }
      set (U := flat_map (fun s => map (fun c => {| r_state := s; r_cnt := c |})
                  (choices 0 (nstates m) (fun i => [cof r' i; S (cof r' i); 0; 1]))) (seq 0 (nstates m))).
      assert (HU : length U = factor).
      { unfold U, factor. rewrite (flat_map_const _ _ (5 ^ nstates m)); [rewrite seq_length; reflexivity|].
        intros s _. rewrite map_length. apply choices_length. reflexivity. }
      rewrite <- HU. apply NoDup_incl_length; [assumption|]. intros x Hx.
      apply (run_closure_spec m fuel r' L Hwf ltac:(apply Hv') HL) in Hx.
      pose proof (vrun_star m k l Hm r' x Hv' Hx) as (H1 & (st & Hst) & _).
      apply in_flat_map. exists (r_state x). split.
      - assert (Hlt : r_state x < nstates m) by (eapply get_state_lt; [apply Hm|eassumption]). apply in_seq. lia.
      - apply in_map_iff. exists (r_cnt x). split; [destruct x; reflexivity|]. apply choices_complete; [exact H1|].
        intros i n Hi. split; [exact (after_keys (u ++ [c]) v x E (Ha x Hx) i n Hi)|].
        rewrite <- (sorted_get 0 _ i n H1 Hi). exact (star_near r' x Hv' H0 Hn' Hx i).
    Qed.

    Lemma some_closures u c v r : text = (u ++ [c]) ++ v -> after m (init m) u r -> forall rs L,
      (forall x, In x rs -> char_step m c r x) -> closures fuel m rs = Val L -> length L <= length rs * factor.
    Proof.
      intros E Hr. induction rs as [|x rs IH]; intros L Hs H; cbn in H.
      - injection H as <-. cbn. lia.
      - destruct (run_closure fuel m x) as [l1| |] eqn:E1; try discriminate.
        destruct (closures fuel m rs) as [l2| |] eqn:E2; try discriminate. cbn in H. injection H as <-.
        rewrite app_length. cbn [length Nat.mul]. apply Nat.add_le_mono.
        + eapply one_closure; [exact E|exact Hr|apply Hs; left; reflexivity|exact E1].
        + apply IH; [|reflexivity]. intros y Hy. apply Hs. right. assumption.
    Qed.

    Lemma readers_arrows c p : readers m c p <= arrows m.
    Proof.
      unfold readers. destruct (get_state m p) as [st|] eqn:E; [|lia].
      unfold get_state in E. apply find_some in E. destruct E as [E _]. unfold arrows.
      assert (H1 : sums (fun x : input * list nat => if can_take (fst x) c then length (snd x) else 0) (st_trans st) <=
                   list_sum (map (fun t : input * list nat => length (snd t)) (st_trans st))).
      { induction (st_trans st) as [|x q IH]; [rewrite sums_nil; lia|]. rewrite sums_cons. cbn [map].
        change (list_sum (?a :: ?b)) with (a + list_sum b). destruct (can_take _ _); lia. }
      etransitivity; [exact H1|]. clear H1. induction (nfa_states m) as [|s q IH]; [destruct E|]. cbn [map].
      change (list_sum (?a :: ?b)) with (a + list_sum b). destruct E as [->|E]; [lia|]. specialize (IH E). lia.
    Qed.

    Lemma one_feed u c v : text = (u ++ [c]) ++ v -> forall rs L, (forall x, In x rs -> after m (init m) u x) ->
      feed_runs fuel m rs c = Val L -> length L <= length rs * (arrows m * factor).
    Proof.
      intros E. induction rs as [|r rs IH]; intros L Hr H; cbn in H.
      - injection H as <-. cbn. lia.
      - pose proof (Hr r (or_introl eq_refl)) as Ha. pose proof (after_vrun m k l Hm u r Ha) as (_ & (st & Hst) & _).
        rewrite Hst in H. cbn [of_option bind] in H.
        destruct (closures fuel m _) as [l1| |] eqn:E1; try discriminate.
        destruct (feed_runs fuel m rs c) as [l2| |] eqn:E2; try discriminate. cbn in H. injection H as <-.
        rewrite app_length. cbn [length Nat.mul]. apply Nat.add_le_mono; [|apply IH; [intros y Hy; apply Hr; right; assumption|reflexivity]].
        apply (some_closures u c v r E Ha) in E1.
        + rewrite (succs_length m fuel st r c Hst) in E1. etransitivity; [exact E1|]. apply Nat.mul_le_mono_r, readers_arrows.
        + intros x Hx. apply (in_char_succs m) in Hx; assumption.
    Qed.

    Lemma all_feeds : forall v u rs L, text = u ++ v -> (forall x, In x rs -> after m (init m) u x) ->
      feed_each fuel m rs v = Val L -> length L <= length rs * (arrows m * factor) ^ length v.
    Proof.
      induction v as [|c v IH]; intros u rs L E Hr H; cbn [feed_each] in H.
      - injection H as <-. cbn. lia.
      - unfold sim_feed in H. destruct (feed_runs fuel m rs c) as [rs'| |] eqn:E1; try discriminate. cbn [bind] in H.
        destruct (sim_accepting m rs') as [b| |]; try discriminate. cbn [bind] in H.
        assert (E' : text = (u ++ [c]) ++ v) by (rewrite <- app_assoc; exact E).
        pose proof (one_feed u c v E' rs rs' Hr E1) as H1. apply (IH (u ++ [c]) rs' L E') in H.
        + etransitivity; [exact H|]. cbn [length Nat.pow]. rewrite Nat.mul_assoc. apply Nat.mul_le_mono_r. exact H1.
        + intros x Hx. assert (Hok : runs_ok m rs).
          { intros y Hy. apply (after_vrun m k l Hm u y (Hr y Hy)). }
          apply (feed_runs_spec m fuel rs c rs' Hwf Hok E1) in Hx. destruct Hx as (r & r' & Hin & Hc & Hs).
          rewrite after_app. cbn [after]. exists r, r'. auto.
    Qed.
  End Text.

  Lemma text_growth (ho : HashOrder) fuel w rs : sim_text fuel m w = Val rs ->
    length rs <= nstates m * (arrows m * (nstates m * 5 ^ nstates m)) ^ length w.
  Proof.
    intros H. assert (Hnb : forall u v x, w = u ++ v -> u <> [] -> after m (init m) u x -> ~ mbads k l (r_state x)).
    { intros u v x -> Hu Hx Hb. destruct (sim_text_prefix m fuel u v rs H) as (rs' & E').
      apply (bad_infinite m k l Hm u x Hu Hx Hb rs'). intros y Hy. apply (sim_text_spec m fuel u rs' Hwf E'). exact Hy. }
    unfold sim_text in H. destruct (sim_new fuel m) as [rs0| |] eqn:E; try discriminate. cbn [bind] in H.
    destruct (new_few m k l Hm Hd fuel rs0 E) as (H1 & _ & _). apply (all_feeds fuel w Hnb w [] rs0 rs eq_refl) in H.
    - etransitivity; [exact H|]. apply Nat.mul_le_mono_r. exact H1.
    - cbn [after]. intros x Hx. apply (sim_new_spec m fuel rs0 Hwf E) in Hx. exact Hx.
  Qed.
End Machine.

Lemma from_growth {env : Env} e m (ho : HashOrder) fuel w rs : nfa_from e = Val m -> sim_text fuel m w = Val rs ->
  length rs <= length (nfa_states m) * (arrows m * (length (nfa_states m) * 5 ^ length (nfa_states m))) ^ length w.
Proof.
  intros Hf H. eapply text_growth; [apply (nfa_from_ok _ _ Hf)|apply built_dup_free; eapply nfa_from_built; eassumption|exact H].
Qed.

Lemma lexer_growth {env : Env} (K : Type) (ts : list (list char * generator K)) input lx (ho : HashOrder) fuel w rs :
  build_lexer ts input = Val (inl lx) -> sim_text fuel (lx_nfa lx) w = Val rs ->
  let n := length (nfa_states (lx_nfa lx)) in length rs <= n * (arrows (lx_nfa lx) * (n * 5 ^ n)) ^ length w.
Proof.
  intros Hb H. destruct (CountProofs.built_parsed ts input lx Hb) as (es & Hp).
  eapply text_growth; [exact (ls_machine _ _ _ _ (build_state_es ts input lx es Hb Hp))|eapply build_dup_free; eassumption|exact H].
Qed.
