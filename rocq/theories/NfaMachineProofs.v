(** The automaton of a list of patterns: which final states a text reaches. *)
From Verif Require Import Base RegexModel SpecRegex RegexParseProofs RegexProofs NfaModel SpecNfa NfaCompileProofs NfaLangProofs NfaSimProofs.

(** ** Runs after a text *)
Section After.
  Context {env : Env}.
  Variable m : nfa.

  Fixpoint after (R : run -> Prop) (w : list char) : run -> Prop :=
    match w with
    | [] => R
    | c :: w' => after (fed m R c) w'
    end.

  Definition init (x : run) : Prop := r_cnt x = [] /\ star (static_step m) (nfa_start m) (r_state x).

  Lemma fed_ext (R R' : run -> Prop) c x : (forall x, R x <-> R' x) -> fed m R c x <-> fed m R' c x.
  Proof.
    intros H. split; intros (r & r' & H1 & H2); exists r, r'; (split; [apply H; assumption|assumption]).
  Qed.
  Lemma after_ext w : forall (R R' : run -> Prop) x, (forall x, R x <-> R' x) -> after R w x <-> after R' w x.
  Proof.
    induction w as [|c w IH]; intros R R' x H; cbn; [apply H|]. apply IH. intros y. apply fed_ext. assumption.
  Qed.
  Lemma after_app w : forall R v x, after R (w ++ v) x <-> after (after R w) v x.
  Proof. induction w as [|c w IH]; intros R v x; cbn; [tauto|]. apply IH. Qed.

  (** Link with the accepting paths. *)
  Variable F : nat -> Prop.
  Notation G := (has_edge m).

  Definition reads (r : run) (w : list char) : Prop :=
    match w with
    | [] => F (r_state r)
    | c :: w' => exists r', char_step m c r r' /\ accs G F (r_state r') (cof r') w'
    end.

  Lemma eps_ok r r' : eps_step m r r' -> run_ok r -> run_ok r'.
  Proof. intros (i & t & _ & H) Hr. destruct i; [destruct H|subst|destruct H; subst]; apply take_ok; assumption. Qed.
  Lemma star_ok r r' : star (eps_step m) r r' -> run_ok r -> run_ok r'.
  Proof. induction 1; [auto|]. intros. eapply eps_ok; eauto. Qed.
  Lemma char_ok c r r' : char_step m c r r' -> run_ok r -> run_ok r'.
  Proof. intros (l & t & _ & _ & ->) Hr. apply take_ok; assumption. Qed.

  Lemma accs_ext p c c' w : (forall i, c i = c' i) -> accs G F p c w -> accs G F p c' w.
  Proof. intros H. apply accs_ceq. intros i _. apply H. Qed.

  Lemma accs_eps r r' w : run_ok r -> eps_step m r r' -> accs G F (r_state r') (cof r') w -> accs G F (r_state r) (cof r) w.
  Proof.
    intros Hr (i & t & He & H) (k & Ha). exists (S k). right. exists i, t. split; [assumption|]. destruct i as [l| |q]; cbn.
    - destruct H.
    - subst r'. cbn in Ha. eapply acc_ceq; [|exact Ha]. intros j _. apply cof_take_false. assumption.
    - destruct H as [Hs ->]. split; [exact Hs|]. cbn in Ha. eapply acc_ceq; [|exact Ha]. intros j _. apply cof_take_true. assumption.
  Qed.

  Lemma accs_star r w : run_ok r -> accs G F (r_state r) (cof r) w <-> exists x, star (eps_step m) r x /\ reads x w.
  Proof.
    intros Hr. split.
    - intros (k & Ha). revert r w Hr Ha. induction k as [|k IH]; intros r w Hr Ha.
      + destruct Ha as [-> Hf]. exists r. split; [constructor|exact Hf].
      + destruct Ha as [[-> Hf]|(i & y & He & Hn)]; [exists r; split; [constructor|exact Hf]|].
        destruct i as [l| |q]; cbn in Hn.
        * destruct Hn as (x & w' & -> & Hx & Ha). exists r. split; [constructor|]. cbn. exists (take_transition r y false).
          split; [exists l, y; auto|]. exists k. eapply acc_ceq; [|exact Ha]. intros j _. symmetry. apply cof_take_false. assumption.
        * destruct (IH (take_transition r y false) w) as (x & Hx & Hw).
          -- apply take_ok; assumption.
          -- eapply acc_ceq; [|exact Hn]. intros j _. symmetry. apply cof_take_false. assumption.
          -- exists x. split; [|assumption]. eapply star_left; [|exact Hx]. exists IEps, y. auto.
        * destruct Hn as [Hs Hn]. destruct (IH (take_transition r y true) w) as (x & Hx & Hw).
          -- apply take_ok; assumption.
          -- eapply acc_ceq; [|exact Hn]. intros j _. symmetry. apply cof_take_true. assumption.
          -- exists x. split; [|assumption]. eapply star_left; [|exact Hx]. exists (IQuant q), y. auto.
    - intros (x & Hx & Hw).
      assert (Ha : accs G F (r_state x) (cof x) w).
      { destruct w as [|c w]; cbn in Hw; [exists 0; split; auto|]. destruct Hw as (r' & (l & t & He & Hl & ->) & k & Ha).
        exists (S k). right. exists (ILit l), t. split; [assumption|]. cbn. exists c, w. split; [reflexivity|]. split; [assumption|].
        eapply acc_ceq; [|exact Ha]. intros j _. apply cof_take_false. eapply star_ok; eassumption. }
      clear Hw. induction Hx as [|y z Hy IH Hz]; [assumption|]. apply IH. eapply accs_eps; [|eassumption|assumption].
      eapply star_ok; eassumption.
  Qed.

  Lemma after_reads w : forall R : run -> Prop, (forall r, R r -> run_ok r) ->
    (exists x, after R w x /\ F (r_state x)) <-> exists r, R r /\ reads r w.
  Proof.
    induction w as [|c w IH]; intros R HR; cbn [after].
    - split; intros (x & H1 & H2); exists x; auto.
    - rewrite IH.
      + split.
        * intros (x & (r & r' & Hr & Hc & Hs) & Hw). exists r. split; [assumption|]. cbn. exists r'. split; [assumption|].
          apply accs_star; [eapply char_ok; eauto|]. eauto.
        * intros (r & Hr & r' & Hc & Ha). apply accs_star in Ha; [|eapply char_ok; eauto]. destruct Ha as (x & Hx & Hw).
          exists x. split; [|assumption]. exists r, r'. auto.
      + intros x (r & r' & Hr & Hc & Hs). eapply star_ok; [eassumption|]. eapply char_ok; eauto.
  Qed.

  Lemma init_ok r : init r -> run_ok r.
  Proof. intros [H _]. unfold run_ok, sorted. rewrite H. exact I. Qed.

  Lemma sacc_init w p : (exists k, sacc G F k p w) <-> exists r, r_cnt r = [] /\ star (static_step m) p (r_state r) /\ reads r w.
  Proof.
    assert (Hlit : forall r, r_cnt r = [] -> lit_step G F G (r_state r) w <-> w <> [] /\ reads r w).
    { intros r Hr. split.
      - intros (l & y & x & w' & He & -> & Hl & Ha). split; [discriminate|]. exists (take_transition r y false).
        split; [exists l, y; auto|]. eapply accs_ext; [|exact Ha]. intros i. rewrite cof_take_false.
        + unfold inc, cof, zero. rewrite Hr. reflexivity.
        + unfold run_ok. rewrite Hr. exact I.
      - intros [Hw H]. destruct w as [|x w']; [congruence|]. destruct H as (r' & (l & y & He & Hl & ->) & Ha).
        exists l, y, x, w'. split; [assumption|]. split; [reflexivity|]. split; [assumption|].
        eapply accs_ext; [|exact Ha]. intros i. rewrite cof_take_false.
        + unfold inc, cof, zero. rewrite Hr. reflexivity.
        + unfold run_ok. rewrite Hr. exact I. }
    split.
    - intros (k & H). revert p H. induction k as [|k IH]; intros p H; [destruct H|].
      destruct H as [[-> Hf]|[H|(i & y & He & Hst & H)]].
      + exists {| r_state := p; r_cnt := [] |}. split; [reflexivity|]. split; [constructor|exact Hf].
      + exists {| r_state := p; r_cnt := [] |}. split; [reflexivity|]. split; [constructor|].
        apply (Hlit {| r_state := p; r_cnt := [] |} eq_refl). exact H.
      + destruct (IH y H) as (r & Hr & Hs & Hw). exists r. split; [assumption|]. split; [|assumption].
        eapply star_left; [|exact Hs]. exists i. auto.
    - intros (r & Hr & Hs & Hw).
      assert (H0 : exists k, sacc G F k (r_state r) w).
      { exists 1. destruct w as [|c w']; [left; auto|]. right. left. apply Hlit; [assumption|]. split; [discriminate|assumption]. }
      clear Hlit Hw. revert Hs H0. generalize (r_state r). clear Hr r. intros q Hs. induction Hs as [|y z _ IH (i & He & Hst)]; [auto|].
      intros (k & H). apply IH. exists (S k). right. right. exists i, z. auto.
  Qed.

  Lemma init_reads w : (exists k, sacc G F k (nfa_start m) w) <-> exists x, after init w x /\ F (r_state x).
  Proof.
    rewrite after_reads by apply init_ok. rewrite sacc_init. unfold init. split; intros (r & H); exists r; intuition.
  Qed.
End After.

(** ** Lists of patterns *)

(** [m] is the automaton of the regexes [l], the first one with final state
    [k]; the states below [k] other than the start state are final and
    isolated. *)
Record machine (m : nfa) (k : nat) (l : list expr) : Prop := {
  mc_wfb : wfb m;
  mc_start : nfa_start m = 0;
  mc_pos : 1 <= k;
  mc_size : nstates m = k + list_sum (map (fun e => S (size e)) l);
  mc_edges : forall x, has_edge m x <-> exists e n f, In (e, n, f) (placement k l) /\ In x (edges e n 0 f);
  mc_fin : forall j, fin_of m j = Some true <-> (1 <= j < k \/ exists e n, In (e, n, j) (placement k l));
  mc_ok : forall e, In e l -> has_empty e = false
}.

Lemma placement_in : forall l k e n f, In (e, n, f) (placement k l) ->
  In e l /\ n = S f /\ k <= f /\ n + size e <= k + list_sum (map (fun e => S (size e)) l).
Proof.
  induction l as [|e l IH]; intros k e' n f H; [destruct H|]. cbn [placement] in H. cbn [map]. 
  change (list_sum (S (size e) :: map (fun e => S (size e)) l)) with (S (size e) + list_sum (map (fun e => S (size e)) l)).
  destruct H as [[= <- <- <-]|H].
  - split; [left; reflexivity|]. lia.
  - apply IH in H. destruct H as (H1 & H2 & H3 & H4). split; [right; assumption|]. lia.
Qed.

(** Two entries occupy different states. *)
Lemma placement_disjoint : forall l k e n f e' n' f', In (e, n, f) (placement k l) -> In (e', n', f') (placement k l) ->
  (e, n, f) = (e', n', f') \/ n + size e <= f' \/ n' + size e' <= f.
Proof.
  induction l as [|a l IH]; intros k e n f e' n' f' H H'; [destruct H|]. cbn [placement] in H, H'.
  destruct H as [[= <- <- <-]|H], H' as [[= <- <- <-]|H'].
  - auto.
  - apply placement_in in H'. right. left. lia.
  - apply placement_in in H. right. right. lia.
  - eapply IH; eassumption.
Qed.

Lemma placement_app : forall l k e, placement k (l ++ [e]) =
  let n := k + list_sum (map (fun e => S (size e)) l) in placement k l ++ [(e, S n, n)].
Proof.
  induction l as [|a l IH]; intros k e; cbn [app placement map].
  - cbn. rewrite Nat.add_0_r. reflexivity.
  - rewrite IH. cbn zeta. replace (list_sum (S (size a) :: map (fun e0 => S (size e0)) l))
      with (S (size a) + list_sum (map (fun e0 => S (size e0)) l)) by reflexivity.
    replace (k + (S (size a) + list_sum (map (fun e0 => S (size e0)) l)))
      with (S k + size a + list_sum (map (fun e0 => S (size e0)) l)) by lia. reflexivity.
Qed.

Lemma placement_nth l : forall k j e, nth_error l j = Some e -> exists n f, nth_error (placement k l) j = Some (e, n, f).
Proof.
  induction l as [|a l IH]; intros k [|j] e H; cbn in *; try discriminate.
  - injection H as ->. eauto.
  - eapply IH. eassumption.
Qed.
Lemma placement_length l : forall k, length (placement k l) = length l.
Proof. induction l; intros k; cbn; [reflexivity|]. rewrite IHl. reflexivity. Qed.

(** Final states grow with the order of declaration. *)
Lemma placement_order : forall l k i j e n f e' n' f', nth_error (placement k l) i = Some (e, n, f) ->
  nth_error (placement k l) j = Some (e', n', f') -> i < j -> f < f'.
Proof.
  induction l as [|a l IH]; intros k i j e n f e' n' f' H H' Hij; [destruct i; discriminate|]. cbn [placement] in H, H'.
  destruct j as [|j]; [lia|]. cbn in H'. destruct i as [|i]; cbn in H.
  - injection H as <- <- <-. apply nth_error_In, placement_in in H'. lia.
  - eapply IH; [exact H|exact H'|]. lia.
Qed.

Section Machine.
  Context {env : Env}.

  Lemma machine_edge_range m k l s i t : machine m k l -> has_edge m (s, i, t) -> s < nstates m /\ t < nstates m.
  Proof.
    intros Hm H. apply (mc_edges _ _ _ Hm) in H. destruct H as (e & n & f & Hin & H). apply edges_range in H.
    apply placement_in in Hin. rewrite (mc_size _ _ _ Hm). pose proof (mc_pos _ _ _ Hm). lia.
  Qed.

  Lemma machine_wf m k l : machine m k l -> nfa_build m = Val m /\ wf_nfa m.
  Proof.
    intros Hm. assert (E : nfa_build m = Val m).
    { apply nfa_build_wfb; [apply Hm| |apply Hm|].
      - rewrite (mc_size _ _ _ Hm). pose proof (mc_pos _ _ _ Hm). lia.
      - intros s i t H. eapply machine_edge_range; eassumption. }
    split; [assumption|]. apply (nfa_build_spec _ _ E).
  Qed.

  Lemma machine_final_dead m k l f : machine m k l -> (1 <= f < k \/ exists e n, In (e, n, f) (placement k l)) ->
    forall i t, ~ has_edge m (f, i, t).
  Proof.
    intros Hm Hf i t H. apply (mc_edges _ _ _ Hm) in H. destruct H as (e & n & f' & Hin & H). apply edges_range in H.
    pose proof (mc_pos _ _ _ Hm). pose proof (placement_in _ _ _ _ _ Hin).
    destruct Hf as [Hf|(e2 & n2 & Hin2)]; [lia|]. pose proof (placement_in _ _ _ _ _ Hin2).
    destruct (placement_disjoint _ _ _ _ _ _ _ _ Hin Hin2) as [[= -> -> ->]|]; lia.
  Qed.

  Lemma machine_start_fresh m k l s i : machine m k l -> ~ has_edge m (s, i, 0).
  Proof.
    intros Hm H. apply (mc_edges _ _ _ Hm) in H. destruct H as (e & n & f' & Hin & H). apply edges_range in H.
    pose proof (mc_pos _ _ _ Hm). apply placement_in in Hin. lia.
  Qed.

  Lemma machine_placed m k l e n f : machine m k l -> In (e, n, f) (placement k l) -> placed (has_edge m) e n 0 f.
  Proof.
    intros Hm Hin. pose proof (placement_in _ _ _ _ _ Hin). pose proof (mc_pos _ _ _ Hm).
    split; [lia|]. split; [lia|]. split.
    - intros x Hx. apply (mc_edges _ _ _ Hm). exists e, n, f. auto.
    - intros x i y Hx Hg. apply (mc_edges _ _ _ Hm) in Hg. destruct Hg as (e' & n' & f' & Hin' & Hg).
      destruct (placement_disjoint _ _ _ _ _ _ _ _ Hin Hin') as [[= <- <- <-]|Hd]; [assumption|].
      apply edges_range in Hg. apply placement_in in Hin'. lia.
  Qed.
  Lemma machine_not_inside m k l e n f f0 : machine m k l -> In (e, n, f) (placement k l) ->
    (1 <= f0 < k \/ exists e n, In (e, n, f0) (placement k l)) -> ~ ends_in (eq f0) e n.
  Proof.
    intros Hm Hin Hf0 (x & Hx & <-). pose proof (placement_in _ _ _ _ _ Hin). destruct Hf0 as [Hf0|(e' & n' & Hin')]; [lia|].
    destruct (placement_disjoint _ _ _ _ _ _ _ _ Hin Hin') as [[= <- <-]|Hd]; [lia|]. apply placement_in in Hin'. lia.
  Qed.

  Lemma dead_accs G (F : nat -> Prop) f c w : (forall i t, ~ G (f, i, t)) -> accs G F f c w <-> w = [] /\ F f.
  Proof.
    intros Hd. split.
    - intros ([|k] & H); [exact H|]. destruct H as [H|(i & t & H & _)]; [exact H|]. apply Hd in H. destruct H.
    - intros H. exists 0. exact H.
  Qed.
  Lemma dead_sacc G (F : nat -> Prop) f w k : (forall i t, ~ G (f, i, t)) -> sacc G F k f w -> w = [] /\ F f.
  Proof.
    intros Hd H. destruct k as [|k]; [destruct H|]. destruct H as [H|[(l & y & x & w' & H & _)|(i & t & H & _)]]; [exact H| |];
      apply Hd in H; destruct H.
  Qed.

  (** The final state of a pattern is reached exactly by the texts of its
      (implemented) language. *)
  Lemma machine_lang m k l e n f w : machine m k l -> In (e, n, f) (placement k l) ->
    (exists x, after m (init m) w x /\ r_state x = f) <-> impl_lang e w.
  Proof.
    intros Hm Hin.
    transitivity (exists x, after m (init m) w x /\ eq f (r_state x)).
    { split; intros (x & H1 & H2); exists x; auto. }
    rewrite <- init_reads, (mc_start _ _ _ Hm).
    assert (Hf : 1 <= f < k \/ exists e n, In (e, n, f) (placement k l)) by eauto.
    pose proof (mc_pos _ _ _ Hm) as Hk. pose proof (placement_in _ _ _ _ _ Hin) as (Hel & Hn & Hkf & _).
    split.
    - intros (j & Ha). apply sacc_svia in Ha. destruct Ha as [[_ Ha]|(j' & -> & Hv)]; [lia|].
      assert (Hex : exists e' n' f', In (e', n', f') (placement k l) /\
                svia (has_edge m) (eq f) (fun x => In x (edges e' n' 0 f')) j' 0 w).
      { destruct Hv as [(lt & y & x & w' & He & H)|(i & y & He & H)]; apply (mc_edges _ _ _ Hm) in He;
          destruct He as (e' & n' & f' & Hin' & He); exists e', n', f'; (split; [assumption|]).
        - left. exists lt, y, x, w'. auto.
        - right. exists i, y. auto. }
      destruct Hex as (e' & n' & f' & Hin' & Hv').
      assert (Hdead : forall i t, ~ has_edge m (f', i, t)) by (eapply machine_final_dead; eauto).
      assert (Hsame : f = f' -> e = e').
      { intros <-. destruct (placement_disjoint _ _ _ _ _ _ _ _ Hin Hin') as [[= <- <-]|Hd]; [reflexivity|].
        apply placement_in in Hin'. lia. }
      apply (expr_static_sound _ _ e' n' 0 f' j' w) in Hv'; [|eapply machine_placed; eauto].
      destruct Hv' as [[_ Hi]|[(u & v & -> & Hu & Ha)|[(u & v & -> & Hu & Ha)|(Hs & k' & _ & Ha)]]].
      + destruct (machine_not_inside m k l e' n' f' f Hm Hin' Hf Hi).
      + apply dead_accs in Ha; [|assumption]. destruct Ha as [-> Hff]. rewrite (Hsame Hff), app_nil_r. right. left. assumption.
      + apply dead_accs in Ha; [|assumption]. destruct Ha as [-> Hff]. rewrite (Hsame Hff), app_nil_r. right. right. assumption.
      + apply dead_sacc in Ha; [|assumption]. destruct Ha as [-> Hff]. rewrite (Hsame Hff). left. auto.
    - intros Hw. pose proof (machine_placed m k l e n f Hm Hin) as Hp.
      destruct (expr_static_complete _ (eq f) e (mc_ok _ _ _ Hm e Hel) n 0 f Hp) as (H1 & H2 & H3).
      assert (Hacc : forall c, accs (has_edge m) (eq f) f c []) by (intros c; exists 0; split; reflexivity).
      assert (Hlift : forall j v, svia (has_edge m) (eq f) (fun x => In x (edges e n 0 f)) j 0 v -> exists j, sacc (has_edge m) (eq f) j 0 v).
      { intros j v Hv. exists (S j). apply svia_sacc. eapply svia_mono; [|exact Hv]. intros i y. apply Hp. }
      destruct Hw as [[Hs ->]|[Hw|Hw]].
      + destruct (H3 1 [] Hs) as (j & Hv); [left; split; reflexivity|]. eapply Hlift; exact Hv.
      + destruct (H1 _ w [] Hw (Hacc _) (ceq_refl _ _)) as (j & Hv). rewrite app_nil_r in Hv. eapply Hlift; exact Hv.
      + destruct (H2 _ w [] Hw (Hacc _) (ceq_refl _ _)) as (j & Hv). rewrite app_nil_r in Hv. eapply Hlift; exact Hv.
  Qed.

  (** A run is left exactly for the texts that are begun. *)
  Lemma machine_begun m k l w : machine m k l ->
    (exists x, after m (init m) w x) <-> w = [] \/ exists e, In e l /\ impl_begun e w.
  Proof.
    intros Hm.
    transitivity (exists k, sacc (has_edge m) (fun _ => True) k (nfa_start m) w).
    { rewrite init_reads. split; intros (x & H); exists x; tauto. }
    rewrite (mc_start _ _ _ Hm). split.
    - intros (j & Ha). apply sacc_svia in Ha. destruct Ha as [[-> _]|(j' & -> & Hv)]; [auto|].
      assert (Hex : exists e' n' f', In (e', n', f') (placement k l) /\
                svia (has_edge m) (fun _ => True) (fun x => In x (edges e' n' 0 f')) j' 0 w).
      { destruct Hv as [(lt & y & x & w' & He & H)|(i & y & He & H)]; apply (mc_edges _ _ _ Hm) in He;
          destruct He as (e' & n' & f' & Hin' & He); exists e', n', f'; (split; [assumption|]).
        - left. exists lt, y, x, w'. auto.
        - right. exists i, y. auto. }
      destruct Hex as (e & n & f & Hin & Hv').
      assert (Hdead : forall i t, ~ has_edge m (f, i, t)) by (eapply machine_final_dead; eauto).
      pose proof (placement_in _ _ _ _ _ Hin) as (Hel & _).
      apply (expr_static_sound _ _ e n 0 f j' w) in Hv'; [|eapply machine_placed; eauto].
      destruct Hv' as [[Hb _]|[(u & v & -> & Hu & Ha)|[(u & v & -> & Hu & Ha)|(Hs & k' & _ & Ha)]]].
      + right. eauto.
      + apply dead_accs in Ha; [|assumption]. destruct Ha as [-> _]. rewrite app_nil_r. right. exists e. split; [assumption|].
        apply first_begun. auto.
      + apply dead_accs in Ha; [|assumption]. destruct Ha as [-> _]. rewrite app_nil_r. right. exists e. split; [assumption|].
        apply first_begun. auto.
      + apply dead_sacc in Ha; [|assumption]. left. apply Ha.
    - intros Hw. destruct w as [|a w]; [exists 1; left; auto|]. destruct Hw as [[=]|(e & Hel & Hb)].
      assert (Hin : exists n f, In (e, n, f) (placement k l)).
      { apply In_nth_error in Hel. destruct Hel as (j & Hj). destruct (placement_nth l k j e Hj) as (n & f & Hp).
        apply nth_error_In in Hp. eauto. }
      destruct Hin as (n & f & Hin). pose proof (machine_placed m k l e n f Hm Hin) as Hp.
      destruct (expr_static_begun _ (fun _ => True) (fun _ => I) e (mc_ok _ _ _ Hm e Hel) n 0 f (a :: w) Hp Hb) as (j & Hv); [discriminate|].
      exists (S j). apply svia_sacc. eapply svia_mono; [|exact Hv]. intros i y. apply Hp.
  Qed.

  (** Isolated final states are never reached. *)
  Lemma machine_isolated m k l w x : machine m k l -> after m (init m) w x -> r_state x = 0 \/ k <= r_state x.
  Proof.
    intros Hm. pose proof (mc_start _ _ _ Hm) as Hs0.
    assert (Hedge : forall s i t, has_edge m (s, i, t) -> k <= t).
    { intros s i t H. apply (mc_edges _ _ _ Hm) in H. destruct H as (e & n & f & Hin & H). apply edges_range in H.
      apply placement_in in Hin. lia. }
    assert (Hinit : forall x, init m x -> r_state x = 0 \/ k <= r_state x).
    { intros y [_ H]. rewrite Hs0 in H. destruct H as [|p q _ (i & Hi & _)]; [auto|]. right. eauto. }
    revert x. generalize (init m) as R, Hinit. clear Hinit. induction w as [|c w IH]; intros R HR x Hx; cbn in Hx; [auto|].
    eapply IH; [|exact Hx]. intros y (r & r' & _ & Hc & Hst). right.
    assert (Hr' : k <= r_state r').
    { destruct Hc as (lt & t & He & _ & ->). cbn. eauto. }
    clear -Hr' Hst Hedge. induction Hst as [|y z _ IH (i & t & He & H)]; [assumption|].
    apply Hedge in He. destruct i; [destruct H|subst; assumption|destruct H; subst; assumption].
  Qed.
End Machine.
