(** [Slr::new]: when it succeeds, and the table it makes. *)
From Verif Require Import Base GrammarModel CfsmModel SlrModel SpecCfg GrammarProofs FirstProofs FollowProofs GrammarTotal
  ItemProofs CfsmProofs CfsmCorrect TableProofs SlrTable.

Section Conflicts.
  Context {V T : Type} {dv : DecEq V} {dt : DecEq T}.
  Notation sym := (symbol V T).
  Notation itm := (item V T).
  Notation act := (key T * action V)%type.
  Variable teq : T -> T -> bool.
  Hypothesis Hteq : lawful teq.

  Lemma distinct_or (l : list act) : distinct teq l \/
    exists l1 x l2 y l3, l = l1 ++ x :: l2 ++ y :: l3 /\ key_eq teq (fst x) (fst y) = true.
  Proof.
    induction l as [|[k a] l IH]; [left; constructor|].
    destruct IH as [IH|(l1 & x & l2 & y & l3 & -> & E)].
    - destruct (existsb (fun x => key_eq teq k (fst x)) l) eqn:Ex.
      + right. apply existsb_exists in Ex. destruct Ex as (y & Hy & E). apply in_split in Hy. destruct Hy as (l2 & l3 & ->).
        exists [], (k, a), l2, y, l3. auto.
      + left. constructor; auto. intros k' a' Hin. destruct (key_eq teq k k') eqn:E; auto.
        assert (existsb (fun x => key_eq teq k (fst x)) l = true) by (apply existsb_exists; exists (k', a'); auto). congruence.
    - right. exists ((k, a) :: l1), x, l2, y, l3. auto.
  Qed.

  Lemma distinct_label {A} (l : list (A * act)) x y : distinct teq (map snd l) -> In x l -> In y l ->
    key_eq teq (fst (snd x)) (fst (snd y)) = true -> x = y.
  Proof.
    induction l as [|z l IH]; cbn [map]; intros Hd Hx Hy E; [destruct Hx|].
    inversion Hd as [|k a l' H1 H2 E1]; subst. rewrite <- E1 in *.
    assert (Hin : forall u, In u l -> In (fst (snd u), snd (snd u)) (map snd l)).
    { intros u Hu. rewrite <- surjective_pairing. apply in_map; auto. }
    destruct Hx as [<-|Hx], Hy as [<-|Hy]; auto.
    - rewrite <- E1 in E. cbn [fst] in E. rewrite (H1 _ _ (Hin _ Hy)) in E. discriminate.
    - rewrite <- E1 in E. cbn [fst] in E. rewrite (key_eq_sym teq Hteq), (H1 _ _ (Hin _ Hx)) in E. discriminate.
  Qed.

  Variable g : grammar V T.
  Variable c : cfsm V T.
  Hypothesis Hc : cfsm_ok g c.
  Variable fs : list (V * list sym).
  Hypothesis Hf : exact_follow g fs.

  (** The actions of a state with the items asking for them. *)
  Definition labelled (st : cstate V T) : list (itm * act) :=
    flat_map (fun it => map (fun x => (it, x)) (item_acts g fs (fun l => l) (cs_trans st) it)) (cs_items st).

  Lemma labelled_acts st : map snd (labelled st) = state_acts g fs st.
  Proof.
    unfold labelled, state_acts. induction (cs_items st) as [|it l IH]; cbn [flat_map map]; auto.
    rewrite map_app, IH, map_map. cbn [snd]. rewrite map_id. reflexivity.
  Qed.

  Lemma in_labelled st it x : In (it, x) (labelled st) <-> In it (cs_items st) /\ In x (item_acts g fs (fun l => l) (cs_trans st) it).
  Proof.
    unfold labelled. rewrite in_flat_map. split.
    - intros (it' & H1 & H2). apply in_map_iff in H2. destruct H2 as (y & [= <- <-] & H2). auto.
    - intros [H1 H2]. exists it. split; auto. apply in_map_iff. eauto.
  Qed.

  Lemma nodup_app {A} (l l' : list A) : NoDup l -> NoDup l' -> (forall x, In x l -> ~ In x l') -> NoDup (l ++ l').
  Proof.
    induction 1 as [|x l Hx Hn IH]; intros Hl' Hd; cbn; auto. constructor.
    - rewrite in_app_iff. intros [H|H]; [auto|]. apply (Hd x); [left|]; auto.
    - apply IH; auto. intros y Hy. apply Hd. right; auto.
  Qed.

  Lemma item_keys_nodup trans it : NoDup (map fst (item_acts g fs (fun l => l) trans it)).
  Proof.
    destruct it as [h ib]. unfold item_acts. destruct (cursor_symbol ib) as [[t|v|]|].
    - destruct (mget (Ter t) trans); cbn; repeat constructor; auto.
    - constructor.
    - constructor.
    - destruct (mget h fs) as [l|] eqn:El; [|constructor]. rewrite map_app. apply nodup_app.
      + pose proof (ef_nodup _ _ Hf h l El) as Hn. clear El. induction Hn as [|x l Hx Hn IH]; cbn; [constructor|].
        destruct x as [t|v|]; cbn [reduce_key map app]; auto. constructor; auto.
        intros H. apply in_map_iff in H. destruct H as ([k a] & E & H). cbn in E. subst k.
        apply in_flat_map in H. destruct H as ([t'|v'|] & H & Ha); cbn in Ha; [|tauto|tauto].
        destruct Ha as [[= -> _]|[]]. auto.
      + destruct (eqb h (g_start g)); cbn; repeat constructor; auto.
      + intros k H1 H2. destruct (eqb h (g_start g)); [|destruct H2]. destruct H2 as [<-|[]].
        apply in_map_iff in H1. destruct H1 as ([k a] & E & H). cbn in E. subst k.
        apply in_flat_map in H. destruct H as ([t'|v'|] & H & Ha); cbn in Ha; [|tauto|tauto]. destruct Ha as [Ha|[]]. discriminate.
  Qed.

  Lemma labelled_nodup st : In st (cf_states c) -> NoDup (map (fun x => (fst x, fst (snd x))) (labelled st)).
  Proof.
    intros Hin. destruct (ok_items _ _ Hc st Hin) as [Hn _]. unfold labelled.
    induction (cs_items st) as [|it l IH]; cbn [flat_map map]; [constructor|]. inversion Hn as [|? ? Hx Hn']; subst.
    rewrite map_app, map_map. cbn [fst snd]. apply nodup_app; auto.
    - pose proof (item_keys_nodup (cs_trans st) it) as Hk. induction (item_acts g fs (fun l => l) (cs_trans st) it) as [|x l' IH']; cbn in *; [constructor|].
      inversion Hk as [|? ? Hk1 Hk2]; subst. constructor; auto. intros H. apply in_map_iff in H. destruct H as (y & [= E] & H).
      apply Hk1. rewrite <- E. apply in_map; auto.
    - intros [it' k] H1 H2. apply in_map_iff in H1. destruct H1 as (x & [= <- _] & _).
      apply in_map_iff in H2. destruct H2 as ([it2 x2] & [= <- _] & H2). apply in_flat_map in H2.
      destruct H2 as (it3 & H2 & H3). apply in_map_iff in H3. destruct H3 as (x3 & [= <- _] & _). auto.
  Qed.

  Definition has_entry : Prop := mget (g_start g) fs <> None.

  Lemma item_wants w i st it k a : path c 0 w i -> In st (cf_states c) -> cs_id st = i ->
    In (it, (k, a)) (labelled st) -> wants g has_entry w (dotted_of it) k.
  Proof.
    intros Hp Hin Hid H. apply in_labelled in H. destruct H as [Hi Ha].
    destruct (path_state g c Hc _ _ Hp) as (st' & H1 & H2 & H3).
    assert (st' = st) as -> by (apply (state_unique g c Hc); congruence).
    apply H3 in Hi. destruct it as [h ib]. pose proof (li_ok _ _ _ Hi) as (_ & Hb & _). cbn [snd] in Hb.
    apply li_lr0 in Hi. split; auto. unfold item_acts in Ha. destruct (cursor_symbol ib) as [[t|v|]|] eqn:Ec; [| | |].
    - apply (cursor_dotted h) in Ec. destruct Ec as (x & r & ->).
      destruct (mget (Ter t) (cs_trans st)); [|destruct Ha]. destruct Ha as [[= <- _]|[]]. auto.
    - destruct Ha.
    - destruct Ha.
    - apply (cursor_end h ib Hb) in Ec. destruct Ec as (x & ->). destruct (mget h fs) as [l|] eqn:El; [|destruct Ha].
      apply in_app_iff in Ha. destruct Ha as [Ha|Ha].
      + apply in_flat_map in Ha. destruct Ha as (s & Hs & Ha). destruct (ef_sound _ _ Hf h l s El Hs) as (t & -> & Ht).
        destruct Ha as [[= <- _]|[]]. apply follow_steps; auto.
      + destruct (eqb_spec h (g_start g)) as [->|Hn]; [|destruct Ha]. destruct Ha as [[= <- _]|[]]. split; auto.
        unfold has_entry. congruence.
  Qed.

  Lemma wants_item w i st d k : path c 0 w i -> In st (cf_states c) -> cs_id st = i ->
    wants g has_entry w d k -> exists it a, In (it, (k, a)) (labelled st) /\ dotted_of it = d.
  Proof.
    intros Hp Hin Hid [Hl Hw]. destruct (path_state g c Hc _ _ Hp) as (st' & H1 & H2 & H3).
    assert (st' = st) as -> by (apply (state_unique g c Hc); congruence).
    apply lr0_li in Hl. destruct Hl as ([h' ib] & Hi & E). pose proof (li_ok _ _ _ Hi) as (_ & Hb & _). cbn [snd] in Hb.
    destruct d as [[h a] b]. pose proof E as E'. cbn in E'. injection E' as -> _ _.
    apply H3 in Hi. exists (h, ib).
    destruct b as [|[t|v|] r], k as [t'|]; try tauto.
    - assert (Ec : cursor_symbol ib = None) by (apply (cursor_end h ib Hb); eauto).
      apply follow_steps in Hw. destruct (ef_complete _ _ Hf h t' Hw) as (l & El & Hin').
      exists (Reduce h (length (ib_body ib))). split; auto. apply in_labelled. split; auto. unfold item_acts. rewrite Ec, El.
      apply in_app_iff. left. apply in_flat_map. exists (Ter t'). split; auto. left; auto.
    - assert (Ec : cursor_symbol ib = None) by (apply (cursor_end h ib Hb); eauto).
      destruct Hw as [-> Hw]. exists (Accept (g_start g) (length (ib_body ib))). split; auto. apply in_labelled. split; auto. unfold item_acts. rewrite Ec.
      unfold has_entry in Hw. destruct (mget (g_start g) fs); [|congruence].
      apply in_app_iff. right. rewrite eqb_refl. left; auto.
    - subst t'. assert (Ec : cursor_symbol ib = Some (Ter t)) by (apply (cursor_dotted h); eauto).
      destruct (ok_trans _ _ Hc st Hin) as (_ & Hs & _).
      assert (Hk : In (Ter t) (map fst (cs_trans st))) by (apply Hs; eauto). apply key_mget in Hk. destruct Hk as (d & Ed).
      exists (Shift d). split; auto. apply in_labelled. split; auto. unfold item_acts. rewrite Ec, Ed. left; auto.
  Qed.

  Lemma same_key_eq k k' : same_key teq k k' <-> key_eq teq k k' = true.
  Proof. destruct k, k'; cbn; split; try tauto; discriminate. Qed.

  Lemma not_distinct_clash st : In st (cf_states c) -> ~ distinct teq (state_acts g fs st) -> clash g teq has_entry.
  Proof.
    intros Hin Hd. destruct (distinct_or (state_acts g fs st)) as [?|(l1 & x & l2 & y & l3 & E & Ek)]; [tauto|].
    destruct (ok_reach _ _ Hc st Hin) as (w & Hp). rewrite <- labelled_acts in E.
    apply map_eq_app in E. destruct E as (m1 & m2 & E & _ & E2).
    apply map_eq_cons in E2. destruct E2 as (u & m3 & -> & Eu & E2).
    apply map_eq_app in E2. destruct E2 as (m4 & m5 & -> & _ & E2).
    apply map_eq_cons in E2. destruct E2 as (v & m6 & -> & Ev & _).
    pose proof (labelled_nodup st Hin) as Hn.
    assert (Hu : In u (labelled st)) by (rewrite E; apply in_app_iff; right; left; auto).
    assert (Hv : In v (labelled st)) by (rewrite E; apply in_app_iff; right; right; apply in_app_iff; right; left; auto).
    destruct u as [itu [ku au]], v as [itv [kv av]]. cbn [snd] in Eu, Ev. subst x y. cbn [fst] in Ek.
    exists w, (dotted_of itu), ku, (dotted_of itv), kv. split; [eapply item_wants; eauto|]. split; [eapply item_wants; eauto|].
    split; [|apply same_key_eq; auto].
    intros [= E1 E2]. rewrite E in Hn. rewrite map_app in Hn. cbn [map fst snd] in Hn. apply NoDup_remove_2 in Hn. apply Hn.
    apply in_app_iff. right. rewrite map_app. apply in_app_iff. right. left. cbn [fst snd].
    destruct (ok_items _ _ Hc st Hin) as [_ Hok].
    apply in_labelled in Hu. apply in_labelled in Hv. f_equal; auto. symmetry.
    apply dotted_inj; auto; apply Hok; tauto.
  Qed.

  Lemma clash_not_distinct : clash g teq has_entry -> exists st, In st (cf_states c) /\ ~ distinct teq (state_acts g fs st).
  Proof.
    intros (w & d & k & d' & k' & H1 & H2 & Hne & Hk).
    assert (Hp : exists i, path c 0 w i).
    { destruct H1 as [H1 _]. apply lr0_li in H1. destruct H1 as (it & H1 & _). eapply li_path; eauto. }
    destruct Hp as (i & Hp). destruct (path_state g c Hc _ _ Hp) as (st & Ha & Hb & _). exists st. split; auto.
    intros Hd. destruct (wants_item w i st d k Hp Ha Hb H1) as (it & a & H3 & H4).
    destruct (wants_item w i st d' k' Hp Ha Hb H2) as (it' & a' & H5 & H6).
    rewrite <- labelled_acts in Hd.
    assert (E : (it, (k, a)) = (it', (k', a'))) by (eapply distinct_label; eauto; apply same_key_eq; auto).
    injection E as -> -> _. congruence.
  Qed.

  Lemma entry_sure_has : entry_sure g (g_start g) -> has_entry.
  Proof.
    intros [(h & l & r & H1 & H2)|[(t & H)|(h & l & h' & l' & r' & H1 & H2 & H3)]]; unfold has_entry.
    - eapply (ef_direct _ _ Hf); eauto.
    - apply follow_steps in H. destruct (ef_complete _ _ Hf _ _ H) as (l & E & _). congruence.
    - eapply (ef_next _ _ Hf); eauto.
  Qed.

  Lemma fkey_possible v : fkey g v -> entry_possible g v.
  Proof. induction 1; [eapply entry_direct; eauto|eapply entry_up; eauto; apply null_steps; auto]. Qed.

  Lemma has_entry_possible : has_entry -> entry_possible g (g_start g).
  Proof.
    unfold has_entry. intros H. destruct (mget (g_start g) fs) as [l|] eqn:E; [|congruence].
    apply fkey_possible. eapply (ef_key _ _ Hf); eauto.
  Qed.

  Lemma wants_mono (e e' : Prop) w d k : (e -> e') -> wants g e w d k -> wants g e' w d k.
  Proof. intros H [H1 H2]. split; auto. destruct d as [[h a] [|[t|v|] r]], k; tauto. Qed.

  Lemma clash_mono (e e' : Prop) : (e -> e') -> clash g teq e -> clash g teq e'.
  Proof.
    intros H (w & d & k & d' & k' & H1 & H2 & H3 & H4). exists w, d, k, d', k'.
    split; [eapply wants_mono; eauto|]. split; [eapply wants_mono; eauto|auto].
  Qed.
End Conflicts.

Section New.
  Context {V T : Type} {dv : DecEq V} {dt : DecEq T} {ho : HashOrder}.
  Variable teq : T -> T -> bool.
  Hypothesis Hteq : lawful teq.
  Variable g : grammar V T.
  Hypothesis Hb : built g.
  Let Hgood : good g := built_good g Hb.

  (** What a table that came out of [slr_new] looks like. *)
  Definition made (tb : table V T) : Prop :=
    exists c fs, cfsm_ok g c /\ exact_follow g fs /\ table_ok teq g c fs tb.

  Lemma slr_new_answer fuel p tb : slr_new teq fuel p g = Val tb ->
    exists c fs, follow_set fuel (0 :: 1 :: p) g = Val fs /\ cfsm_ok g c /\ exact_follow g fs /\ table_ok teq g c fs tb.
  Proof.
    unfold slr_new. intros H. apply bind_val in H. destruct H as (c & E1 & H). apply bind_val in H. destruct H as (o & E2 & H).
    destruct o as [tb'|]; [|discriminate]. injection H as ->. pose proof (from_grammar_answer g Hb _ _ _ E1) as Hc.
    pose proof E2 as E3. unfold new_slr in E3. apply bind_val in E3. destruct E3 as (fs & E3 & _). rewrite (ok_grammar _ _ Hc) in E3.
    pose proof (follow_set_answer g Hb _ _ _ E3) as Hf.
    destruct (new_slr_spec teq Hteq g c fuel (1 :: p) fs Hc E3 Hf) as (o & E4 & H). rewrite E2 in E4. injection E4 as <-.
    exists c, fs. auto.
  Qed.

  Lemma slr_new_made fuel p tb : slr_new teq fuel p g = Val tb -> made tb.
  Proof. intros H. apply slr_new_answer in H. destruct H as (c & fs & _ & H). exists c, fs. auto. Qed.

  (** [Slr::new] returns: a table, or a panic if two requests clash. *)
  Lemma slr_new_total p : exists n r, (forall fuel, n <= fuel -> slr_new teq fuel p g = r) /\
    ((r = Panic /\ clash g teq (entry_possible g (g_start g))) \/
     (exists tb, r = Val tb /\ ~ clash g teq (entry_sure g (g_start g)))).
  Proof.
    destruct (from_grammar_ok g Hgood (0 :: p)) as (n1 & c & E1 & Hc).
    destruct (follow_set_exact g Hgood (0 :: 1 :: p)) as (n2 & fs & E2 & Hf).
    destruct (new_slr_spec teq Hteq g c n2 (1 :: p) fs Hc (E2 n2 (le_n _)) Hf) as (o & E3 & H).
    assert (E4 : forall fuel, n2 <= fuel -> new_slr teq fuel (1 :: p) c = Val o).
    { intros fuel Hfu. rewrite <- E3. unfold new_slr. rewrite (ok_grammar _ _ Hc), (E2 fuel Hfu), (E2 n2 (le_n _)). reflexivity. }
    exists (Nat.max n1 n2), (of_option o). split.
    - intros fuel Hfu. unfold slr_new. rewrite E1 by lia. cbn [bind]. rewrite E4 by lia. reflexivity.
    - destruct o as [tb|].
      + right. exists tb. split; auto. intros Hcl.
        apply (clash_mono teq g _ (has_entry g fs)) in Hcl; [|apply entry_sure_has; auto].
        apply (clash_not_distinct teq Hteq g c Hc fs Hf) in Hcl. destruct Hcl as (st & Hin & Hd). apply Hd.
        eapply (distinct_perm teq Hteq); [apply (to_row _ _ _ _ _ H); auto|]. apply (to_distinct _ _ _ _ _ H); auto.
      + left. split; auto. destruct H as (st & Hin & Hd).
        apply (clash_mono teq g (has_entry g fs)); [apply has_entry_possible; auto|].
        eapply not_distinct_clash; eauto.
  Qed.

  Lemma slr_new_more p n j tb : slr_new teq n p g = Val tb -> slr_new teq (n + j) p g = Val tb.
  Proof.
    unfold slr_new. intros H. apply bind_val in H. destruct H as (c & E1 & H). apply bind_val in H. destruct H as (o & E2 & H).
    rewrite (from_grammar_more g _ _ j _ E1). cbn [bind].
    unfold new_slr in *. apply bind_val in E2. destruct E2 as (fs & E3 & E4).
    rewrite (follow_set_more _ _ _ j _ E3). cbn [bind]. rewrite E4. exact H.
  Qed.
End New.
