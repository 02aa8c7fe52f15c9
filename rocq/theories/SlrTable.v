(** The parse table in the words of the specification. *)
From Verif Require Import Base GrammarModel CfsmModel SlrModel SpecCfg GrammarProofs FirstProofs FollowProofs GrammarTotal
  ItemProofs CfsmProofs CfsmCorrect TableProofs.

Section SlrTable.
  Context {V T : Type} {dv : DecEq V} {dt : DecEq T}.
  Notation sym := (symbol V T).
  Notation itm := (item V T).
  Variable teq : T -> T -> bool.
  Hypothesis Hteq : lawful teq.
  Variable g : grammar V T.
  Hypothesis Hgood : good g.
  Variable c : cfsm V T.
  Hypothesis Hc : cfsm_ok g c.
  Variable fs : list (V * list sym).
  Hypothesis Hf : exact_follow g fs.

  (** The items of a state as dotted rules, for every path to it. *)
  Lemma path_state w i : path c 0 w i -> exists st, In st (cf_states c) /\ cs_id st = i /\ (forall it, In it (cs_items st) <-> li g w it).
  Proof. apply (path_items g c Hc). Qed.

  Lemma li_dotted w (it : itm) : li g w it <-> item_ok g it /\ lr0 g w (dotted_of it).
  Proof.
    split.
    - intros H. split; [eapply li_ok; eauto|apply li_lr0; auto].
    - intros [H1 H2]. apply lr0_li in H2. destruct H2 as (it' & H2 & E).
      pose proof (li_ok _ _ _ H2) as H3. destruct it as [h ib], it' as [h' ib'].
      assert ((h', ib') = (h, ib)) as <-; auto. apply dotted_inj; auto; [apply H3|apply H1].
  Qed.

  Lemma state_cursor w i st s : path c 0 w i -> In st (cf_states c) -> cs_id st = i ->
    (exists h ib, In (h, ib) (cs_items st) /\ cursor_symbol ib = Some s) <-> exists h a r, lr0 g w (h, a, s :: r).
  Proof.
    intros Hp Hin Hid. destruct (path_state _ _ Hp) as (st' & H1 & H2 & H3).
    assert (st' = st) as -> by (apply (state_unique g c Hc); congruence). split.
    - intros (h & ib & Hi & Hcu). apply H3 in Hi. apply li_lr0 in Hi. apply (cursor_dotted h) in Hcu.
      destruct Hcu as (a & r & E). rewrite E in Hi. eauto.
    - intros (h & a & r & H). apply lr0_li in H. destruct H as ([h' ib] & Hi & E). pose proof E as E'. cbn in E'. injection E' as -> _ _.
      exists h, ib. split; [apply H3; auto|]. apply (cursor_dotted h). eauto.
  Qed.

  Lemma trans_path w i st s d : path c 0 w i -> In st (cf_states c) -> cs_id st = i ->
    In (s, d) (cs_trans st) <-> path c 0 (w ++ [s]) d.
  Proof.
    intros Hp Hin Hid. split.
    - intros H. eapply path_step; eauto.
    - intros H. remember (w ++ [s]) as z eqn:E. destruct H as [j|j w' j' s' k st' H H1 H2 H3]; [destruct w; discriminate|].
      apply app_inj_tail in E. destruct E as [-> ->].
      assert (j' = i) by (eapply (path_fun g c Hc); eauto). assert (st' = st) as -> by (apply (state_unique g c Hc); congruence). auto.
  Qed.

  Lemma trans_mget st s d : In st (cf_states c) -> mget s (cs_trans st) = Some d <-> In (s, d) (cs_trans st).
  Proof.
    intros Hin. destruct (ok_trans _ _ Hc st Hin) as (Hn & _). split; [apply mget_in|apply in_mget; auto].
  Qed.

  (** ** What the states ask for *)

  Lemma in_state_acts w i st k a : path c 0 w i -> In st (cf_states c) -> cs_id st = i ->
    In (k, a) (state_acts g fs st) <->
    match k, a with
    | Some t, Shift d => (exists h a r, lr0 g w (h, a, Ter t :: r)) /\ path c 0 (w ++ [Ter t]) d
    | Some t, Reduce h n => exists x, lr0 g w (h, x, []) /\ length x = n /\ followb g h t
    | None, Accept h n => h = g_start g /\ (exists x, lr0 g w (h, x, []) /\ length x = n) /\ mget h fs <> None
    | _, _ => False
    end.
  Proof.
    intros Hp Hin Hid. unfold state_acts. rewrite in_flat_map.
    destruct (path_state _ _ Hp) as (st' & H1 & H2 & H3).
    assert (st' = st) as -> by (apply (state_unique g c Hc); congruence).
    assert (Hend : forall h n, (exists ib, In (h, ib) (cs_items st) /\ cursor_symbol ib = None /\ length (ib_body ib) = n) <->
                         exists x, lr0 g w (h, x, []) /\ length x = n).
    { intros h n. split.
      - intros (ib & Hi & Hcu & Hl). apply H3 in Hi. pose proof (li_ok _ _ _ Hi) as Hok. apply li_lr0 in Hi.
        destruct Hok as (_ & Hok & _). apply (cursor_end h ib Hok) in Hcu. destruct Hcu as (x & Hcu). rewrite Hcu in Hi. exists x.
        split; auto. cbn in Hcu. injection Hcu as Hcu1 Hcu2. rewrite <- Hcu1, <- Hl.
        rewrite <- (firstn_skipn (ib_cursor ib) (ib_body ib)) at 2. rewrite Hcu2, app_nil_r. auto.
      - intros (x & H & Hl). apply lr0_li in H. destruct H as ([h' ib] & Hi & E). pose proof E as E'. cbn in E'. injection E' as -> E1 E2.
        pose proof (li_ok _ _ _ Hi) as (_ & Hok & _).
        exists ib. split; [apply H3; auto|]. split; [apply (cursor_end h ib Hok); eauto|]. rewrite <- Hl, <- E1.
        rewrite <- (firstn_skipn (ib_cursor ib) (ib_body ib)) at 1. rewrite E2, app_nil_r. auto. }
    split.
    - intros ([h ib] & Hi & Ha). unfold item_acts in Ha. destruct (cursor_symbol ib) as [[t|v|]|] eqn:Ec.
      + destruct (mget (Ter t) (cs_trans st)) as [d|] eqn:Ed; [|destruct Ha]. destruct Ha as [[= <- <-]|[]].
        split.
        * apply (state_cursor w i st); eauto.
        * apply trans_mget in Ed; auto. eapply trans_path; eauto.
      + destruct Ha.
      + destruct Ha.
      + destruct (mget h fs) as [l|] eqn:El; [|destruct Ha]. apply in_app_iff in Ha. destruct Ha as [Ha|Ha].
        * apply in_flat_map in Ha. destruct Ha as (x & Hx & Ha). destruct (ef_sound _ _ Hf h l x El Hx) as (t & -> & Ht).
          destruct Ha as [[= <- <-]|[]]. destruct (proj1 (Hend h (length (ib_body ib)))) as (x & Ha & Hb); [eauto|].
          exists x. auto.
        * destruct (eqb_spec h (g_start g)) as [->|Hn]; [|destruct Ha]. destruct Ha as [[= <- <-]|[]].
          split; auto. split; [apply Hend; eauto|congruence].
    - destruct k as [t|], a as [d|h n|h n]; try tauto.
      + intros [H Hd]. apply (state_cursor w i st (Ter t)) in H; auto. destruct H as (h & ib & Hi & Hcu).
        exists (h, ib). split; auto. unfold item_acts. rewrite Hcu. apply (trans_path w i st) in Hd; auto.
        apply trans_mget in Hd; auto. rewrite Hd. left; auto.
      + intros (x & H & Hl & Ht). destruct (proj2 (Hend h n)) as (ib & Hi & Hcu & Hn); [eauto|].
        exists (h, ib). split; auto. unfold item_acts. rewrite Hcu.
        destruct (ef_complete _ _ Hf h t Ht) as (l & El & Hin'). rewrite El. apply in_app_iff. left.
        apply in_flat_map. exists (Ter t). split; auto. rewrite Hn. left; auto.
      + intros (-> & H & Hm). destruct (proj2 (Hend (g_start g) n) H) as (ib & Hi & Hcu & Hn).
        exists (g_start g, ib). split; auto. unfold item_acts. rewrite Hcu.
        destruct (mget (g_start g) fs) as [l|]; [|congruence]. apply in_app_iff. right.
        rewrite eqb_refl, Hn. left; auto.
  Qed.

  Variable tb : table V T.
  Hypothesis Htb : table_ok teq g c fs tb.

  Lemma row_action w i k a : path c 0 w i ->
    In (k, a) (nth i (tb_action tb) []) <->
    match k, a with
    | Some t, Shift d => (exists h a r, lr0 g w (h, a, Ter t :: r)) /\ path c 0 (w ++ [Ter t]) d
    | Some t, Reduce h n => exists x, lr0 g w (h, x, []) /\ length x = n /\ followb g h t
    | None, Accept h n => h = g_start g /\ (exists x, lr0 g w (h, x, []) /\ length x = n) /\ mget h fs <> None
    | _, _ => False
    end.
  Proof.
    intros Hp. destruct (path_state _ _ Hp) as (st & H1 & H2 & H3). rewrite <- (in_state_acts w i st k a); auto.
    rewrite <- H2. pose proof (to_row _ _ _ _ _ Htb st H1) as Hperm.
    split; intros H; (eapply Permutation_in; [|exact H]); [auto|symmetry; auto].
  Qed.

  Lemma row_distinct w i : path c 0 w i -> distinct teq (nth i (tb_action tb) []).
  Proof.
    intros Hp. destruct (path_state _ _ Hp) as (st & H1 & H2 & H3). rewrite <- H2. apply (to_distinct _ _ _ _ _ Htb); auto.
  Qed.

  Lemma row_goto w i v d : path c 0 w i -> mget v (nth i (tb_goto tb) []) = Some d <-> path c 0 (w ++ [Var v]) d.
  Proof.
    intros Hp. destruct (path_state _ _ Hp) as (st & H1 & H2 & H3). rewrite <- (trans_path w i st); auto.
    rewrite <- H2. apply (to_goto _ _ _ _ _ Htb); auto.
  Qed.

  (** The row found for a state: the row, or nothing if it is empty. *)
  Lemma row_lookup i : nth_error (tb_action tb) i = Some (nth i (tb_action tb) []) \/
    (nth_error (tb_action tb) i = None /\ nth i (tb_action tb) [] = [] /\
     forall st, In st (cf_states c) -> i <= cs_id st -> state_acts g fs st = []).
  Proof.
    destruct (Nat.lt_ge_cases i (length (tb_action tb))) as [H|H].
    - left. apply nth_error_nth'. auto.
    - right. split; [apply nth_error_None; auto|]. split; [apply nth_overflow; auto|].
      intros st Hin Hi. destruct (state_acts g fs st) eqn:E; auto. exfalso.
      assert (i < length (tb_action tb)); [|lia]. apply (to_len _ _ _ _ _ Htb). exists st. rewrite E. repeat split; auto. discriminate.
  Qed.

  Lemma goto_lookup i : nth_error (tb_goto tb) i = Some (nth i (tb_goto tb) []) \/
    (nth_error (tb_goto tb) i = None /\ nth i (tb_goto tb) [] = [] /\
     forall st v d, In st (cf_states c) -> i <= cs_id st -> ~ In (Var v, d) (cs_trans st)).
  Proof.
    destruct (Nat.lt_ge_cases i (length (tb_goto tb))) as [H|H].
    - left. apply nth_error_nth'. auto.
    - right. split; [apply nth_error_None; auto|]. split; [apply nth_overflow; auto|].
      intros st v d Hin Hi Ht. assert (i < length (tb_goto tb)); [|lia].
      apply (to_glen _ _ _ _ _ Htb). eauto 8.
  Qed.

  (** ** Lookups *)

  Lemma distinct_same k k' a a' (l : list (key T * action V)) :
    distinct teq l -> In (k, a) l -> In (k', a') l -> key_eq teq k k' = true -> (k, a) = (k', a').
  Proof.
    induction 1 as [|k1 a1 l H1 H2 IH]; intros H3 H4 E; [destruct H3|].
    destruct H3 as [[= -> ->]|H3], H4 as [[= -> ->]|H4]; auto.
    - rewrite (H1 _ _ H4) in E. discriminate.
    - rewrite (key_eq_sym teq Hteq), (H1 _ _ H3) in E. discriminate.
  Qed.

  Lemma action_get w i k k' a : path c 0 w i -> In (k', a) (nth i (tb_action tb) []) -> key_eq teq k k' = true ->
    nth_error (tb_action tb) i = Some (nth i (tb_action tb) []) /\ row_get teq k (nth i (tb_action tb) []) = Some a.
  Proof.
    intros Hp Hin E. split.
    - destruct (row_lookup i) as [?|(_ & H & _)]; auto. rewrite H in Hin. destruct Hin.
    - eapply (distinct_get teq Hteq); eauto. eapply row_distinct; eauto.
  Qed.
End SlrTable.
