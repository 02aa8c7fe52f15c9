(** Grammars without epsilon: the parser makes exactly the moves below. *)
From Verif Require Import Base GrammarModel CfsmModel SlrModel SpecCfg GrammarProofs FirstProofs FollowProofs GrammarTotal
  ItemProofs CfsmProofs CfsmCorrect TableProofs SlrTable SlrNew SlrRun.

Section Moves.
  Context {V T : Type} {dv : DecEq V} {dt : DecEq T}.
  Notation sym := (symbol V T).
  Notation tr := (tree V T).
  Variable teq : T -> T -> bool.
  Hypothesis Hteq : lawful teq.
  Variable g : grammar V T.
  Hypothesis Hgood : good g.
  Hypothesis Heps : epsilon_free g.

  (** Symbols read, their trees, tokens left. *)
  Definition conf : Type := list sym * list tr * list T.

  Inductive move : conf -> conf -> Prop :=
  | move_shift : forall w xs t ts t' h a r,
      lr0 g w (h, a, Ter t' :: r) -> teq t' t = true ->
      move (w, xs, t :: ts) (w ++ [Ter t'], xs ++ [Leaf t], ts)
  | move_reduce : forall w bd xs ys t ts t' h h' a r,
      lr0 g (w ++ bd) (h, bd, []) -> followb g h t' -> teq t' t = true -> length ys = length bd ->
      lr0 g w (h', a, Var h :: r) ->
      move (w ++ bd, xs ++ ys, t :: ts) (w ++ [Var h], xs ++ [Branch h ys], t :: ts).

  Inductive moves : conf -> conf -> Prop :=
  | moves_refl : forall m, moves m m
  | moves_step : forall m m1 m2, move m m1 -> moves m1 m2 -> moves m m2.

  Lemma moves_trans m1 m2 m3 : moves m1 m2 -> moves m2 m3 -> moves m1 m3.
  Proof. induction 1; auto. intros. eapply moves_step; eauto. Qed.

  Lemma moves_one m1 m2 : move m1 m2 -> moves m1 m2.
  Proof. intros. eapply moves_step; eauto. constructor. Qed.

  (** ** Runs keep trees and tokens *)

  Definition conf_ok (ts : list T) (m : conf) : Prop :=
    let '(w, xs, rem) := m in
    Forall2 (sat teq) w xs /\ Forall (derivation g teq) xs /\ flat_map leaves xs ++ rem = ts.

  Lemma forall2_split {A B} (R : A -> B -> Prop) l1 l2 m : Forall2 R (l1 ++ l2) m ->
    exists m1 m2, m = m1 ++ m2 /\ Forall2 R l1 m1 /\ Forall2 R l2 m2.
  Proof. intros H. apply Forall2_app_inv_l in H. destruct H as (m1 & m2 & H1 & H2 & ->). eauto. Qed.

  Lemma forall2_split_len {A B} (R : A -> B -> Prop) l1 l2 m1 m2 : length l2 = length m2 -> Forall2 R (l1 ++ l2) (m1 ++ m2) ->
    Forall2 R l1 m1 /\ Forall2 R l2 m2.
  Proof.
    intros Hl H. apply forall2_split in H. destruct H as (n1 & n2 & E & H1 & H2).
    pose proof (forall2_length _ _ _ H2). pose proof (forall2_length _ _ _ H1).
    assert (length (m1 ++ m2) = length (n1 ++ n2)) by congruence. rewrite !app_length in *.
    assert (Hn : length m1 = length n1) by lia.
    assert (m1 = n1 /\ m2 = n2) as [<- <-]; [|auto].
    clear - E Hn. revert n1 E Hn. induction m1 as [|x m1 IH]; intros [|y n1] E Hn; cbn in *; try lia; auto.
    injection E as <- E. destruct (IH n1 E) as [<- <-]; auto.
  Qed.

  Lemma move_ok ts m m' : move m m' -> conf_ok ts m -> conf_ok ts m'.
  Proof.
    destruct 1 as [w xs t rem t' h a r H1 H2|w bd xs ys t rem t' h h' a r H1 H2 H3 H4 H5]; intros (I1 & I2 & I3); unfold conf_ok.
    - split; [|split].
      + apply Forall2_app; auto.
      + apply Forall_app. split; auto. repeat constructor.
      + rewrite flat_map_app. cbn. rewrite <- app_assoc. exact I3.
    - apply forall2_split_len in I1; auto. destruct I1 as [I1 I4].
      apply Forall_app in I2. destruct I2 as [I2 I5]. split; [|split].
      + apply Forall2_app; auto. repeat constructor.
      + apply Forall_app. split; auto. constructor; [|constructor].
        pose proof (lr0_rule g _ _ _ _ H1) as Hr. rewrite app_nil_r in Hr.
        pose proof (lr0_noeps g Heps _ _ _ _ H1) as Hn. rewrite app_nil_r in Hn.
        econstructor; eauto. rewrite filter_noeps; auto.
      + rewrite <- I3, !flat_map_app. cbn [flat_map leaves]. rewrite app_nil_r. reflexivity.
  Qed.

  Lemma moves_ok ts m m' : moves m m' -> conf_ok ts m -> conf_ok ts m'.
  Proof. induction 1; auto. intros. apply IHmoves. eapply move_ok; eauto. Qed.

  (** ** Parsing a tree *)

  Lemma tree_ind2 (P : tr -> Prop) :
    (forall t, P (Leaf t)) -> (forall v cs, Forall P cs -> P (Branch v cs)) -> forall x, P x.
  Proof.
    intros H1 H2. fix F 1. intros [t|v cs]; [apply H1|apply H2].
    induction cs as [|x cs IH]; constructor; [apply F|exact IH].
  Qed.

  (** The first leaf of a tree. *)
  Lemma first_leaf x : forall w h a s r, derivation g teq x -> sat teq s x -> lr0 g w (h, a, s :: r) ->
    exists t l t', leaves x = t :: l /\ teq t' t = true /\ startb g [s] t'.
  Proof.
    induction x as [t|v cs IH] using tree_ind2; intros w h a s r Hd Hs Hl.
    - destruct s as [t'|?|]; cbn in Hs; try tauto. exists t, [], t'. split; auto. split; auto. constructor.
    - destruct s as [?|v'|]; cbn in Hs; try tauto. subst v'.
      inversion Hd as [|? bd ? Hr H2 H3]; subst. pose proof (rule_nonempty g v bd Hgood Hr) as Hne.
      pose proof (rule_reach_noeps g Heps _ _ _ _ _ _ Hl Hr) as Hn. rewrite filter_noeps in H2 by auto.
      destruct bd as [|s0 bd]; [congruence|]. inversion H2 as [|? y ? ys Hs0 H4]; subst.
      inversion IH as [|? ? IH1 IH2]; subst. inversion H3 as [|? ? Hd1 Hd2]; subst.
      pose proof (lr0_clo g Heps _ _ _ _ _ _ Hl Hr) as Hl2.
      destruct (IH1 _ _ _ _ _ Hd1 Hs0 Hl2) as (t & l & t' & E & E1 & E2).
      exists t, (l ++ flat_map leaves ys), t'. cbn [leaves flat_map]. rewrite E. split; auto. split; auto.
      eapply start_in; eauto. change (s0 :: bd) with ([s0] ++ bd). apply start_app. auto.
  Qed.

  (** The lookahead [k] allows reductions to the symbol [s]. *)
  Definition fits (s : sym) (k : T) : Prop :=
    match s with
    | Var v => exists k', teq k' k = true /\ followb g v k'
    | _ => True
    end.

  Lemma tree_moves x : forall w xs h a s r k ts, derivation g teq x -> sat teq s x -> lr0 g w (h, a, s :: r) -> fits s k ->
    moves (w, xs, leaves x ++ k :: ts) (w ++ [s], xs ++ [x], k :: ts).
  Proof.
    induction x as [t|v cs IH] using tree_ind2; intros w xs h a s r k ts Hd Hs Hl Hk.
    - destruct s as [t'|?|]; cbn in Hs; try tauto. apply moves_one. eapply move_shift; eauto.
    - destruct s as [?|v'|]; cbn in Hs; try tauto. subst v'. destruct Hk as (k' & Hk & Hfo).
      inversion Hd as [|? bd ? Hr H2 H3]; subst.
      pose proof (rule_reach_noeps g Heps _ _ _ _ _ _ Hl Hr) as Hn. rewrite filter_noeps in H2 by auto.
      pose proof (lr0_clo g Heps _ _ _ _ _ _ Hl Hr) as Hl2.
      assert (Hgen : forall b ys, Forall2 (sat teq) b ys -> Forall (derivation g teq) ys ->
        Forall (fun x => forall w xs h a s r k ts, derivation g teq x -> sat teq s x -> lr0 g w (h, a, s :: r) -> fits s k ->
                  moves (w, xs, leaves x ++ k :: ts) (w ++ [s], xs ++ [x], k :: ts)) ys ->
        forall w xs a, lr0 g w (v, a, b) -> moves (w, xs, flat_map leaves ys ++ k :: ts) (w ++ b, xs ++ ys, k :: ts)).
      { clear - Hteq Hgood Heps Hk Hfo. induction 1 as [|s y b ys Hs Hrest IHb]; intros Hd IHy w xs a Hl.
        - rewrite !app_nil_r. constructor.
        - inversion Hd as [|? ? Hd1 Hd2]; subst. inversion IHy as [|? ? IH1 IH2]; subst.
          assert (Hnext : exists k2 ts2, flat_map leaves ys ++ k :: ts = k2 :: ts2 /\ fits s k2).
          { destruct Hrest as [|s2 y2 b ys Hs2 Hrest].
            - exists k, ts. split; auto. destruct s as [?|u|]; cbn; auto. exists k'. split; auto.
              eapply follow_up; [exact (lr0_rule g _ _ _ _ Hl)|constructor|auto].
            - inversion Hd2 as [|? ? Hd3 Hd4]; subst. pose proof (lr0_adv g Heps _ _ _ _ _ Hl) as Hl'.
              destruct (first_leaf y2 _ _ _ _ _ Hd3 Hs2 Hl') as (k2 & l & k2' & E & E1 & E2).
              cbn [flat_map]. rewrite E. exists k2. eexists. split; [reflexivity|].
              destruct s as [?|u|]; cbn; auto. exists k2'. split; auto.
              eapply follow_direct; [exact (lr0_rule g _ _ _ _ Hl)|].
              change (s2 :: b) with ([s2] ++ b). apply start_app. auto. }
          destruct Hnext as (k2 & ts2 & E & Hf). cbn [flat_map]. rewrite <- app_assoc, E.
          eapply moves_trans; [eapply IH1; eauto|]. rewrite <- E.
          pose proof (IHb Hd2 IH2 (w ++ [s]) (xs ++ [y]) (a ++ [s]) (lr0_adv g Heps _ _ _ _ _ Hl)) as H.
          rewrite <- !app_assoc in H. exact H. }
      cbn [leaves]. eapply moves_trans; [apply (Hgen bd cs H2 H3 IH w xs [] Hl2)|].
      apply moves_one. eapply move_reduce; eauto.
      + pose proof (lr0_adv_all g Heps bd w v [] []) as H. rewrite app_nil_r in H. apply H; auto.
      + symmetry. eapply forall2_length; eauto.
  Qed.

  (** The lookahead allows reductions to the symbol read last. *)
  Definition fits_last (w : list sym) (k : T) : Prop := forall w' s, w = w' ++ [s] -> fits s k.

  Lemma prefix_moves w : forall xs k ts d, Forall2 (sat teq) w xs -> Forall (derivation g teq) xs -> lr0 g w d -> fits_last w k ->
    moves ([], [], flat_map leaves xs ++ k :: ts) (w, xs, k :: ts).
  Proof.
    induction w as [|s w IH] using rev_ind; intros xs k ts d H1 H2 Hl Hk.
    - inversion H1; subst. constructor.
    - apply forall2_split in H1. destruct H1 as (xs1 & xs2 & -> & H1 & H3). inversion H3 as [|? x ? ? Hs H4]; subst. inversion H4; subst.
      apply Forall_app in H2. destruct H2 as [H2 H5]. inversion H5 as [|? ? Hd _]; subst.
      destruct (lr0_last g _ _ _ Hl) as (h & a & r & Hl').
      destruct (first_leaf x _ _ _ _ _ Hd Hs Hl') as (t & l & t' & E & E1 & E2).
      rewrite flat_map_app. cbn [flat_map]. rewrite app_nil_r, <- app_assoc.
      assert (Hf : fits_last w t).
      { intros w' u ->. destruct u as [?|u|]; cbn; auto. exists t'. split; auto. eapply (lr0_follow g Heps); eauto.
        change (s :: r) with ([s] ++ r). apply start_app. auto. }
      pose proof (IH xs1 t (l ++ k :: ts) _ H1 H2 Hl' Hf) as Hm. rewrite E. cbn [app].
      eapply moves_trans; [exact Hm|]. change (t :: l ++ k :: ts) with ((t :: l) ++ k :: ts). rewrite <- E.
      eapply tree_moves; eauto.
  Qed.

  (** ** Acceptance *)

  Definition accepting (m : conf) (x : tr) : Prop :=
    exists w bd xs ys, m = (w ++ bd, xs ++ ys, []) /\ length ys = length bd /\ lr0 g (w ++ bd) (g_start g, bd, []) /\
      x = Branch (g_start g) ys.

  (** The last move is a shift. *)
  Lemma last_shift w xs ts : moves ([], [], ts) (w, xs, []) -> w = [] \/ exists w' t, w = w' ++ [Ter t].
  Proof.
    intros H. remember ([], [], ts) as m eqn:E. assert (Hm : (fst (fst m) = [] \/ snd m <> []) \/ exists w' t, fst (fst m) = w' ++ [Ter t])
      by (subst m; left; left; reflexivity). clear E ts.
    remember (w, xs, []) as m' eqn:E'. induction H as [m|m m1 m2 H H' IH].
    - subst m. cbn in Hm. tauto.
    - apply IH; auto. destruct H; cbn [fst snd].
      + right. eauto.
      + left. right. discriminate.
  Qed.

  Notation accepted := (accepted teq g).

  Lemma moves_accepted ts m x : moves ([], [], ts) m -> accepting m x -> accepted ts x.
  Proof.
    intros Hm (w & bd & xs & ys & -> & Hlen & Hl & ->).
    assert (Hok : conf_ok ts (w ++ bd, xs ++ ys, [])).
    { eapply moves_ok; eauto. split; [constructor|]. split; [constructor|]. reflexivity. }
    destruct Hok as (I1 & I2 & I3). apply forall2_split_len in I1; auto. destruct I1 as [I1 I4].
    apply Forall_app in I2. destruct I2 as [I2 I5].
    pose proof (lr0_rule g _ _ _ _ Hl) as Hr. rewrite app_nil_r in Hr. pose proof (rule_nonempty g _ _ Hgood Hr) as Hne.
    destruct (exists_last Hne) as (b & s & ->).
    apply last_shift in Hm. destruct Hm as [Hm|(w' & t & Hm)]; [destruct w; [destruct b|]; discriminate|].
    rewrite app_assoc in Hm. apply app_inj_tail in Hm. destruct Hm as [<- ->].
    destruct (lr0_back g Heps _ _ _ _ Hl) as (w0 & E & Hl0). apply app_inv_tail in E. subst w0. rewrite app_nil_r in Hl0.
    exists w, xs, (b ++ [Ter t]), b, t, ys. rewrite app_nil_r, flat_map_app in I3.
    split; [auto|]. split; [auto|]. split; [auto|]. split; [auto|]. split; [auto|]. split; [auto|]. split; auto.
  Qed.

  Lemma accepted_moves ts x : accepted ts x -> exists m, moves ([], [], ts) m /\ accepting m x.
  Proof.
    intros (w & xs & bd & b & t & ys & Hl & -> & H1 & H2 & H3 & H4 & -> & ->).
    apply forall2_split in H3. destruct H3 as (ys1 & ys2 & -> & H3 & H5). inversion H5 as [|? y ? ? Hs H6]; subst. inversion H6; subst.
    apply Forall_app in H4. destruct H4 as [H4 H7]. destruct y as [k|? ?]; [|cbn in Hs; tauto]. cbn in Hs.
    pose proof (lr0_adv_all g Heps b w (g_start g) [] [Ter t] Hl) as Hl2. cbn [app] in Hl2.
    exists (w ++ b ++ [Ter t], xs ++ ys1 ++ [Leaf k], []). split.
    - rewrite flat_map_app. cbn [flat_map leaves app]. rewrite app_assoc, <- flat_map_app.
      eapply moves_trans.
      + eapply (prefix_moves (w ++ b) (xs ++ ys1) k []); eauto.
        * apply Forall2_app; auto.
        * apply Forall_app; auto.
        * intros w' u E. destruct u as [?|u|]; cbn; auto. exists t. split; auto. rewrite E in Hl2.
          eapply (lr0_follow g Heps); eauto. constructor.
      + apply moves_one. rewrite !app_assoc. eapply move_shift; eauto.
    - exists w, (b ++ [Ter t]), xs, (ys1 ++ [Leaf k]). split; auto. split.
      + rewrite !app_length. cbn. f_equal. symmetry. eapply forall2_length; eauto.
      + split; auto. pose proof (lr0_adv g Heps _ _ _ _ _ Hl2) as Hl3. rewrite <- app_assoc in Hl3. exact Hl3.
  Qed.
End Moves.
