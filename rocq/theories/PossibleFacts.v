(** The facts of SpecPossible.v are those that hold. *)
From Verif Require Import Base GrammarModel CfsmModel SlrModel SpecPossible GrammarProofs QueryProofs.

Section Saturated.
  Context {A : Type} {da : DecEq A} (step : list A -> list A).
  Definition closed (l : list A) : Prop := incl (step l) l.

  Lemma more_spec l : exists e, more step l = l ++ e /\ incl e (step l) /\ incl (step l) (l ++ e) /\ (NoDup l -> NoDup (l ++ e)).
  Proof. unfold more. destruct (add_new (step l) l) as (e & -> & H1 & H2 & H3). exists e. auto. Qed.
  Lemma more_same l : closed l -> NoDup l -> more step l = l.
  Proof.
    intros Hg Hn. destruct (more_spec l) as (e & E & H1 & _ & H3). rewrite E. destruct e as [|q e]; [apply app_nil_r|]. exfalso.
    specialize (H3 Hn). apply NoDup_remove_2 in H3. apply H3, in_or_app. left. apply Hg, H1. left. reflexivity.
  Qed.
  Lemma more_all_same k l : closed l -> NoDup l -> more_all step k l = l.
  Proof. intros Hg Hn. induction k as [|k IH]; cbn [more_all]; [apply more_same; assumption|]. rewrite IH, Nat.eqb_refl. reflexivity. Qed.
  Lemma more_all_spec k : forall l, NoDup l -> let l' := more_all step k l in
    NoDup l' /\ incl l l' /\ (closed l' \/ length l + 2 ^ k <= length l') /\
    (forall P : A -> Prop, (forall x, In x l -> P x) -> (forall l1, (forall x, In x l1 -> P x) -> forall x, In x (step l1) -> P x) -> forall x, In x l' -> P x).
  Proof.
    induction k as [|k IH]; intros l Hn; cbn [more_all].
    - destruct (more_spec l) as (e & E & H1 & H2 & H3). rewrite E. cbn zeta. split; [apply H3; exact Hn|]. split; [apply incl_appl, incl_refl|]. split.
      + destruct e as [|q e]; [left|right].
        * rewrite app_nil_r in *. exact H2.
        * rewrite app_length. cbn. lia.
      + intros P HP Hs p Hp. apply in_app_or in Hp. destruct Hp as [Hp|Hp]; [auto|]. apply (Hs l HP). apply H1, Hp.
    - destruct (IH l Hn) as (N1 & I1 & G1 & R1). set (l1 := more_all step k l) in *. destruct (Nat.eqb_spec (length l1) (length l)) as [El|El]; cbn zeta.
      + split; [exact N1|]. split; [exact I1|]. split; [|exact R1]. left. destruct G1 as [G1|G1]; [exact G1|]. exfalso.
        assert (2 ^ k <> 0) by (apply Nat.pow_nonzero; discriminate). lia.
      + destruct (IH l1 N1) as (N2 & I2 & G2 & R2). split; [exact N2|]. split; [intros x Hx; apply I2, I1, Hx|]. split.
        * destruct G1 as [G1|G1]; [left; rewrite (more_all_same k l1 G1 N1); exact G1|]. destruct G2 as [G2|G2]; [left; exact G2|right]. cbn [Nat.pow]. lia.
        * intros P HP Hs. apply R2; [|exact Hs]. apply R1; assumption.
  Qed.
End Saturated.

Lemma bits_more n : n < 2 ^ bits n.
Proof. unfold bits. destruct n as [|n]; [cbn; lia|]. apply Nat.log2_spec. lia. Qed.

Section Facts.
  Context {V T : Type} {dv : DecEq V} {dt : DecEq T} (teq : T -> T -> bool) (tb : table V T) (ks : list T).
  Notation does := (does teq tb ks).
  Notation fact := (@fact V T).

  Definition work (d : deed) (st : list nat) : list nat := match d with Keep => st | Off => tl st | On q => q :: st end.

  (** The machine with any tokens. *)
  Inductive goes : control V T * list nat -> control V T * list nat -> Prop :=
  | goes_none x : goes x x
  | goes_step c st c' d y : In (c', d) (does c (hd_error st)) -> goes (c', work d st) y -> goes (c, st) y.
  Lemma goes_trans x y z : goes x y -> goes y z -> goes x z.
  Proof. induction 1; intros; [assumption|]. econstructor; eauto. Qed.
  Lemma goes_one c st c' d : In (c', d) (does c (hd_error st)) -> goes (c, st) (c', work d st).
  Proof. intros H. econstructor; [exact H|constructor]. Qed.

  (** A stack with the given top. *)
  Definition topped (top : option nat) (st : list nat) : Prop := hd_error st = top.

  Inductive holds : fact -> Prop :=
  | holds_begin : holds ((Begin, None), Begin)
  | holds_keep e c c' : holds (e, c) -> In (c', Keep) (does c (snd e)) -> holds (e, c')
  | holds_on e c c' q : holds (e, c) -> In (c', On q) (does c (snd e)) -> holds ((c', Some q), c')
  | holds_back e c c' q c1 c2 : holds (e, c) -> In (c', On q) (does c (snd e)) -> holds ((c', Some q), c1) ->
      In (c2, Off) (does c1 (Some q)) -> holds (e, c2).

  Lemma act_off c top c' : In (c', Off) (does c top) -> top <> None.
  Proof.
    destruct c as [| |k|k v [|j]|[|j]|o], top as [q|]; cbn; try discriminate; intros H; repeat (destruct H as [H|H]; [try discriminate H|]); try destruct H.
    apply in_map_iff in H. destruct H as (t & [=] & _).
  Qed.

  Lemma holds_true f : holds f ->
    (exists st, topped (snd (fst f)) st /\ goes (Begin, []) (fst (fst f), st)) /\
    (forall st, topped (snd (fst f)) st -> goes (fst (fst f), st) (snd f, st)).
  Proof.
    induction 1 as [|e c c' _ [IH1 IH2] H|e c c' q _ [IH1 IH2] H|e c c' q c1 c2 _ [IH1 IH2] H _ [IH3 IH4] H']; cbn [fst snd] in *.
    - split; [|constructor]. exists []. split; [reflexivity|constructor].
    - split; [exact IH1|]. intros st Hst. eapply goes_trans; [apply IH2, Hst|]. rewrite <- Hst in H. exact (goes_one _ _ _ _ H).
    - split; [|constructor]. destruct IH1 as (st & Hst & G). exists (q :: st). split; [reflexivity|]. eapply goes_trans; [exact G|].
      eapply goes_trans; [apply IH2, Hst|]. rewrite <- Hst in H. exact (goes_one _ _ _ _ H).
    - split; [exact IH1|]. intros st Hst. eapply goes_trans; [apply IH2, Hst|]. rewrite <- Hst in H. eapply goes_trans; [exact (goes_one _ _ _ _ H)|].
      cbn [work]. eapply goes_trans; [apply (IH4 (q :: st)); reflexivity|]. exact (goes_one c1 (q :: st) _ _ H').
  Qed.

  Definition returns (e : control V T * option nat) (c' : control V T) : Prop := exists c, holds (e, c) /\ In (c', Off) (does c (snd e)).
  Fixpoint known (c : control V T) (st : list nat) : Prop :=
    match st with
    | [] => holds ((Begin, None), c)
    | q :: st' => exists c0, holds ((c0, Some q), c) /\ forall c', returns (c0, Some q) c' -> known c' st'
    end.

  Lemma known_step c st c' d : known c st -> In (c', d) (does c (hd_error st)) -> known c' (work d st).
  Proof.
    intros K H. destruct st as [|q st]; cbn [known hd_error] in *.
    - destruct d as [| |q]; cbn [work tl known].
      + eapply holds_keep; eauto.
      + apply act_off in H. congruence.
      + exists c'. split; [eapply holds_on; eauto|]. intros c2 (c1 & H1 & H2). eapply holds_back; eauto.
    - destruct K as (c0 & K1 & K2). destruct d as [| |q']; cbn [work tl known].
      + exists c0. split; [eapply holds_keep; eauto|exact K2].
      + apply K2. exists c. auto.
      + exists c'. split; [eapply holds_on; eauto|]. intros c2 (c1 & H1 & H2). exists c0. split; [eapply holds_back; eauto|exact K2].
  Qed.
  Lemma goes_known x y : goes x y -> known (fst x) (snd x) -> known (fst y) (snd y).
  Proof. induction 1 as [|c st c' d y H _ IH]; [auto|]. intros K. apply IH. cbn [fst snd] in *. eapply known_step; eauto. Qed.

  (** What is on top and what comes next is known exactly. *)
  Lemma heads_known c st : goes (Begin, []) (c, st) -> exists c0, holds ((c0, hd_error st), c).
  Proof.
    intros G. assert (K : known c st) by (apply (goes_known _ _ G); constructor). destruct st as [|q st]; [exists Begin; exact K|].
    destruct K as (c0 & K & _). exists c0. exact K.
  Qed.
  Lemma known_heads e c : holds (e, c) -> exists st, topped (snd e) st /\ goes (Begin, []) (c, st).
  Proof. intros H. destruct (holds_true _ H) as ((st & H1 & H2) & H3). exists st. split; [exact H1|]. eapply goes_trans; [exact H2|apply H3, H1]. Qed.

  (** ** The computed facts *)
  Notation controls := (controls tb ks).
  Notation tops := (tops tb).
  Definition every : list fact := list_prod (list_prod controls tops) controls.
  Definition step_facts (l : list fact) : list fact := flat_map (entails teq tb ks l) l.

  Lemma row_get_in k (row : list (key T * action V)) a : row_get teq k row = Some a -> In a (map snd row).
  Proof.
    induction row as [|[k' a'] row IH]; cbn; [discriminate|]. destruct (key_eq teq k k'); [intros [= ->]; auto|auto].
  Qed.
  Lemma in_actions q row a : nth_error (tb_action tb) q = Some row -> In a (map snd row) -> In a (all_actions tb).
  Proof.
    intros H1 H2. apply in_map_iff in H2. destruct H2 as (x & <- & Hx). unfold all_actions. apply in_map. apply in_concat. exists row.
    split; [eapply nth_error_In; eauto|exact Hx].
  Qed.
  Lemma control_done o : In (Done o) controls.
  Proof. destruct o; cbn; auto 6. Qed.
  Lemma control_have k : In k (keys ks) -> In (Have k) controls.
  Proof. intros H. unfold SpecPossible.controls. do 5 right. apply in_or_app. left. apply in_map. exact H. Qed.
  Lemma have_control k : In (Have k) controls -> In k (keys ks).
  Proof.
    unfold SpecPossible.controls. intros H. do 5 (destruct H as [H|H]; [discriminate H|]). apply in_app_or in H. destruct H as [H|H].
    - apply in_map_iff in H. destruct H as (k' & [= ->] & H). exact H.
    - apply in_flat_map in H. destruct H as ([d|v n|v n] & _ & H); [destruct H| |].
      + apply in_flat_map in H. destruct H as (k' & _ & H). apply in_map_iff in H. destruct H as (j & [=] & _).
      + apply in_map_iff in H. destruct H as (j & [=] & _).
  Qed.
  Lemma control_pop k v j : In (Pop k v j) controls <-> In k (keys ks) /\ exists n, j <= n /\ In (Reduce v n) (all_actions tb).
  Proof.
    unfold SpecPossible.controls. split.
    - intros H. do 5 (destruct H as [H|H]; [discriminate H|]). apply in_app_or in H. destruct H as [H|H].
      + apply in_map_iff in H. destruct H as (k' & [=] & H).
      + apply in_flat_map in H. destruct H as ([d|v' n|v' n] & Ha & H); [destruct H| |].
        * apply in_flat_map in H. destruct H as (k' & Hk & H). apply in_map_iff in H. destruct H as (j' & [= -> -> ->] & H). apply in_seq in H.
          split; [exact Hk|]. exists n. split; [lia|exact Ha].
        * apply in_map_iff in H. destruct H as (j' & [=] & _).
    - intros (Hk & n & Hj & Ha). do 5 right. apply in_or_app. right. apply in_flat_map. exists (Reduce v n). split; [exact Ha|].
      apply in_flat_map. exists k. split; [exact Hk|]. apply in_map. apply in_seq. lia.
  Qed.
  Lemma control_drop j : In (Drop j) controls <-> exists v n, j <= n /\ In (Accept v n) (all_actions tb).
  Proof.
    unfold SpecPossible.controls. split.
    - intros H. do 5 (destruct H as [H|H]; [discriminate H|]). apply in_app_or in H. destruct H as [H|H].
      + apply in_map_iff in H. destruct H as (k' & [=] & H).
      + apply in_flat_map in H. destruct H as ([d|v' n|v' n] & Ha & H); [destruct H| |].
        * apply in_flat_map in H. destruct H as (k' & Hk & H). apply in_map_iff in H. destruct H as (j' & [=] & _).
        * apply in_map_iff in H. destruct H as (j' & [= ->] & H). apply in_seq in H. exists v', n. split; [lia|exact Ha].
    - intros (v & n & Hj & Ha). do 5 right. apply in_or_app. right. apply in_flat_map. exists (Accept v n). split; [exact Ha|].
      apply in_map. apply in_seq. lia.
  Qed.

  Lemma does_every c top c' d : In c controls -> In (c', d) (does c top) -> In c' controls /\ forall q, d = On q -> In (Some q) tops.
  Proof.
    intros Hc H. destruct c as [| |k|k v j|j|o]; cbn [SpecPossible.does act] in H.
    - destruct H as [[= <- <-]|[]]. split; [cbn; auto|]. intros q [= <-]. cbn. auto.
    - apply in_map_iff in H. destruct H as (k & [= <- <-] & Hk). split; [apply control_have, Hk|discriminate].
    - apply have_control in Hc. destruct top as [q|]; [|destruct H]. destruct (nth_error (tb_action tb) q) as [row|] eqn:En.
      2: { destruct H as [[= <- <-]|[]]. split; [apply control_done|discriminate]. }
      destruct (row_get teq k row) as [[e|v n|v n]|] eqn:Er; [| | |destruct H as [[= <- <-]|[]]; split; [apply control_done|discriminate]];
        apply row_get_in, (in_actions _ _ _ En) in Er.
      + destruct k as [t|]; destruct H as [[= <- <-]|[]].
        * split; [cbn; auto|]. intros q' [= <-]. unfold SpecPossible.tops. do 2 right. apply in_or_app. left. apply in_flat_map. exists (Shift e).
          split; [exact Er|left; reflexivity].
        * split; [apply control_done|discriminate].
      + destruct H as [[= <- <-]|[]]. split; [|discriminate]. apply control_pop. split; [exact Hc|]. exists n. auto.
      + destruct H as [[= <- <-]|[]]. split; [|discriminate]. apply control_drop. exists v, n. auto.
    - pose proof Hc as Hc0. apply control_pop in Hc. destruct Hc as (Hk & n & Hj & Ha).
      destruct j as [|j], top as [q|]; try (destruct H as [[= <- <-]|[]]; split; [apply control_done|discriminate]).
      + destruct (nth_error (tb_goto tb) q) as [row|] eqn:En; [|destruct H as [[= <- <-]|[]]; split; [apply control_done|discriminate]].
        destruct (mget v row) as [e|] eqn:Eg; destruct H as [[= <- <-]|[]]; [|split; [apply control_done|discriminate]].
        split; [apply control_have, Hk|]. intros q' [= <-]. unfold SpecPossible.tops. do 2 right. apply in_or_app. right.
        apply in_map_iff. exists (v, e). split; [reflexivity|]. apply in_concat. exists row. split; [eapply nth_error_In; eauto|apply mget_in; exact Eg].
      + destruct H as [[= <- <-]|[]]. split; [|discriminate]. apply control_pop. split; [exact Hk|]. exists n. split; [lia|exact Ha].
    - apply control_drop in Hc. destruct Hc as (v & n & Hj & Ha).
      destruct j as [|j], top as [q|]; destruct H as [[= <- <-]|[]]; (split; [|discriminate]); try apply control_done.
      apply control_drop. exists v, n. split; [lia|exact Ha].
    - destruct H.
  Qed.

  Lemma in_uncovers l e c : In c (uncovers teq tb ks l e) <-> exists c1, In (e, c1) l /\ In (c, Off) (does c1 (snd e)).
  Proof.
    unfold uncovers. rewrite in_flat_map. split.
    - intros ([e' c1] & H1 & H2). cbn [fst snd] in H2. destruct (eqb e' e) eqn:E; [|destruct H2]. apply eqb_eq in E. subst e'.
      apply in_flat_map in H2. destruct H2 as ([c' d] & H2 & H3). cbn [fst snd] in H3. destruct d; try destruct H3. exists c1. split; [exact H1|]. subst c'. exact H2.
      destruct H.
    - intros (c1 & H1 & H2). exists (e, c1). split; [exact H1|]. cbn [fst snd]. replace (eqb e e) with true by (symmetry; apply eqb_eq; reflexivity).
      apply in_flat_map. exists (c, Off). split; [exact H2|left; reflexivity].
  Qed.

  Lemma in_step l f : In f (step_facts l) <-> exists e c, In (e, c) l /\
    ((exists c', In (c', Keep) (does c (snd e)) /\ f = (e, c')) \/
     (exists c' q, In (c', On q) (does c (snd e)) /\
       (f = ((c', Some q), c') \/ exists c1 c2, In ((c', Some q), c1) l /\ In (c2, Off) (does c1 (Some q)) /\ f = (e, c2)))).
  Proof.
    unfold step_facts. rewrite in_flat_map. split.
    - intros ([e c] & H1 & H2). exists e, c. split; [exact H1|]. unfold entails in H2. apply in_flat_map in H2. cbn [fst snd] in H2.
      destruct H2 as ([c' [| |q]] & H2 & H3); cbn [fst snd] in H3.
      + destruct H3 as [<-|[]]. left. eauto.
      + destruct H3.
      + right. exists c', q. split; [exact H2|]. destruct H3 as [<-|H3]; [left; reflexivity|right]. apply in_map_iff in H3.
        destruct H3 as (c2 & <- & H3). apply in_uncovers in H3. destruct H3 as (c1 & H3 & H4). eauto 6.
    - intros (e & c & H1 & H2). exists (e, c). split; [exact H1|]. unfold entails. apply in_flat_map. cbn [fst snd].
      destruct H2 as [(c' & H2 & ->)|(c' & q & H2 & H3)].
      + exists (c', Keep). split; [exact H2|left; reflexivity].
      + exists (c', On q). split; [exact H2|]. cbn [fst snd]. destruct H3 as [->|(c1 & c2 & H3 & H4 & ->)]; [left; reflexivity|right].
        apply in_map. apply in_uncovers. eauto.
  Qed.

  Lemma facts_hold f : In f (facts teq tb ks) <-> holds f.
  Proof.
    unfold facts. fold step_facts. set (k := _ + _ + _).
    destruct (more_all_spec step_facts k [((Begin, None), Begin)]) as (Hn & Hi & Hc & HP).
    { repeat constructor. intros []. }
    change (fun l => flat_map (entails teq tb ks l) l) with step_facts. set (l := more_all step_facts k _) in *.
    assert (Hu : forall x, In x l -> In x every).
    { apply HP.
      - intros x [<-|[]]. unfold every. apply in_prod; [apply in_prod|]; cbn; auto.
      - intros l1 H1 x Hx. apply in_step in Hx. destruct Hx as (e & c & Hec & Hx). apply H1 in Hec. unfold every in Hec. apply in_prod_iff in Hec.
        destruct Hec as (He & Hcc). destruct Hx as [(c' & H2 & ->)|(c' & q & H2 & Hx)].
        + apply in_prod; [exact He|]. exact (proj1 (does_every _ _ _ _ Hcc H2)).
        + destruct (does_every _ _ _ _ Hcc H2) as (H3 & H4). specialize (H4 _ eq_refl). destruct Hx as [->|(c1 & c2 & H5 & H6 & ->)].
          * apply in_prod; [apply in_prod|]; assumption.
          * apply H1 in H5. apply in_prod_iff in H5. apply in_prod; [exact He|]. exact (proj1 (does_every _ _ _ _ (proj2 H5) H6)). }
    split.
    - intros H. revert f H. apply HP.
      + intros x [<-|[]]. constructor.
      + intros l1 H1 x Hx. apply in_step in Hx. destruct Hx as (e & c & Hec & Hx). apply H1 in Hec.
        destruct Hx as [(c' & H2 & ->)|(c' & q & H2 & [->|(c1 & c2 & H5 & H6 & ->)])].
        * eapply holds_keep; eauto.
        * eapply holds_on; eauto.
        * eapply holds_back; eauto.
    - assert (Hcl : closed step_facts l).
      { destruct Hc as [Hc|Hc]; [exact Hc|exfalso]. pose proof (NoDup_incl_length Hn Hu) as Hl. 
        assert (El : length every = length controls * length tops * length controls) by (unfold every; etransitivity; [apply prod_length|f_equal; apply prod_length]). rewrite El in Hl.
        cbn [length] in Hc. pose proof (bits_more (length controls)). pose proof (bits_more (length tops)). unfold k in Hc. rewrite !Nat.pow_add_r in Hc.
        assert (length controls * length tops * length controls <= 2 ^ bits (length controls) * 2 ^ bits (length tops) * 2 ^ bits (length controls)).
        { apply Nat.mul_le_mono; [apply Nat.mul_le_mono|]; lia. }
        lia. }
      induction 1 as [|e c c' _ IH H|e c c' q _ IH H|e c c' q c1 c2 _ IH H _ IH' H'].
      + apply Hi. left. reflexivity.
      + apply Hcl, in_step. exists e, c. split; [exact IH|]. left. eauto.
      + apply Hcl, in_step. exists e, c. split; [exact IH|]. right. eauto 6.
      + apply Hcl, in_step. exists e, c. split; [exact IH|]. right. exists c', q. split; [exact H|]. right. eauto 6.
  Qed.
End Facts.
