(** The order in which the states of the automaton are made, and how many there are. *)
From Verif Require Import Base GrammarModel CfsmModel SlrModel SpecCfg SpecCopies GrammarProofs FirstProofs FollowProofs GrammarTotal
  ItemProofs CfsmProofs CfsmCorrect.

Section Order.
  Context {V T : Type} {dv : DecEq V} {dt : DecEq T} {ho : HashOrder}.
  Notation sym := (symbol V T).
  Notation cst := (cstate V T).
  Variable g : grammar V T.

  Lemma groups_new fuel q added gs : forall trans next pending trans' next' pending',
    cfsm_groups fuel q g added gs trans next pending = Val (trans', next', pending') ->
    (forall a, In a added -> cs_id a < next) ->
    NoDup (keys_of gs) -> (forall s, In s (keys_of gs) -> ~ In s (map fst trans)) ->
    (forall s k, In (s, k) trans -> k < next) ->
    (forall s s' k, ~ In k (map cs_id added) -> In (s, k) trans -> In (s', k) trans -> s = s') ->
    exists new, pending' = pending ++ new /\ next' = next + length new /\ map cs_id new = seq next (length new) /\
      (forall b, In b new -> cs_trans b = []) /\
      (forall s k, In (s, k) trans -> In (s, k) trans') /\
      (forall s k, In (s, k) trans' -> k < next' /\ (In (s, k) trans \/ In k (map cs_id added) \/
         exists b, In b new /\ cs_id b = k /\ forall a, In a added -> same_items (cs_items a) (cs_items b) = false)) /\
      (forall b, In b new -> exists s, In (s, cs_id b) trans') /\
      (forall s s' k, ~ In k (map cs_id added) -> In (s, k) trans' -> In (s', k) trans' -> s = s').
  Proof.
    induction gs as [|(i & s & grp) gs IH]; intros trans next pending trans' next' pending' H Hb Hnd Hd Hlt Hinj; cbn [cfsm_groups] in H.
    - injection H as <- <- <-. exists []. rewrite app_nil_r. cbn [length]. rewrite Nat.add_0_r. split; [auto|]. split; [auto|]. split; [auto|].
      split; [intros b []|]. split; [auto|]. split; [eauto|]. split; [intros b []|]. eauto.
    - apply bind_val in H. destruct H as (items & _ & H).
      cbn in Hnd. inversion Hnd as [|? ? Hs Hnd']; subst.
      assert (Hfresh : ~ In s (map fst trans)) by (apply Hd; left; reflexivity).
      assert (Hup : forall v s' k, In (s', k) (mupdate s 0 (fun _ => v) trans) <-> In (s', k) trans \/ s' = s /\ k = v).
      { intros v s' k. split.
        - intros Hin. apply in_mupdate in Hin. destruct Hin as [Hin|(-> & Hin)]; auto. right. split; auto.
          destruct Hin as [->|(? & _ & ->)]; reflexivity.
        - intros [Hin|(-> & ->)].
          + apply in_mupdate_old; auto. intros ->. apply Hfresh. change s with (fst (s, k)). apply in_map. auto.
          + apply (in_mupdate_new s 0 (fun _ => v)). }
      assert (Hd' : forall v s', In s' (keys_of gs) -> ~ In s' (map fst (mupdate s 0 (fun _ => v) trans))).
      { intros v s' H1 H2. apply in_mupdate_keys in H2. destruct H2 as [H2|H2].
        - subst. auto.
        - revert H2. apply Hd. right. auto. }
      destruct (find (fun st => same_items (cs_items st) items) added) as [st|] eqn:Ef.
      + pose proof (find_some _ _ Ef) as [Ha _].
        apply IH in H as (new & -> & -> & H1 & H2 & H3 & H4 & H5 & H6); auto.
        * exists new. split; [auto|]. split; [auto|]. split; [auto|]. split; [auto|]. split.
          { intros s' k Hin. apply H3. apply Hup. auto. }
          split; [|split; auto]. intros s' k Hin. destruct (H4 _ _ Hin) as (Hk & [Hx|Hx]); auto. split; auto.
          apply Hup in Hx. destruct Hx as [Hx|(_ & ->)]; auto. right. left. apply in_map. auto.
        * intros s' k Hin. apply Hup in Hin. destruct Hin as [Hin|(_ & ->)]; eauto.
        * intros s1 s2 k Hk I1 I2. apply Hup in I1, I2. destruct I1 as [I1|(-> & ->)], I2 as [I2|(-> & I2)]; eauto.
          -- destruct Hk. rewrite I2. apply in_map. auto.
          -- destruct Hk. apply in_map. auto.
      + pose proof (find_none _ _ Ef) as Hno.
        apply IH in H as (new & -> & -> & H1 & H2 & H3 & H4 & H5 & H6); auto.
        * set (st1 := {| cs_id := next; cs_items := items; cs_trans := [] |}) in *. exists (st1 :: new).
          rewrite <- app_assoc. cbn [app length]. split; [auto|]. split; [lia|]. split; [cbn [map seq]; rewrite H1; reflexivity|].
          split; [intros b [<-|Hx]; auto|]. split.
          { intros s' k Hin. apply H3. apply Hup. auto. }
          split; [|split].
          -- intros s' k Hin. destruct (H4 _ _ Hin) as (Hk & Hx). split; [lia|].
             destruct Hx as [Hx|[Hx|(b & Hx & Hy)]]; auto.
             ++ apply Hup in Hx. destruct Hx as [Hx|(_ & ->)]; auto. right. right. exists st1. split; [left; auto|]. split; auto.
             ++ right. right. exists b. split; [right; auto|auto].
          -- intros b [<-|Hx]; auto. exists s. apply H3. apply Hup. auto.
          -- auto.
        * intros a Ha. apply Hb in Ha. lia.
        * intros s' k Hin. apply Hup in Hin. destruct Hin as [Hin|(_ & ->)]; [apply Hlt in Hin|]; lia.
        * intros s1 s2 k Hk I1 I2. apply Hup in I1, I2. destruct I1 as [I1|(-> & ->)], I2 as [I2|(-> & I2)]; eauto.
          -- apply Hlt in I1. lia.
          -- apply Hlt in I2. lia.
  Qed.

  (** The states in the order of their making. *)
  Record binv (added : list cst) (next : nat) (pending : list cst) : Prop := {
    b_ids : map cs_id (added ++ pending) = seq 0 next;
    b_empty : forall st, In st pending -> cs_trans st = [];
    b_less : forall st s k, In st added -> In (s, k) (cs_trans st) -> k < next;
    b_new : forall st s k, In st added -> In (s, k) (cs_trans st) -> cs_id st <= k ->
      cs_id st < k /\ exists its, In (k, its) (map proj (added ++ pending)) /\
        forall a, In a added -> cs_id a < cs_id st -> same_items (cs_items a) its = false;
    b_made : forall k, 0 < k -> k < next -> exists st s, In st added /\ In (s, k) (cs_trans st) /\ cs_id st < k;
    b_one : forall st s s' k, In st added -> cs_id st < k -> In (s, k) (cs_trans st) -> In (s', k) (cs_trans st) -> s = s';
    b_mono : forall st st' s s' k k', In st added -> In st' added -> In (s, k) (cs_trans st) -> In (s', k') (cs_trans st') ->
      cs_id st < k -> cs_id st' < k' -> k <= k' -> cs_id st <= cs_id st'
  }.

  Lemma split_seq n : forall k (x y : list nat) c, x ++ c :: y = seq k n -> c = k + length x.
  Proof.
    induction n as [|n IH]; intros k x y c E; [destruct x; discriminate|].
    destruct x as [|z x]; cbn in E; injection E as E1 E; subst; [cbn; lia|]. apply IH in E. cbn. lia.
  Qed.

  Lemma binv_step fuel q added next st rest trans next' pending' : binv added next (st :: rest) ->
    cfsm_groups fuel q g added (enumerate (group_items q (cs_items st))) (cs_trans st) next rest = Val (trans, next', pending') ->
    let st' := {| cs_id := cs_id st; cs_items := cs_items st; cs_trans := trans |} in
    add_state st' added = added ++ [st'] /\ binv (added ++ [st']) next' pending'.
  Proof.
    intros [Hids Hemp Hless Hnew Hmade Hone Hmono] H st'.
    rewrite (Hemp st (or_introl eq_refl)) in H.
    pose proof Hids as Hids'. rewrite map_app in Hids'. cbn [map] in Hids'.
    pose proof (split_seq _ _ _ _ _ Hids') as Hid. rewrite map_length in Hid. cbn [Nat.add] in Hid.
    assert (Hfirst : map cs_id added = seq 0 (cs_id st)).
    { assert (Hp : forall n k (x y : list nat), x ++ y = seq k n -> x = seq k (length x)).
      { clear. induction n as [|n IH]; intros k x y E; [destruct x; [reflexivity|discriminate]|].
        destruct x as [|z x]; [reflexivity|]. cbn in E. injection E as -> E. cbn. f_equal. eapply IH; eauto. }
      apply Hp in Hids'. rewrite map_length, <- Hid in Hids'. exact Hids'. }
    assert (Hlt : forall a, In a added -> cs_id a < cs_id st).
    { intros a Ha. apply (in_map cs_id) in Ha. rewrite Hfirst in Ha. apply in_seq in Ha. lia. }
    assert (Hst : cs_id st < next).
    { assert (Hx : In (cs_id st) (seq 0 next)) by (rewrite <- Hids'; apply in_app_iff; right; left; auto). apply in_seq in Hx. lia. }
    split; [apply add_state_last; auto|].
    assert (Hgk : keys_of (enumerate (group_items q (cs_items st))) = map fst (group_items q (cs_items st))).
    { rewrite <- (map_snd_enumerate (group_items q (cs_items st))) at 2. rewrite map_map. reflexivity. }
    destruct (group_items_spec q (cs_items st)) as [G1 _ _ _].
    apply groups_new in H as (new & -> & -> & H1 & H2 & _ & H4 & H5 & H6).
    2: { intros a Ha. apply Hlt in Ha. lia. }
    2: { rewrite Hgk. auto. }
    2: { intros s _ []. }
    2: { intros s k []. }
    2: { intros s s' k _ []. }
    assert (Hproj : map proj ((added ++ [st']) ++ rest ++ new) = map proj (added ++ st :: rest) ++ map proj new).
    { rewrite !map_app. cbn [map]. rewrite <- !app_assoc. reflexivity. }
    assert (Hnewid : forall k, In k (map cs_id new) -> next <= k).
    { intros k Hk. rewrite H1 in Hk. apply in_seq in Hk. lia. }
    assert (Hk : forall s k, In (s, k) trans -> cs_id st <= k -> next <= k /\ exists b, In b new /\ cs_id b = k /\
              forall a, In a added -> same_items (cs_items a) (cs_items b) = false).
    { intros s k Hin Hle. destruct (H4 _ _ Hin) as (_ & [[]|[Hx|(b & Hx & Hy & Hz)]]).
      - rewrite Hfirst in Hx. apply in_seq in Hx. lia.
      - split; [|eauto]. apply Hnewid. rewrite <- Hy. apply in_map. auto. }
    constructor.
    - rewrite <- app_assoc. cbn [app]. rewrite app_comm_cons, app_assoc, map_app, H1, seq_app. f_equal.
      rewrite <- Hids. rewrite !map_app. reflexivity.
    - intros x Hx. apply in_app_iff in Hx. destruct Hx as [Hx|Hx]; [apply Hemp; right; auto|auto].
    - intros x s k Hx Hin. apply in_app_iff in Hx. destruct Hx as [Hx|[<-|[]]].
      + specialize (Hless _ _ _ Hx Hin). lia.
      + apply (H4 _ _ Hin).
    - intros x s k Hx Hin Hle. apply in_app_iff in Hx. destruct Hx as [Hx|[<-|[]]].
      + destruct (Hnew _ _ _ Hx Hin Hle) as (Ha & its & Hb & Hc). split; auto. exists its. split.
        * rewrite Hproj. apply in_app_iff. auto.
        * intros a Hy Hz. apply in_app_iff in Hy. destruct Hy as [Hy|[<-|[]]]; auto.
          exfalso. apply Hlt in Hx. cbn [cs_id st'] in Hz. lia.
      + cbn [cs_id cs_trans st'] in *. destruct (Hk _ _ Hin Hle) as (Ha & b & Hb & Hc & Hd). split; [lia|].
        exists (cs_items b). split.
        * rewrite Hproj. apply in_app_iff. right. rewrite <- Hc. apply (in_map proj). auto.
        * intros a Hy Hz. apply in_app_iff in Hy. destruct Hy as [Hy|[<-|[]]]; auto.
          exfalso. cbn [cs_id st'] in Hz. lia.
    - intros k H0 Hle. destruct (le_lt_dec next k) as [Hn|Hn].
      + assert (Hin : In k (map cs_id new)) by (rewrite H1; apply in_seq; lia).
        apply in_map_iff in Hin. destruct Hin as (b & <- & Hb). destruct (H5 b Hb) as (s & Hs).
        exists st', s. split; [apply in_app_iff; right; left; auto|]. split; [exact Hs|]. cbn [cs_id st']. lia.
      + destruct (Hmade k H0 Hn) as (x & s & Ha & Hb & Hc). exists x, s. split; [apply in_app_iff; auto|auto].
    - intros x s s' k Hx Hlk I1 I2. apply in_app_iff in Hx. destruct Hx as [Hx|[<-|[]]]; [eauto|].
      cbn [cs_id cs_trans st'] in *. apply (H6 s s' k); auto. rewrite Hfirst. intros Hy. apply in_seq in Hy. lia.
    - intros x x' s s' k k' Hx Hx' I1 I2 L1 L2 Hle. apply in_app_iff in Hx, Hx'.
      destruct Hx as [Hx|[<-|[]]], Hx' as [Hx'|[<-|[]]]; eauto.
      + apply Hlt in Hx. cbn [cs_id st']. lia.
      + cbn [cs_id cs_trans st'] in *. exfalso. specialize (Hless _ _ _ Hx' I2).
        destruct (Hk _ _ I1 ltac:(lia)) as (Ha & _). lia.
  Qed.

  Lemma binv_loop q : forall fuel k added next pending res,
    binv added next pending -> cfsm_loop fuel k q g added next pending = Val res -> exists next', binv res next' [].
  Proof.
    induction fuel as [|fuel IH]; intros k added next pending res Hi H; cbn [cfsm_loop] in H.
    - destruct pending; [injection H as <-; eauto|discriminate].
    - destruct pending as [|st rest]; [injection H as <-; eauto|].
      apply bind_val in H. destruct H as ([[trans next'] pending'] & H1 & H2).
      destruct (binv_step _ _ _ _ _ _ _ _ _ Hi H1) as [Ha Hi']. rewrite Ha in H2. eapply IH; eauto.
  Qed.

  Lemma from_grammar_binv fuel q c : from_grammar fuel q g = Val c -> binv (cf_states c) (length (cf_states c)) [].
  Proof.
    unfold from_grammar. intros H. apply bind_val in H. destruct H as (bds & _ & H). apply bind_val in H.
    destruct H as (its & _ & H). apply bind_val in H. destruct H as (sts & H1 & H2).
    assert (Hi : binv [] 1 [{| cs_id := 0; cs_items := its; cs_trans := [] |}]).
    { constructor; try (intros; cbn in *; tauto); try reflexivity.
      - intros st [<-|[]]. reflexivity.
      - intros k H0 H3. lia. }
    destruct (binv_loop _ _ _ _ _ _ _ Hi H1) as (n & Hr).
    assert (E : cf_states c = sts).
    { unfold cfsm_build in H2. destruct (memb _ _); [|discriminate]. destruct (forallb _ _); [|discriminate]. injection H2 as <-. reflexivity. }
    rewrite E. pose proof (b_ids _ _ _ Hr) as Hl. rewrite app_nil_r in Hl. apply (f_equal (@length nat)) in Hl.
    rewrite map_length, seq_length in Hl. rewrite Hl. exact Hr.
  Qed.
End Order.

(** ** The words by which the states were made *)
Section Tree.
  Context {V T : Type} {dv : DecEq V} {dt : DecEq T}.
  Notation sym := (symbol V T).
  Notation cst := (cstate V T).
  Variable g : grammar V T.
  Hypothesis Hgood : good g.
  Variable c : cfsm V T.
  Hypothesis Hc : cfsm_ok g c.
  Hypothesis Hi : binv (cf_states c) (length (cf_states c)) [].
  Notation n := (length (cf_states c)).

  Inductive made : list sym -> nat -> Prop :=
  | made_nil : made [] 0
  | made_step : forall w s k st, made w (cs_id st) -> In st (cf_states c) -> In (s, k) (cs_trans st) -> cs_id st < k ->
      made (w ++ [s]) k.

  Lemma made_path w k : made w k -> path c 0 w k.
  Proof. induction 1; [constructor|]. econstructor; eauto. Qed.

  Lemma made_zero w : made w 0 -> w = [].
  Proof. inversion 1; subst; [reflexivity|lia]. Qed.

  Lemma made_some k : k < n -> exists w, made w k.
  Proof.
    induction k as [k IH] using lt_wf_ind. intros Hk. destruct (Nat.eq_dec k 0) as [->|H0]; [exists []; constructor|].
    destruct (b_made _ _ _ Hi k ltac:(lia) Hk) as (st & s & H1 & H2 & H3).
    destruct (IH (cs_id st) H3 ltac:(lia)) as (w & Hw). exists (w ++ [s]). econstructor; eauto.
  Qed.

  Lemma made_one w k : made w k -> forall w', made w' k -> w = w'.
  Proof.
    induction 1 as [|w s k st Hw IH H1 H2 H3]; intros w' H'.
    - symmetry. apply made_zero. auto.
    - destruct H' as [|w' s' k' st' Hw' H1' H2' H3']; [lia|].
      assert (cs_id st = cs_id st').
      { apply Nat.le_antisymm; eapply (b_mono _ _ _ Hi); eauto. }
      assert (st' = st) as -> by (apply (state_unique g c Hc); auto).
      rewrite (b_one _ _ _ Hi st s s' k') by auto. rewrite (IH w' Hw'). reflexivity.
  Qed.

  Lemma made_mono w' k' : made w' k' -> forall w k, made w k -> k <= k' -> length w <= length w'.
  Proof.
    induction 1 as [|w' s' k' st' Hw' IH H1' H2' H3']; intros w k Hw Hk.
    - assert (k = 0) as -> by lia. apply made_zero in Hw. subst. auto.
    - destruct Hw as [|w s k st Hw H1 H2 H3]; [cbn; lia|]. rewrite !app_length. cbn [length].
      assert (length w <= length w'); [|lia]. eapply IH; eauto. eapply (b_mono _ _ _ Hi); eauto.
  Qed.

  Lemma path_state w k : path c 0 w k -> exists st, In st (cf_states c) /\ cs_id st = k.
  Proof. intros H. destruct (path_items g c Hc w k H) as (st & H1 & H2 & _). eauto. Qed.

  Lemma id_less st : In st (cf_states c) -> cs_id st < n.
  Proof. intros H. apply (in_map cs_id) in H. rewrite (ok_ids _ _ Hc) in H. apply in_seq in H. lia. Qed.

  Lemma lr0_li_iff w w' : same_state g w w' <-> forall it, li g w it <-> li g w' it.
  Proof.
    split.
    - intros H it.
      assert (Hone : forall u u', same_state g u u' -> li g u it -> li g u' it).
      { intros u u' Hu Hl. pose proof (li_lr0 _ _ _ Hl) as Hd. apply Hu in Hd. apply lr0_li in Hd.
        destruct Hd as (it' & H1 & H2). replace it with it'; auto.
        pose proof (li_ok _ _ _ Hl) as (_ & Ho & _). pose proof (li_ok _ _ _ H1) as (_ & Ho' & _).
        apply dotted_inj; auto. }
      split; apply Hone; [auto|]. intros d. symmetry. apply H.
    - intros H d. split; intros Hd; apply lr0_li in Hd; destruct Hd as (it & H1 & <-); apply li_lr0; apply H; auto.
  Qed.

  (** Words to the same state are alike, words alike lead to states with the same items. *)
  Lemma path_alike w w' k : path c 0 w k -> path c 0 w' k -> same_state g w w'.
  Proof.
    intros H H'. apply lr0_li_iff. intros it.
    destruct (path_items g c Hc w k H) as (st & H1 & H2 & H3). destruct (path_items g c Hc w' k H') as (st' & H1' & H2' & H3').
    assert (st' = st) as -> by (apply (state_unique g c Hc); congruence). rewrite <- H3, <- H3'. reflexivity.
  Qed.

  Lemma snoc_alike w w' s : same_state g w w' -> same_state g (w ++ [s]) (w' ++ [s]).
  Proof.
    assert (Hone : forall w w', same_state g w w' -> forall d, lr0 g (w ++ [s]) d -> lr0 g (w' ++ [s]) d).
    { clear. intros w w' Hw d H. remember (w ++ [s]) as z eqn:E. induction H as [bd a b H1 H2|z h a v r bd a' b' H IH H1 H2|z h a s' r a' b' H IH H2].
      - destruct w; discriminate.
      - eapply lr0_close; eauto.
      - apply app_inj_tail in E. destruct E as [-> ->]. eapply lr0_goto; eauto. apply Hw. auto. }
    intros H d. split; apply Hone; auto. intros d'. symmetry. apply H.
  Qed.

  Lemma viable_path w : viable g w <-> exists k, path c 0 w k.
  Proof.
    split.
    - intros (d & H). apply lr0_li in H. destruct H as (it & H & _). eapply li_path; eauto.
    - intros (k & H). destruct (path_nonempty g Hgood c Hc w k H) as (it & Hit). exists (dotted_of it). apply li_lr0. auto.
  Qed.

  Lemma path_back w s k : path c 0 (w ++ [s]) k -> exists st, path c 0 w (cs_id st) /\ In st (cf_states c) /\ In (s, k) (cs_trans st).
  Proof.
    intros H. remember (w ++ [s]) as z eqn:E. destruct H as [i|i w' j s' k st H H1 H2 H3]; [destruct w; discriminate|].
    apply app_inj_tail in E. destruct E as [-> ->]. subst j. eauto.
  Qed.

  Lemma shortest_front w s : viable g (w ++ [s]) -> shortest g (w ++ [s]) -> shortest g w.
  Proof.
    intros Hv [_ Hs]. split.
    - apply viable_path in Hv. destruct Hv as (k & Hk). apply path_back in Hk. destruct Hk as (st & Hk & _). apply viable_path. eauto.
    - intros w' Hw. apply (snoc_alike _ _ s) in Hw. apply Hs in Hw. rewrite !app_length in Hw. cbn in Hw. lia.
  Qed.

  (** Shortest words are followed by making states. *)
  Lemma shortest_made w : shortest g w -> forall k, path c 0 w k -> made w k.
  Proof.
    induction w as [|s w IH] using rev_ind; intros Hs k Hp.
    - inversion Hp as [|i w' j s' k' st H H1 H2 H3 E]; subst; [constructor|]. destruct w'; discriminate.
    - pose proof (path_back _ _ _ Hp) as (st & H1 & H2 & H3).
      assert (Hw : made w (cs_id st)) by (apply IH; auto; apply (shortest_front w s); auto; apply viable_path; eauto).
      destruct (le_lt_dec (cs_id st) k) as [Hle|Hlt].
      + destruct (b_new _ _ _ Hi st s k H2 H3 Hle) as [Hlt _]. econstructor; eauto.
      + exfalso. pose proof (id_less _ H2) as Hn. destruct (made_some k ltac:(lia)) as (u & Hu).
        assert (length u <= length w) by (eapply made_mono; eauto; lia).
        destruct Hs as [_ Hs]. specialize (Hs u (path_alike _ _ _ Hp (made_path _ _ Hu))). rewrite app_length in Hs. cbn in Hs. lia.
  Qed.

  Lemma many_states ws : NoDup ws -> Forall (shortest g) ws -> length ws <= n.
  Proof.
    intros Hn Hf.
    assert (Hks : exists ks, Forall2 made ws ks).
    { clear Hn. induction Hf as [|w ws Hw Hf IH]; [exists []; constructor|]. destruct IH as (ks & IH).
      destruct (proj1 (viable_path w) (proj1 Hw)) as (k & Hk). exists (k :: ks). constructor; auto. apply shortest_made; auto. }
    destruct Hks as (ks & Hks).
    assert (Hlen : length ws = length ks) by (clear - Hks; induction Hks; cbn; auto).
    assert (Hnd : NoDup ks).
    { clear Hlen Hf. induction Hks as [|w k ws ks Hw Hks IH]; [constructor|]. inversion Hn as [|? ? Hx Hn']; subst.
      constructor; auto. intros Hin. apply Hx. clear - Hin Hks Hw Hi Hc.
      induction Hks as [|w' k' ws ks Hw' Hks IH]; [destruct Hin|]. destruct Hin as [->|Hin]; [|right; auto].
      left. eapply made_one; eauto. }
    rewrite Hlen, <- (seq_length n 0). apply NoDup_incl_length; auto.
    intros k Hk. clear - Hk Hks Hc dv dt. induction Hks as [|w k' ws ks Hw Hks IH]; [destruct Hk|].
    destruct Hk as [->|Hk]; auto. apply made_path, path_state in Hw. destruct Hw as (st & H1 & <-).
    apply in_seq. apply id_less in H1. lia.
  Qed.

  (** ** No state is made late *)

  Lemma first_state st : In st (cf_states c) -> exists st0, In st0 (cf_states c) /\
    (forall it, In it (cs_items st0) <-> In it (cs_items st)) /\
    forall a, In a (cf_states c) -> (forall it, In it (cs_items a) <-> In it (cs_items st)) -> cs_id st0 <= cs_id a.
  Proof.
    remember (cs_id st) as k eqn:E. revert st E. induction k as [k IH] using lt_wf_ind. intros st -> Hst.
    destruct (existsb (fun a => same_items (cs_items a) (cs_items st) && Nat.ltb (cs_id a) (cs_id st)) (cf_states c)) eqn:Ex.
    - apply existsb_exists in Ex. destruct Ex as (a & Ha & Hb). apply andb_prop in Hb. destruct Hb as [Hb1 Hb2].
      pose proof (proj1 (same_items_iff _ _) Hb1) as Hb0. clear Hb1. apply Nat.ltb_lt in Hb2. destruct (IH _ Hb2 a eq_refl Ha) as (st0 & H1 & H2 & H3).
      exists st0. split; [auto|]. split; [intros it; rewrite H2; apply Hb0|]. intros b Hb Hs. apply H3; auto. intros it. rewrite Hs. symmetry. apply Hb0.
    - exists st. split; [auto|]. split; [tauto|]. intros a Ha Hs. destruct (le_lt_dec (cs_id st) (cs_id a)) as [Hle|Hlt]; auto.
      exfalso. assert (Ht : existsb (fun a => same_items (cs_items a) (cs_items st) && Nat.ltb (cs_id a) (cs_id st)) (cf_states c) = true).
      { apply existsb_exists. exists a. split; auto. apply andb_true_intro. split; [apply (proj2 (same_items_iff _ _)); auto|apply Nat.ltb_lt; auto]. }
      congruence.
  Qed.

  Definition first_of (w : list sym) (st0 : cst) : Prop := In st0 (cf_states c) /\ (forall it, In it (cs_items st0) <-> li g w it) /\
    forall a, In a (cf_states c) -> (forall it, In it (cs_items a) <-> li g w it) -> cs_id st0 <= cs_id a.

  Lemma first_exists w : viable g w -> exists st0, first_of w st0.
  Proof.
    intros H. apply viable_path in H. destruct H as (k & H). destruct (path_items g c Hc w k H) as (st & H1 & H2 & H3).
    destruct (first_state st H1) as (st0 & Ha & Hb & Hd). exists st0. split; [auto|]. split.
    - intros it. rewrite Hb. auto.
    - intros a Hx Hy. apply Hd; auto. intros it. rewrite Hy, H3. reflexivity.
  Qed.

  Lemma first_short w : forall st0 u, first_of w st0 -> made u (cs_id st0) -> viable g w -> length u <= length w.
  Proof.
    induction w as [|s w IH] using rev_ind; intros st0 u (Hf1 & Hf2 & Hf3) Hu Hv.
    - destruct (path_items g c Hc [] 0 (path_nil _ _)) as (st & H1 & H2 & H3). specialize (Hf3 st H1 H3).
      assert (E : cs_id st0 = 0) by lia. rewrite E in Hu. apply made_zero in Hu. subst. auto.
    - destruct (proj1 (viable_path _) Hv) as (k & Hk). destruct (path_back _ _ _ Hk) as (stj & H1 & H2 & H3).
      assert (Hvw : viable g w) by (apply viable_path; eauto).
      destruct (first_exists w Hvw) as (j0 & Hj0). pose proof Hj0 as (Hj1 & Hj2 & Hj3).
      destruct (made_some (cs_id j0) (id_less _ Hj1)) as (v0 & Hv0).
      specialize (IH j0 v0 Hj0 Hv0 Hvw).
      (* the transition of the first state *)
      destruct (path_items g c Hc w _ H1) as (stj' & Hs1 & Hs2 & Hs3).
      assert (stj' = stj) as -> by (apply (state_unique g c Hc); auto).
      destruct (ok_trans _ _ Hc j0 Hj1) as (_ & Hkey & Htr). destruct (ok_trans _ _ Hc stj H2) as (_ & Hkey' & _).
      assert (Hin : In s (map fst (cs_trans j0))).
      { apply Hkey. destruct (proj1 (Hkey' s)) as (h & ib & Hx & Hy).
        - change s with (fst (s, k)). apply in_map; auto.
        - exists h, ib. split; auto. apply Hj2. apply Hs3. auto. }
      apply in_map_iff in Hin. destruct Hin as ([s' k2] & E & Hin). cbn in E. subst s'.
      assert (Hk2 : exists st2, In st2 (cf_states c) /\ cs_id st2 = k2 /\ forall it, In it (cs_items st2) <-> li g (w ++ [s]) it).
      { destruct (Htr _ _ Hin) as (its & Ha & Hb). apply (known_state c) in Ha. destruct Ha as (st2 & Ha1 & Ha2 & <-).
        exists st2. split; [auto|]. split; [auto|]. intros it. rewrite Hb. symmetry. apply li_snoc. auto. }
      destruct Hk2 as (st2 & Ht1 & Ht2 & Ht3). specialize (Hf3 st2 Ht1 Ht3). rewrite app_length. cbn [length].
      destruct (le_lt_dec (cs_id j0) k2) as [Hle|Hlt].
      + destruct (b_new _ _ _ Hi j0 s k2 Hj1 Hin Hle) as [Hlt _].
        assert (Hm : made (v0 ++ [s]) k2) by (econstructor; eauto).
        pose proof (made_mono _ _ Hm _ _ Hu ltac:(lia)) as Hl. rewrite app_length in Hl. cbn in Hl. lia.
      + pose proof (made_mono _ _ Hv0 _ _ Hu ltac:(lia)). lia.
  Qed.

  Lemma made_nearly w k : made w k -> nearly_shortest g w.
  Proof.
    intros H. split; [apply viable_path; exists k; apply made_path; auto|]. intros w' Hs.
    destruct H as [|w s k st Hw H1 H2 H3]; [cbn; lia|].
    assert (Hm : made (w ++ [s]) k) by (econstructor; eauto).
    assert (Hv : viable g (w ++ [s])) by (apply viable_path; exists k; apply made_path; auto).
    assert (Hv' : viable g w') by (destruct Hv as (d & Hd); exists d; apply Hs; auto).
    destruct (first_exists w' Hv') as (st0 & Hf). pose proof Hf as (Hf1 & Hf2 & _).
    destruct (made_some (cs_id st0) (id_less _ Hf1)) as (u & Hu).
    pose proof (first_short w' st0 u Hf Hu Hv') as Hl. rewrite app_length. cbn [length].
    assert (length w <= length u); [|lia].
    eapply made_mono; eauto. destruct (le_lt_dec (cs_id st) (cs_id st0)) as [|Hlt]; auto. exfalso.
    destruct (b_new _ _ _ Hi st s k H1 H2 ltac:(lia)) as (_ & its & Hk & Hno). rewrite app_nil_r in Hk.
    specialize (Hno st0 Hf1 Hlt).
    assert (Ht : same_items (cs_items st0) its = true); [|congruence].
    apply (proj2 (same_items_iff _ _)). intros it. rewrite Hf2, <- (proj1 (lr0_li_iff _ _) Hs it).
    destruct (path_items g c Hc _ _ (made_path _ _ Hm)) as (st2 & Hx & Hy & Hz). rewrite <- Hz.
    apply (known_state c) in Hk. destruct Hk as (st3 & Ha & Hb & <-).
    assert (st3 = st2) as -> by (apply (state_unique g c Hc); congruence). reflexivity.
  Qed.

  Lemma few_states : exists ws, NoDup ws /\ length ws = n /\ Forall (nearly_shortest g) ws.
  Proof.
    assert (Hall : forall m, m <= n -> exists ws, Forall2 made ws (seq 0 m)).
    { induction m as [|m IH]; intros Hm; [exists []; constructor|]. destruct (IH ltac:(lia)) as (ws & Hws).
      destruct (made_some m Hm) as (w & Hw). exists (ws ++ [w]). rewrite seq_S. apply Forall2_app; auto. }
    destruct (Hall n (le_n _)) as (ws & Hws). exists ws.
    assert (Hgen : forall ks, Forall2 made ws ks -> NoDup ks -> NoDup ws /\ length ws = length ks /\ Forall (nearly_shortest g) ws).
    { clear Hws Hall. induction ws as [|w ws IH]; intros ks H Hn; inversion H as [|? k ? ks' Hw Hr]; subst; [repeat constructor|].
      inversion Hn as [|? ? Hx Hn']; subst. destruct (IH _ Hr Hn') as (A & B & C). split; [|split].
      - constructor; auto. intros Hin. apply Hx. clear - Hin Hr Hw Hc dv dt. induction Hr as [|w' k' ws ks Hw' Hr IH]; [destruct Hin|].
        destruct Hin as [->|Hin]; [|right; auto]. left. apply (path_fun g c Hc 0 w); apply made_path; auto.
      - cbn. auto.
      - constructor; auto. eapply made_nearly; eauto. }
    destruct (Hgen _ Hws (seq_NoDup _ _)) as (A & B & C). rewrite seq_length in B. auto.
  Qed.
End Tree.

Section Size.
  Context {V T : Type} {dv : DecEq V} {dt : DecEq T} {ho : HashOrder}.
  Variable g : grammar V T.
  Hypothesis Hb : built g.

  Lemma states_between fuel p c : from_grammar fuel p g = Val c ->
    (forall ws, NoDup ws -> Forall (shortest g) ws -> length ws <= length (cf_states c)) /\
    exists ws, NoDup ws /\ length ws = length (cf_states c) /\ Forall (nearly_shortest g) ws.
  Proof.
    intros H. pose proof (from_grammar_binv g fuel p c H) as Hi. apply (from_grammar_answer g Hb) in H. split.
    - intros ws. apply (many_states g (built_good g Hb) c H Hi).
    - apply (few_states g (built_good g Hb) c H Hi).
  Qed.

  Lemma shortest_own_state fuel p c w w' k : from_grammar fuel p g = Val c -> shortest g w -> shortest g w' ->
    path c (cf_start c) w k -> path c (cf_start c) w' k -> w = w'.
  Proof.
    intros H Hw Hw' Hp Hp'. pose proof (from_grammar_binv g fuel p c H) as Hi. apply (from_grammar_answer g Hb) in H.
    rewrite (ok_start _ _ H) in Hp, Hp'. eapply (made_one g c H Hi); apply (shortest_made g (built_good g Hb) c H Hi); eauto.
  Qed.
End Size.
