From Verif Require Import Base GrammarModel CfsmModel SlrModel SpecCfg SpecLoose GrammarProofs SlrTable SlrNew SlrRun SlrMoves SlrSim SlrFinal.

Section Loose.
  Context {V T : Type} {dv : DecEq V} {dt : DecEq T}.
  Notation sym := (symbol V T).
  Variable teq : T -> T -> bool.
  Variable g : grammar V T.

  Lemma all_rules_spec v bd : In (v, bd) (all_rules g) <-> rule g v bd.
  Proof.
    unfold all_rules. rewrite in_flat_map. split.
    - intros ([h bds] & H1 & H2). cbn in H2. apply in_map_iff in H2. destruct H2 as (bd' & [= <- <-] & H2). exists bds. auto.
    - intros (bds & H1 & H2). exists (v, bds). split; auto. cbn. apply in_map. auto.
  Qed.

  Lemma occurrences_spec bd : forall l0 l v, In (l, v) (occurrences (V:=V) (T:=T) l0 bd) <-> exists l1 r, l = l0 ++ l1 /\ bd = l1 ++ Var v :: r.
  Proof.
    induction bd as [|s bd IH]; intros l0 l v; cbn [occurrences].
    - split; [intros []|]. intros (l1 & r & _ & E). destruct l1; discriminate.
    - rewrite in_app_iff, IH. split.
      + intros [H|(l1 & r & -> & ->)].
        * destruct s as [t|v'|]; [destruct H| |destruct H]. destruct H as [[= <- <-]|[]]. exists [], bd. rewrite app_nil_r. auto.
        * exists (s :: l1), r. rewrite <- app_assoc. auto.
      + intros (l1 & r & -> & E). destruct l1 as [|s1 l1]; injection E as -> E.
        * left. subst bd. left. rewrite app_nil_r. auto.
        * right. exists l1, r. rewrite <- app_assoc. auto.
  Qed.

  Lemma ends_spec (bd : list sym) : ends_with_terminal bd = true <-> exists b t, bd = b ++ [Ter t].
  Proof.
    unfold ends_with_terminal. split.
    - intros H. destruct (rev bd) as [|[t| |] r] eqn:E; try discriminate. exists (rev r), t.
      rewrite <- (rev_involutive bd), E. reflexivity.
    - intros (b & t & ->). rewrite rev_app_distr. reflexivity.
  Qed.

  Lemma loose_rule (u : loose_var V) bd : rule (loose g) u bd <->
    match u with
    | Input => exists b t, rule g (g_start g) (b ++ [Ter t]) /\ bd = Var (Before (g_start g)) :: map inner (b ++ [Ter t])
    | Before v => v = g_start g /\ bd = [Eps] \/ exists h l r, rule g h (l ++ Var v :: r) /\ bd = Var (Before h) :: map inner l
    | Inside v => exists bd', rule g v bd' /\ bd = map inner bd'
    end.
  Proof.
    unfold rule at 1. cbn [g_rules loose]. split.
    - intros (bds & H & Hb). rewrite !in_app_iff in H. destruct H as [H|[H|[H|H]]].
      + apply in_flat_map in H. destruct H as ([h bd'] & H1 & H2). destruct (eqb h (g_start g) && ends_with_terminal bd') eqn:E; [|destruct H2].
        destruct H2 as [[= <- <-]|[]]. destruct Hb as [<-|[]]. apply andb_prop in E. destruct E as [E1 E2]. apply eqb_eq in E1. subst h.
        apply ends_spec in E2. destruct E2 as (b & t & ->). apply all_rules_spec in H1. eauto.
      + destruct H as [[= <- <-]|[]]. destruct Hb as [<-|[]]. auto.
      + apply in_flat_map in H. destruct H as ([h bd'] & H1 & H2). apply in_map_iff in H2. destruct H2 as ([l v] & [= <- <-] & H2).
        destruct Hb as [<-|[]]. apply occurrences_spec in H2. destruct H2 as (l1 & r & -> & ->). apply all_rules_spec in H1. right. exists h, l1, r. auto.
      + apply in_map_iff in H. destruct H as ([h bd'] & [= <- <-] & H). destruct Hb as [<-|[]]. apply all_rules_spec in H. eauto.
    - destruct u as [|v|v].
      + intros (b & t & H & ->). exists [Var (Before (g_start g)) :: map inner (b ++ [Ter t])]. split; [|left; reflexivity]. apply in_app_iff. left. apply in_flat_map. exists (g_start g, b ++ [Ter t]).
        split; [apply all_rules_spec; auto|]. rewrite (proj2 (eqb_eq _ _) eq_refl). rewrite (proj2 (ends_spec _)) by eauto. left. reflexivity.
      + intros [[-> ->]|(h & l & r & H & ->)].
        * exists [[Eps]]. split; [apply in_app_iff; right; left; reflexivity|left; reflexivity].
        * exists [Var (Before h) :: map inner l]. split; [|left; reflexivity]. rewrite !in_app_iff. right. right. left. apply in_flat_map. exists (h, l ++ Var v :: r).
          split; [apply all_rules_spec; auto|]. apply in_map_iff. exists (l, v). split; auto. apply occurrences_spec. exists l, r. auto.
      + intros (bd' & H & ->). exists [map inner bd']. split; [|left; reflexivity]. rewrite !in_app_iff. right. right. right. apply in_map_iff.
        exists (v, bd'). split; auto. apply all_rules_spec. auto.
  Qed.

  Lemma leaves_inside x : leaves (inside x) = leaves (V:=V) (T:=T) x.
  Proof.
    induction x as [t|v cs IH] using tree_ind2; cbn; auto. induction IH as [|x cs Hx Hcs IH']; cbn; auto. congruence.
  Qed.
  Lemma leaves_insides xs : flat_map leaves (map inside xs) = flat_map (leaves (V:=V) (T:=T)) xs.
  Proof. induction xs as [|x xs IH]; cbn; auto. rewrite leaves_inside. congruence. Qed.

  Lemma sat_inside (s : sym) x : sat teq (inner s) (inside x) <-> sat teq s x.
  Proof. destruct s as [t|v|], x as [t'|v' cs]; cbn; try tauto. split; congruence. Qed.

  Lemma sats_inside (bd : list sym) xs : Forall2 (sat teq) (map inner bd) (map inside xs) <-> Forall2 (sat teq) bd xs.
  Proof.
    revert xs. induction bd as [|s bd IH]; intros [|x xs]; cbn; split; intros H; try (inversion H; fail); try constructor; inversion H; subst.
    - apply sat_inside; auto.
    - apply IH; auto.
    - apply sat_inside; auto.
    - apply IH; auto.
  Qed.

  Lemma filter_inner (bd : list sym) : filter not_eps (map inner bd) = map inner (filter not_eps bd).
  Proof. induction bd as [|[t|v|] bd IH]; cbn; auto; congruence. Qed.

  Lemma derivation_inside x : derivation g teq x -> derivation (loose g) teq (inside x).
  Proof.
    induction x as [t|v cs IH] using tree_ind2; intros H; [constructor|]. inversion H as [|? bd ? H1 H2 H3]; subst. cbn.
    apply derivation_branch with (bd := map inner bd).
    - apply (loose_rule (Inside v)). eauto.
    - rewrite filter_inner. apply sats_inside. auto.
    - clear - IH H3. induction IH as [|x cs Hx Hcs IH']; cbn; constructor; inversion H3; subst; auto.
  Qed.
  Lemma derivations_inside xs : Forall (derivation g teq) xs -> Forall (derivation (loose g) teq) (map inside xs).
  Proof. induction 1; cbn; constructor; auto using derivation_inside. Qed.

  Lemma inside_derivation y : derivation (loose g) teq y -> forall s, sat teq (inner s) y ->
    exists x, y = inside x /\ derivation g teq x /\ sat teq s x.
  Proof.
    induction y as [t|u cs IH] using tree_ind2; intros H s Hs.
    - exists (Leaf t). split; auto. split; [constructor|]. destruct s; cbn in *; auto.
    - destruct s as [t|v|]; cbn in Hs; try contradiction. subst u. inversion H as [|? bd ? H1 H2 H3]; subst.
      apply (loose_rule (Inside v)) in H1. destruct H1 as (bd' & H1 & ->). rewrite filter_inner in H2.
      assert (Hx : exists xs, cs = map inside xs /\ Forall (derivation g teq) xs /\ Forall2 (sat teq) (filter not_eps bd') xs).
      { clear H H1. revert cs IH H2 H3. induction (filter not_eps bd') as [|s l IHl]; intros cs IH H2 H3; inversion H2; subst.
        - exists []. repeat constructor.
        - inversion IH; inversion H3; subst. destruct (IHl l') as (xs & -> & K1 & K2); auto.
          match goal with K : derivation _ _ y -> _ |- _ => destruct (K ltac:(auto) s ltac:(auto)) as (x & -> & K3 & K4) end.
          exists (x :: xs). cbn. auto. }
      destruct Hx as (xs & -> & K1 & K2). exists (Branch v xs). split; auto. split; [|reflexivity]. eapply derivation_branch; eauto.
  Qed.
  Lemma inside_derivations ys bd : Forall (derivation (loose g) teq) ys -> Forall2 (sat teq) (map inner bd) ys ->
    exists xs, ys = map inside xs /\ Forall (derivation g teq) xs /\ Forall2 (sat teq) bd xs.
  Proof.
    revert ys. induction bd as [|s bd IH]; intros ys H1 H2; cbn in H2; inversion H2; subst.
    - exists []. repeat constructor.
    - inversion H1; subst. destruct (IH l') as (xs & -> & K1 & K2); auto.
      destruct (inside_derivation y ltac:(auto) s ltac:(auto)) as (x & -> & K3 & K4). exists (x :: xs). cbn. auto.
  Qed.

  Lemma to_node_inj (x x' : tree V T) : to_node x = to_node x' -> x = x'.
  Proof.
    revert x'. induction x as [t|v cs IH] using tree_ind2; intros [t'|v' cs'] E; cbn in E; try discriminate.
    - injection E as ->. reflexivity.
    - injection E as -> E. f_equal. apply (f_equal (@rev _)) in E. rewrite !rev_involutive in E.
      revert cs' E. induction IH as [|x cs Hx Hcs IH']; intros [|x' cs'] E; cbn in E; try discriminate; auto.
      injection E as E1 E2. f_equal; auto.
  Qed.

  Hypothesis Heps : epsilon_free g.

  Lemma lr0_before w d : lr0 g w d -> forall h a b, d = (h, a, b) -> exists w', w = w' ++ a /\ before g h w'.
  Proof.
    induction 1 as [bd a b H1 H2|w h a v r bd a' b' H IH H1 H2|w h a s r a' b' H IH H2]; intros h0 a0 b0 [= <- <- <-].
    - apply skip_eps_id in H2; [|exact (start_noeps g Heps bd H1)]. injection H2 as -> ->. exists []. split; auto. constructor.
    - apply skip_eps_id in H2; [|exact (rule_reach_noeps g Heps _ _ _ _ _ _ H H1)]. injection H2 as -> ->.
      destruct (IH _ _ _ eq_refl) as (w' & -> & Hb). exists (w' ++ a). rewrite app_nil_r. split; auto.
      eapply before_rule; [exact Hb|]. eapply lr0_rule; eauto.
    - apply skip_eps_id in H2.
      + injection H2 as -> ->. destruct (IH _ _ _ eq_refl) as (w' & -> & Hb). exists w'. rewrite <- app_assoc. auto.
      + intros Hin. apply (lr0_noeps g Heps _ _ _ _ H). apply in_app_iff. right. right. auto.
  Qed.

  Lemma before_lr0 v w bd : before g v w -> rule g v bd -> lr0 g w (v, [], bd).
  Proof.
    intros H. revert bd. induction H as [|h w l v r H IH Hr]; intros bd Hb.
    - apply (lr0_begin g Heps). auto.
    - eapply (lr0_clo g Heps); [|exact Hb]. pose proof (lr0_adv_all g Heps l _ _ _ _ (IH _ Hr)) as K. exact K.
  Qed.

  Lemma before_noeps v w : before g v w -> ~ In Eps w.
  Proof.
    induction 1 as [|h w l v r H IH Hr]; [intros []|]. intros Hi. apply in_app_iff in Hi. destruct Hi as [Hi|Hi]; [auto|].
    apply (lr0_noeps g Heps w h [] (l ++ Var v :: r)); [apply before_lr0; auto|]. cbn. apply in_app_iff. auto.
  Qed.

  Lemma before_tree v w xs : before g v w -> Forall2 (sat teq) w xs -> Forall (derivation g teq) xs ->
    exists y, derivation (loose g) teq y /\ sat teq (Var (Before v)) y /\ leaves y = flat_map leaves xs.
  Proof.
    intros H. revert xs. induction H as [|h w l v r H IH Hr]; intros xs H1 H2.
    - inversion H1; subst. exists (Branch (Before (g_start g)) []). split; [|split; reflexivity].
      apply derivation_branch with (bd := [Eps]); [apply (loose_rule (Before (g_start g))); auto|constructor|constructor].
    - apply Forall2_app_inv_l in H1. destruct H1 as (xs1 & xs2 & K1 & K2 & ->). apply Forall_app in H2. destruct H2 as [D1 D2].
      destruct (IH _ K1 D1) as (y & Y1 & Y2 & Y3). exists (Branch (Before v) (y :: map inside xs2)). split; [|split].
      + apply derivation_branch with (bd := Var (Before h) :: map inner l).
        * apply (loose_rule (Before v)). right. exists h, l, r. auto.
        * cbn. constructor; auto. rewrite filter_inner. apply sats_inside. rewrite filter_noeps; auto.
          intros Hi. apply (lr0_noeps g Heps w h [] (l ++ Var v :: r)); [apply before_lr0; auto|]. cbn. apply in_app_iff. auto.
        * constructor; auto. apply derivations_inside. auto.
      + reflexivity.
      + cbn. rewrite Y3, leaves_insides, flat_map_app. reflexivity.
  Qed.

  Lemma tree_before y : derivation (loose g) teq y -> forall v, sat teq (Var (Before v)) y ->
    exists w xs, before g v w /\ Forall2 (sat teq) w xs /\ Forall (derivation g teq) xs /\ leaves y = flat_map leaves xs.
  Proof.
    induction y as [t|u cs IH] using tree_ind2; intros H v Hs; [destruct Hs|]. cbn in Hs. subst u.
    inversion H as [|? bd ? H1 H2 H3]; subst. apply (loose_rule (Before v)) in H1. destruct H1 as [[-> ->]|(h & l & r & H1 & ->)].
    - cbn in H2. inversion H2; subst. exists [], []. repeat constructor.
    - cbn in H2. inversion H2; subst. inversion IH; inversion H3; subst.
      match goal with K : derivation _ _ y -> _ |- _ => destruct (K ltac:(auto) h ltac:(auto)) as (w & xs & B1 & B2 & B3 & B4) end.
      rewrite filter_inner in *. 
      assert (Hl : ~ In Eps l).
      { intros Hi. apply (lr0_noeps g Heps w h [] (l ++ Var v :: r)); [apply before_lr0; auto|]. cbn. apply in_app_iff. auto. }
      rewrite (filter_noeps l Hl) in *.
      destruct (inside_derivations l' l) as (xs' & -> & K1 & K2); auto.
      exists (w ++ l), (xs ++ xs'). split; [eapply before_rule; eauto|]. split; [apply Forall2_app; auto|]. split; [apply Forall_app; auto|].
      cbn. rewrite B4, leaves_insides, flat_map_app. reflexivity.
  Qed.

  Lemma accepted_loose ts cs : accepted teq g ts (Branch (g_start g) cs) <->
    exists b, parses (loose g) teq ts (Branch Input (b :: map inside cs)).
  Proof.
    split.
    - intros (w & xs & bd & b & t & ys & H1 & -> & H2 & H3 & H4 & H5 & -> & [= <-]).
      destruct (lr0_before _ _ H1 _ _ _ eq_refl) as (w' & -> & Hb). rewrite app_nil_r in H2. pose proof (lr0_rule g _ _ _ _ H1) as Hr. cbn in Hr.
      destruct (before_tree _ _ _ Hb H2 H3) as (y & Y1 & Y2 & Y3). exists y. split; [|split].
      + apply derivation_branch with (bd := Var (Before (g_start g)) :: map inner (b ++ [Ter t])).
        * apply (loose_rule Input). eauto.
        * cbn [filter not_eps]. constructor; auto. rewrite filter_inner. apply sats_inside. rewrite filter_noeps; auto. apply (start_noeps g Heps). auto.
        * constructor; auto. apply derivations_inside. auto.
      + cbn. rewrite Y3, leaves_insides. reflexivity.
      + cbn. eauto.
    - intros (b & H1 & H2 & _). inversion H1 as [|? bd ? D1 D2 D3]; subst. apply (loose_rule Input) in D1. destruct D1 as (b' & t & D1 & ->).
      cbn [filter not_eps] in D2. inversion D2; inversion D3; subst. rewrite filter_inner in *.
      rewrite filter_noeps in * by (apply (start_noeps g Heps); auto).
      match goal with K : Forall2 _ (map inner _) _ |- _ => apply sats_inside in K; rename K into Hsat end.
      destruct (tree_before b ltac:(auto) (g_start g) ltac:(auto)) as (w & xs & B1 & B2 & B3 & B4).
      exists w, xs, (b' ++ [Ter t]), b', t, cs. split; [apply before_lr0; auto|]. split; auto. split; auto. split; auto. split; auto.
      destruct (inside_derivations (map inside cs) (b' ++ [Ter t])) as (cs' & E & K1 & K2); auto; [apply sats_inside; auto|].
      split; [|split; auto].
      + clear - K1 E. revert cs E. induction K1 as [|x cs' Hx Hcs IH]; intros [|y cs] E; try discriminate; constructor.
        * injection E as E1 E2. assert (y = x) as ->; auto. clear - E1. revert y E1.
          induction x as [t|v ds IH] using tree_ind2; intros [t'|v' ds'] E; cbn in E; try discriminate; [congruence|].
          injection E as -> E. f_equal. revert ds' E. induction IH as [|x ds Hx Hds IH']; intros [|y ds'] E; try discriminate; auto.
          injection E as E1 E2. f_equal; auto.
        * injection E as E1 E2. auto.
      + cbn. rewrite B4, leaves_insides. reflexivity.
  Qed.

  Lemma loose_form ts y : parses (loose g) teq ts y -> exists b cs, y = Branch Input (b :: map inside cs).
  Proof.
    intros (H1 & _ & (cs & ->)). cbn in H1. inversion H1 as [|? bd ? D1 D2 D3]; subst. apply (loose_rule Input) in D1. destruct D1 as (b' & t & D1 & ->).
    cbn [filter not_eps] in D2. inversion D2 as [|? y ? ys S1 S2]; subst. inversion D3 as [|? ? D4 D5]; subst. rewrite filter_inner in S2.
    destruct (inside_derivations ys (filter not_eps (b' ++ [Ter t])) D5 S2) as (cs' & -> & _). exists y, cs'. reflexivity.
  Qed.

  Lemma before_again w ts x xs : before g (g_start g) w -> Forall2 (sat teq) w xs -> Forall (derivation g teq) xs ->
    accepted teq g ts x -> accepted teq g (flat_map leaves xs ++ ts) x.
  Proof.
    intros Hb Hs Hd (w' & xs' & bd & b & t & ys & H1 & H2 & H3 & H4 & H5 & H6 & -> & ->).
    destruct (lr0_before _ _ H1 _ _ _ eq_refl) as (w'' & E & Hb'). rewrite app_nil_r in E. subst w''.
    pose proof (lr0_rule g _ _ _ _ H1) as Hr. cbn in Hr.
    assert (Hc : forall v u, before g v u -> before g v (w ++ u)).
    { induction 1 as [|h u l v r K IH Kr]; [rewrite app_nil_r; auto|]. rewrite app_assoc. econstructor; eauto. }
    exists (w ++ w'), (xs ++ xs'), bd, b, t, ys. split; [apply before_lr0; auto|]. split; auto. split; [apply Forall2_app; auto|].
    split; [apply Forall_app; auto|]. split; auto. split; auto. split; auto. rewrite flat_map_app, app_assoc. reflexivity.
  Qed.

  Hypothesis Hteq : lawful teq.
  Hypothesis Hb : built g.
  Context {ho : HashOrder}.

  Lemma loose_exact fuel p tb : slr_new teq fuel p g = Val tb ->
    (forall fuel' ts n, parse teq fuel' tb ts <> Val (Some n)) \/
    (forall ts cs, (exists n, forall fuel', n <= fuel' -> parse teq fuel' tb ts = Val (Some (to_node (Branch (g_start g) cs)))) <->
       exists b, parses (loose g) teq ts (Branch Input (b :: map inside cs))) /\
    (forall ts, (exists fuel' n, parse teq fuel' tb ts = Val (Some n)) <-> exists y, parses (loose g) teq ts y).
  Proof.
    intros H. destruct (slr_new_parts teq Hteq g Hb _ _ _ H) as (c & fs & _ & Hc & Hf & Ht).
    pose proof (parse_accepted teq Hteq g (built_good g Hb) Heps c Hc fs Hf tb Ht) as Hon.
    pose proof (accepted_parse teq Hteq g (built_good g Hb) Heps c Hc fs Hf tb Ht) as Hto. cbn in Hon, Hto.
    destruct (mget (g_start g) fs) as [e|] eqn:E; [right|left; intros fuel' ts n Hp; destruct (Hon _ _ _ Hp) as (He & _); congruence].
    assert (He : Some e <> None) by discriminate.
    assert (Hform : forall ts x, accepted teq g ts x -> exists cs, x = Branch (g_start g) cs).
    { intros ts x (w & xs & bd & b & t & ys & K). exists ys. apply K. }
    split.
    - intros ts cs. rewrite <- accepted_loose. split.
      + intros (n & Hn). destruct (Hon _ _ _ (Hn n (le_n _))) as (_ & x & Ha & Ex). apply to_node_inj in Ex. subst x. exact Ha.
      + intros Ha. exact (Hto _ _ Ha ltac:(congruence)).
    - intros ts. split.
      + intros (fuel' & n & Hp). destruct (Hon _ _ _ Hp) as (_ & x & Ha & _). destruct (Hform _ _ Ha) as (cs & ->). apply accepted_loose in Ha.
        destruct Ha as (b & Ha). eauto.
      + intros (y & Hy). destruct (loose_form _ _ Hy) as (b & cs & ->). assert (Ha : accepted teq g ts (Branch (g_start g) cs)) by (apply accepted_loose; eauto).
        destruct (Hto _ _ Ha ltac:(congruence)) as (n & Hn). exists n, (to_node (Branch (g_start g) cs)). apply Hn. lia.
  Qed.

  Lemma more_before fuel p tb fuel' ts n w xs : slr_new teq fuel p g = Val tb ->
    before g (g_start g) w -> Forall2 (sat teq) w xs -> Forall (derivation g teq) xs ->
    parse teq fuel' tb ts = Val (Some n) -> exists k, forall fuel', k <= fuel' -> parse teq fuel' tb (flat_map leaves xs ++ ts) = Val (Some n).
  Proof.
    intros H Hw Hs Hd Hp. destruct (slr_new_parts teq Hteq g Hb _ _ _ H) as (c & fs & _ & Hc & Hf & Ht).
    destruct (parse_accepted teq Hteq g (built_good g Hb) Heps c Hc fs Hf tb Ht _ _ _ Hp) as (He & x & Ha & ->).
    apply (accepted_parse teq Hteq g (built_good g Hb) Heps c Hc fs Hf tb Ht); [|exact He]. eapply before_again; eauto.
  Qed.
End Loose.
