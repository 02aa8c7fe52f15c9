(** Which grammars are parsed exactly. *)
From Verif Require Import Base GrammarModel CfsmModel SlrModel SpecCfg SpecLoose GrammarProofs SlrTable SlrNew SlrRun SlrMoves SlrSim SlrTerm SlrAll
  SlrPrefix SlrFinal GrammarTotal EntryProofs LooseProofs NoEpsProofs.

Section Whole.
  Context {V T : Type} {dv : DecEq V} {dt : DecEq T}.
  Notation sym := (symbol V T).
  Variable g : grammar V T.
  Hypothesis Hb : built g.
  Let Hgood : good g := built_good g Hb.
  Variable teq : T -> T -> bool.
  Hypothesis Hteq : lawful teq.
  Hypothesis Heps : epsilon_free g.
  Hypothesis Hprod : forall v, reachable g v -> productive g v.

  Lemma step_in_context (a b x y : list sym) : step g x y -> step g (a ++ x ++ b) (a ++ y ++ b).
  Proof.
    intros [l v bd r Hr|l r].
    - replace (a ++ (l ++ Var v :: r) ++ b) with ((a ++ l) ++ Var v :: r ++ b) by (rewrite <- !app_assoc; reflexivity).
      replace (a ++ (l ++ bd ++ r) ++ b) with ((a ++ l) ++ bd ++ r ++ b) by (rewrite <- !app_assoc; reflexivity). constructor. auto.
    - replace (a ++ (l ++ Eps :: r) ++ b) with ((a ++ l) ++ Eps :: r ++ b) by (rewrite <- !app_assoc; reflexivity).
      replace (a ++ (l ++ r) ++ b) with ((a ++ l) ++ r ++ b) by (rewrite <- !app_assoc; reflexivity). constructor.
  Qed.
  Lemma steps_in_context (a b x y : list sym) : steps g x y -> steps g (a ++ x ++ b) (a ++ y ++ b).
  Proof. induction 1; [constructor|]. eapply steps_next; eauto. apply step_in_context. auto. Qed.

  (** Where [l1 ++ m ++ r1 = l ++ x :: r] has the symbol [x]. *)
  Lemma three_parts (l1 m r1 l r : list sym) x : l1 ++ m ++ r1 = l ++ x :: r ->
    (exists k, l1 = l ++ x :: k) \/ (exists k k', m = k ++ x :: k' /\ l = l1 ++ k) \/ (exists k, r1 = k ++ x :: r /\ l = l1 ++ m ++ k).
  Proof.
    revert l. induction l1 as [|s l1 IH]; cbn; intros l E.
    - right. revert l E. induction m as [|s m IHm]; cbn; intros l E.
      + right. exists l. auto.
      + destruct l as [|s' l]; injection E as -> E.
        * left. exists [], m. auto.
        * destruct (IHm _ E) as [(k & k' & -> & ->)|(k & -> & ->)]; [left; exists (s' :: k), k'; auto|right; exists k; auto].
    - destruct l as [|s' l]; injection E as -> E.
      + left. exists l1. auto.
      + destruct (IH _ E) as [(k & ->)|[(k & k' & -> & ->)|(k & -> & ->)]].
        * left. exists k. auto.
        * right. left. exists k, k'. auto.
        * right. right. exists k. auto.
  Qed.

  Lemma form_before y : steps g [Var (g_start g)] y -> forall l v r, y = l ++ Var v :: r -> exists w, before g v w /\ steps g w l.
  Proof.
    intros H. remember [Var (g_start g)] as x eqn:Ex. induction H as [x|x y z H IH Hs]; intros l v r E.
    - subst x. destruct l as [|? [|? ?]]; try discriminate. injection E as <- <-. exists []. split; constructor.
    - specialize (IH Ex). destruct Hs as [l1 h bd r1 Hr|l1 r1].
      + destruct (three_parts _ _ _ _ _ _ E) as [(k & ->)|[(k & k' & -> & ->)|(k & -> & ->)]].
        * apply (IH l v (k ++ Var h :: r1)). rewrite <- app_assoc. reflexivity.
        * destruct (IH l1 h r1 eq_refl) as (w & B & S). exists (w ++ k). split; [econstructor; eauto|]. exact (steps_in_context [] k _ _ S).
        * destruct (IH (l1 ++ Var h :: k) v r) as (w & B & S); [rewrite <- app_assoc; reflexivity|]. exists w. split; auto.
          eapply steps_next; [exact S|]. constructor. auto.
      + destruct (three_parts l1 [] r1 _ _ _ E) as [(k & ->)|[(k & k' & E' & _)|(k & -> & ->)]].
        * apply (IH l v (k ++ Eps :: r1)). rewrite <- app_assoc. reflexivity.
        * destruct k; discriminate.
        * destruct (IH (l1 ++ Eps :: k) v r) as (w & B & S); [rewrite <- app_assoc; reflexivity|]. exists w. split; auto.
          eapply steps_next; [exact S|]. cbn. constructor.
  Qed.

  Lemma before_reachable v w : before g v w -> reachable g v /\ forall u, In (Var u) w -> reachable g u.
  Proof.
    induction 1 as [|h w l v r H [I1 I2] Hr]; [split; [exists [], []; constructor|intros u []]|].
    assert (K : forall u, In (Var u) (l ++ Var v :: r) -> reachable g u) by (intros u Hu; eapply (reachable_rule g Hgood Heps); eauto).
    split; [apply K; apply in_app_iff; right; left; auto|]. intros u Hu. apply in_app_iff in Hu. destruct Hu as [Hu|Hu]; auto.
    apply K. apply in_app_iff. auto.
  Qed.

  Lemma tree_full x : derivation g teq x -> (forall v cs, x = Branch v cs -> reachable g v) -> leaves x <> [].
  Proof.
    induction x as [t|v cs IH] using tree_ind2; intros H Hv; [discriminate|]. specialize (Hv _ _ eq_refl).
    inversion H as [|? bd ? H1 H2 H3]; subst. pose proof (Heps _ _ Hv H1) as Hn. pose proof (rule_nonempty g _ _ Hgood H1) as Hne.
    rewrite filter_noeps in H2 by auto. destruct bd as [|s bd]; [congruence|]. inversion H2 as [|? y ? ys S1 S2]; subst.
    inversion IH as [|? ? I1 _]; inversion H3 as [|? ? D1 _]; subst. cbn. intros E. apply app_eq_nil in E. destruct E as [E _]. revert E. apply I1; auto.
    intros u ds ->. destruct s as [t|u'|]; cbn in S1; try contradiction. subst u'.
    eapply (reachable_rule g Hgood Heps); [exact Hv|exact H1|left; auto].
  Qed.

  Lemma trees_of (b : list sym) : (forall v, In (Var v) b -> reachable g v) -> ~ In Eps b -> exists zs, Forall2 (sat teq) b zs /\ Forall (derivation g teq) zs.
  Proof. exact (body_trees teq Hteq g Hprod b). Qed.

  Lemma body_tree bd : rule g (g_start g) bd -> exists ys, Forall2 (sat teq) bd ys /\ parses g teq (flat_map leaves ys) (Branch (g_start g) ys).
  Proof.
    intros Hr. pose proof (start_noeps g Heps bd Hr) as Hn.
    destruct (trees_of bd) as (ys & H1 & H2); auto.
    - intros v Hv. eapply (reachable_rule g Hgood Heps); [exists [], []; constructor|exact Hr|auto].
    - exists ys. split; auto. split; [|split; [reflexivity|eauto]]. econstructor; eauto. rewrite filter_noeps; auto.
  Qed.

  Definition exact_parser {ho : HashOrder} (tb : table V T) : Prop := forall ts x,
    (exists n, forall fuel, n <= fuel -> parse teq fuel tb ts = Val (Some (to_node x))) <-> parses g teq ts x.

  Lemma exact_bodies {ho : HashOrder} fuel p tb : slr_new teq fuel p g = Val tb -> exact_parser tb ->
    forall bd, rule g (g_start g) bd -> exists b t, bd = b ++ [Ter t].
  Proof.
    intros H Hx bd Hr. destruct (body_tree bd Hr) as (ys & H1 & H2). apply Hx in H2. destruct H2 as (n & Hn).
    destruct (parse_accepts_only teq Hteq g Hb fuel p tb n _ _ Heps H (Hn n (le_n _))) as (_ & x' & Ha & E). apply to_node_inj in E. subst x'.
    destruct Ha as (w & xs & bd' & b & t & ys' & _ & -> & _ & _ & H3 & _ & _ & [= <-]).
    pose proof (rule_nonempty g _ _ Hgood Hr) as Hne. destruct (exists_last Hne) as (b' & s & ->). exists b'.
    apply Forall2_app_inv_l in H3. destruct H3 as (y1 & y2 & _ & H3 & ->). inversion H3 as [|? y ? ? S1 S2]; subst. inversion S2; subst.
    destruct y as [t'|? ?]; cbn in S1; [|contradiction].
    apply Forall2_app_inv_l in H1. destruct H1 as (z1 & z2 & _ & H1 & E). inversion H1 as [|? z ? ? S3 S4]; subst. inversion S4; subst.
    apply app_inj_tail in E. destruct E as [_ <-]. destruct s as [t''|?|]; cbn in S3; try contradiction. eauto.
  Qed.

  Lemma some_sentence : exists ts x, parses g teq ts x.
  Proof.
    destruct (good_start g Hgood) as (bd & Hr). destruct (body_tree bd Hr) as (ys & _ & H). eauto.
  Qed.

  Lemma empty_steps l : steps g [] l -> l = [].
  Proof.
    intros H. remember [] as x eqn:Ex. induction H as [x|x y z H IH Hs]; auto. specialize (IH Ex). subst x.
    rewrite IH in Hs. inversion Hs as [l ? ? ? ? E|l ? E]; destruct l; discriminate.
  Qed.

  Lemma exact_front {ho : HashOrder} fuel p tb : slr_new teq fuel p g = Val tb -> exact_parser tb -> start_at_front g.
  Proof.
    intros H Hx l r Hs. destruct (form_before _ Hs _ _ _ eq_refl) as (w & Bw & Sw).
    destruct w as [|s w]; [exact (empty_steps _ Sw)|].
    exfalso. destruct (before_reachable _ _ Bw) as (_ & Hreach). pose proof (before_noeps g Heps _ _ Bw) as Hn.
    destruct (trees_of (s :: w) Hreach Hn) as (xs & X1 & X2). destruct some_sentence as (ts & x & Hp). pose proof Hp as Hp'.
    apply Hx in Hp. destruct Hp as (n & Hn'). destruct (more_before teq g Heps Hteq Hb fuel p tb n ts _ _ _ H Bw X1 X2 (Hn' n (le_n _))) as (k & Hk).
    assert (Hp2 : parses g teq (flat_map leaves xs ++ ts) x) by (apply Hx; eauto).
    destruct Hp' as (_ & L1 & _), Hp2 as (_ & L2 & _). rewrite L1 in L2. apply (f_equal (@length T)) in L2. rewrite app_length in L2.
    inversion X1 as [|? y ? ys S1 S2]; subst. inversion X2 as [|? ? D1 D2]; subst. cbn in L2. rewrite app_length in L2.
    assert (Hy : leaves y <> []).
    { apply tree_full; auto. intros v cs ->. destruct s as [t|v'|]; cbn in S1; try contradiction. subst v'. apply Hreach. left. auto. }
    destruct (leaves y); [congruence|cbn in L2; lia].
  Qed.

  Lemma ends_leaf ts x : (forall bd, rule g (g_start g) bd -> exists b t, bd = b ++ [Ter t]) -> parses g teq ts x -> ends_in_leaf x.
  Proof.
    intros H (Hd & _ & cs & ->). inversion Hd as [|? bd ? H1 H2 H3]; subst. destruct (H _ H1) as (b & t & ->).
    rewrite filter_noeps in H2 by (apply (start_noeps g Heps); auto). apply Forall2_app_inv_l in H2. destruct H2 as (y1 & y2 & _ & H2 & ->).
    inversion H2 as [|? y ? ? S1 S2]; subst. inversion S2; subst. destruct y as [t'|]; cbn in S1; [|contradiction]. exists (g_start g), y1, t'. auto.
  Qed.

  Lemma front_exact {ho : HashOrder} fuel p tb : slr_new teq fuel p g = Val tb -> start_at_front g ->
    (forall bd, rule g (g_start g) bd -> exists b t, bd = b ++ [Ter t]) -> entry_sure g (g_start g) -> exact_parser tb.
  Proof.
    intros H Hf He Hs ts x. split.
    - intros (n & Hn). destruct (parse_derivation teq Hteq g Hb fuel p tb n ts _ Heps Hf H (Hn n (le_n _))) as (x' & Hp & E).
      apply to_node_inj in E. subst x'. exact Hp.
    - intros Hp. apply (parse_complete teq Hteq g Hb fuel p tb ts x Heps H Hs Hp). eapply ends_leaf; eauto.
  Qed.

  Lemma whole_exact :
    (forall (ho : HashOrder) p, exists n tb, (forall fuel, n <= fuel -> slr_new teq fuel p g = Val tb) /\ exact_parser tb) <->
    start_at_front g /\ (forall bd, rule g (g_start g) bd -> exists b t, bd = b ++ [Ter t]) /\
    entry_sure g (g_start g) /\ ~ clash g teq True.
  Proof.
    split.
    - intros Ha. destruct (fewest g Hb [0; 1]) as (ho & fuel & fs & E & He).
      destruct (Ha ho []) as (n & tb & En & Hx). specialize (En n (le_n _)).
      assert (Hs : entry_sure g (g_start g)).
      { destruct some_sentence as (ts & x & Hp). apply Hx in Hp. destruct Hp as (k & Hk).
        destruct (new_entry g Hb teq Hteq ho n [] tb En) as (c & fs' & Ef & Hc & Hf & Ht).
        destruct (parse_accepted teq Hteq g Hgood Heps c Hc fs' Hf tb Ht _ _ _ (Hk k (le_n _))) as (Hh & _).
        assert (fs' = fs) as ->.
        { apply (follow_set_more g _ n fuel fs') in Ef. apply (follow_set_more g _ fuel n fs) in E. rewrite Nat.add_comm in E. congruence. }
        apply He. exact Hh. }
      split; [eapply exact_front; eauto|]. split; [eapply exact_bodies; eauto|]. split; [exact Hs|]. intros Hc.
      assert (Hc' : clash g teq (entry_possible g (g_start g))).
      { eapply clash_mono; [|exact Hc]. intros _. destruct (new_entry g Hb teq Hteq ho n [] tb En) as (c & fs' & Ef & _ & Hf & _).
        apply (always g Hb ho _ _ _ Ef). apply (always g Hb ho _ _ _ Ef). exact Hs. }
      apply (proj1 (some_order g Hb teq Hteq)) in Hc'. destruct Hc' as (ho' & p' & k & Hk). destruct (Ha ho' p') as (n' & tb' & En' & _).
      specialize (Hk (k + n') ltac:(lia)). rewrite En' in Hk by lia. discriminate.
    - intros (Hf & He & Hs & Hc) ho p. destruct (slr_new_total teq Hteq g Hb p) as (n & r & E & [[-> Hcl]|(tb & -> & _)]).
      + exfalso. apply Hc. eapply clash_mono; [|exact Hcl]. auto.
      + exists n, tb. split; auto. apply (front_exact n p tb (E n (le_n _))); auto.
  Qed.

  Lemma one_exact {ho : HashOrder} fuel p tb : slr_new teq fuel p g = Val tb ->
    exact_parser tb <-> start_at_front g /\ (forall bd, rule g (g_start g) bd -> exists b t, bd = b ++ [Ter t]) /\
      exists fuel' ts n, parse teq fuel' tb ts = Val (Some n).
  Proof.
    intros H. split.
    - intros Hx. split; [eapply exact_front; eauto|]. split; [eapply exact_bodies; eauto|]. destruct some_sentence as (ts & x & Hp).
      apply Hx in Hp. destruct Hp as (k & Hk). exists k, ts, (to_node x). apply Hk. lia.
    - intros (Hf & He & fuel' & ts' & n' & Hp'). destruct (slr_new_parts teq Hteq g Hb _ _ _ H) as (c & fs & _ & Hc & Hfs & Ht).
      destruct (parse_accepted teq Hteq g Hgood Heps c Hc fs Hfs tb Ht _ _ _ Hp') as (Hh & _). intros ts x. split.
      + intros (n & Hn). destruct (parse_derivation teq Hteq g Hb fuel p tb n ts _ Heps Hf H (Hn n (le_n _))) as (x' & Hp & E).
        apply to_node_inj in E. subst x'. exact Hp.
      + intros Hp. apply (accepted_parse teq Hteq g Hgood Heps c Hc fs Hfs tb Ht); auto. apply parses_accepted; auto. eapply ends_leaf; eauto.
  Qed.
End Whole.

Section All.
  Context {V T : Type} {dv : DecEq V} {dt : DecEq T}.
  Variable g : grammar V T.
  Hypothesis Hb : built g.
  Variable teq : T -> T -> bool.
  Hypothesis Hteq : lawful teq.
  Hypothesis Hprod : forall v, reachable g v -> productive g v.

  Lemma any_one_exact {ho : HashOrder} fuel p tb : slr_new teq fuel p g = Val tb ->
    exact_parser g teq tb <-> epsilon_free g /\ start_at_front g /\ (forall bd, rule g (g_start g) bd -> exists b t, bd = b ++ [Ter t]) /\
      exists fuel' ts n, parse teq fuel' tb ts = Val (Some n).
  Proof.
    intros H. split.
    - intros Hx. pose proof (exact_no_eps teq Hteq g Hb Hprod fuel p tb H Hx) as He. split; auto.
      apply (proj1 (one_exact g Hb teq Hteq He Hprod fuel p tb H)). auto.
    - intros (He & Hr). apply (proj2 (one_exact g Hb teq Hteq He Hprod fuel p tb H)). auto.
  Qed.

  Lemma any_exact :
    (forall (ho : HashOrder) p, exists n tb, (forall fuel, n <= fuel -> slr_new teq fuel p g = Val tb) /\ exact_parser g teq tb) <->
    epsilon_free g /\ start_at_front g /\ (forall bd, rule g (g_start g) bd -> exists b t, bd = b ++ [Ter t]) /\
    entry_sure g (g_start g) /\ ~ clash g teq True.
  Proof.
    split.
    - intros Ha. assert (He : epsilon_free g).
      { destruct (Ha id_order []) as (n & tb & En & Hx). exact (exact_no_eps teq Hteq g Hb Hprod n [] tb (En n (le_n _)) Hx). }
      split; auto. apply (proj1 (whole_exact g Hb teq Hteq He Hprod)). auto.
    - intros (He & Hr). apply (proj2 (whole_exact g Hb teq Hteq He Hprod)). auto.
  Qed.
End All.
