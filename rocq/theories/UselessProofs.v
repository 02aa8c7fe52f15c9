(** Which grammars without epsilon are parsed exactly, with variables that derive no text. *)
From Verif Require Import Base GrammarModel CfsmModel SlrModel SpecCfg SpecLoose SpecOutcome GrammarProofs SlrTable SlrNew SlrRun SlrMoves SlrSim SlrTerm SlrAll
  SlrPrefix SlrFinal GrammarTotal EntryProofs LooseProofs WholeProofs OutcomeProofs.

Section Useless.
  Context {V T : Type} {dv : DecEq V} {dt : DecEq T}.
  Notation sym := (symbol V T).
  Variable g : grammar V T.
  Hypothesis Hb : built g.
  Let Hgood : good g := built_good g Hb.
  Variable teq : T -> T -> bool.
  Hypothesis Hteq : lawful teq.
  Hypothesis Heps : epsilon_free g.

  (** The start variable stands only at the front, as far as texts can be before it. *)
  Definition front : Prop := forall l r, steps g [Var (g_start g)] (l ++ Var (g_start g) :: r) -> all_productive g l -> l = [].
  Definition ends : Prop := forall bd, rule g (g_start g) bd -> all_productive g bd -> exists b t, bd = b ++ [Ter t].


  Lemma all_of (w : list sym) xs : Forall2 (sat teq) w xs -> Forall (derivation g teq) xs -> all_productive g w.
  Proof.
    intros H1 H2 v Hin. induction H1 as [|s x w xs Hs H1 IH]; [destruct Hin|]. inversion H2 as [|? ? D1 D2]; subst.
    destruct Hin as [->|Hin]; [|auto]. exact (tree_steps teq g x D1 _ Hs).
  Qed.

  Lemma before_trees w l : before g (g_start g) w -> steps g w l -> all_productive g l ->
    exists xs, Forall2 (sat teq) w xs /\ Forall (derivation g teq) xs.
  Proof.
    intros Hw Hs Hl. destruct (productive_read teq Hteq g (filter not_eps l)) as (ls & L1 & L2).
    - intros v Hv. apply filter_In in Hv. apply Hl. tauto.
    - intros Hv. apply filter_In in Hv. destruct Hv as [_ Hv]. discriminate.
    - destruct (steps_forest teq g w l Hs) as (xs & X1 & X2); [exists ls; auto|]. exists xs. split; auto.
      rewrite filter_noeps in X1; auto. exact (before_noeps g Heps _ _ Hw).
  Qed.

  Lemma productive_sentence : productive g (g_start g) -> exists ts x, parses g teq ts x.
  Proof.
    intros H. destruct (productive_tree teq Hteq g _ H) as (x & Hd & Hs). destruct x as [t|v cs]; [destruct Hs|]. cbn in Hs. subst v.
    exists (leaves (Branch (g_start g) cs)), (Branch (g_start g) cs). split; [auto|split; [reflexivity|eauto]].
  Qed.

  Lemma body_sentence bd : rule g (g_start g) bd -> all_productive g bd ->
    exists ys, Forall2 (sat teq) bd ys /\ parses g teq (flat_map leaves ys) (Branch (g_start g) ys).
  Proof.
    intros Hr Hp. pose proof (start_noeps g Heps bd Hr) as Hn. destruct (productive_read teq Hteq g bd Hp Hn) as (ys & H1 & H2).
    exists ys. split; auto. split; [|split; [reflexivity|eauto]]. econstructor; eauto. rewrite filter_noeps; auto.
  Qed.

  Lemma exact_ends {ho : HashOrder} fuel p tb : slr_new teq fuel p g = Val tb -> exact_parser g teq tb -> ends.
  Proof.
    intros H Hx bd Hr Hp. destruct (body_sentence bd Hr Hp) as (ys & H1 & H2). apply Hx in H2. destruct H2 as (n & Hn).
    destruct (parse_accepts_only teq Hteq g Hb fuel p tb n _ _ Heps H (Hn n (le_n _))) as (_ & x' & Ha & E). apply to_node_inj in E. subst x'.
    destruct Ha as (w & xs & bd' & b & t & ys' & _ & -> & _ & _ & H3 & _ & _ & [= <-]).
    pose proof (rule_nonempty g _ _ Hgood Hr) as Hne. destruct (exists_last Hne) as (b' & s & ->). exists b'.
    apply Forall2_app_inv_l in H3. destruct H3 as (y1 & y2 & _ & H3 & ->). inversion H3 as [|? y ? ? S1 S2]; subst. inversion S2; subst.
    destruct y as [t'|? ?]; cbn in S1; [|contradiction].
    apply Forall2_app_inv_l in H1. destruct H1 as (z1 & z2 & _ & H1 & E). inversion H1 as [|? z ? ? S3 S4]; subst. inversion S4; subst.
    apply app_inj_tail in E. destruct E as [_ <-]. destruct s as [t''|?|]; cbn in S3; try contradiction. eauto.
  Qed.

  Lemma exact_only_front {ho : HashOrder} fuel p tb : slr_new teq fuel p g = Val tb -> exact_parser g teq tb -> productive g (g_start g) -> front.
  Proof.
    intros H Hx Hpr l r Hs Hl. destruct (form_before g _ Hs _ _ _ eq_refl) as (w & Bw & Sw).
    destruct w as [|s w]; [exact (empty_steps g _ Sw)|]. exfalso.
    destruct (before_trees _ _ Bw Sw Hl) as (xs & X1 & X2). destruct (before_reachable g Hb Heps _ _ Bw) as (_ & Hreach).
    destruct (productive_sentence Hpr) as (ts & x & Hp). pose proof Hp as Hp'.
    apply Hx in Hp. destruct Hp as (n & Hn'). destruct (more_before teq g Heps Hteq Hb fuel p tb n ts _ _ _ H Bw X1 X2 (Hn' n (le_n _))) as (k & Hk).
    assert (Hp2 : parses g teq (flat_map leaves xs ++ ts) x) by (apply Hx; eauto).
    destruct Hp' as (_ & L1 & _), Hp2 as (_ & L2 & _). rewrite L1 in L2. apply (f_equal (@length T)) in L2. rewrite app_length in L2.
    inversion X1 as [|? y ? ys S1 S2]; subst. inversion X2 as [|? ? D1 D2]; subst. cbn in L2. rewrite app_length in L2.
    assert (Hy : leaves y <> []).
    { apply (tree_full g Hb teq Heps); auto. intros v cs ->. destruct s as [t|v'|]; cbn in S1; try contradiction. subst v'. apply Hreach. left. auto. }
    destruct (leaves y); [congruence|cbn in L2; lia].
  Qed.

  Lemma sentence_accepted ts x : ends -> parses g teq ts x -> accepted teq g ts x.
  Proof.
    intros He Hp. apply parses_accepted; auto. destruct Hp as (Hd & _ & cs & ->). inversion Hd as [|? bd ? H1 H2 H3]; subst.
    rewrite filter_noeps in H2 by (apply (start_noeps g Heps); auto). destruct (He _ H1 (all_of _ _ H2 H3)) as (b & t & ->).
    apply Forall2_app_inv_l in H2. destruct H2 as (y1 & y2 & _ & H2 & ->).
    inversion H2 as [|? y ? ? S1 S2]; subst. inversion S2; subst. destruct y as [t'|]; cbn in S1; [|contradiction]. exists (g_start g), y1, t'. auto.
  Qed.

  Lemma accepted_sentence ts x : front -> accepted teq g ts x -> parses g teq ts x.
  Proof.
    intros Hf (w & xs & bd & b & t & ys & Hl & -> & H1 & H2 & H3 & H4 & -> & ->).
    pose proof (lr0_rule g _ _ _ _ Hl) as Hr. pose proof (start_noeps g Heps _ Hr) as Hn.
    destruct (lr0_sentential g Heps _ _ _ _ Hl) as (w' & r & -> & Hs). rewrite app_nil_r in *.
    pose proof (Hf _ _ Hs (all_of _ _ H1 H2)) as E. subst w'.
    inversion H1; subst. split; [|split; [reflexivity|eauto]]. econstructor; eauto. rewrite filter_noeps; auto.
  Qed.

  Lemma accepted_productive ts x : accepted teq g ts x -> productive g (g_start g).
  Proof.
    intros (w & xs & bd & b & t & ys & Hl & -> & H1 & H2 & H3 & H4 & -> & ->).
    pose proof (lr0_rule g _ _ _ _ Hl) as Hr. pose proof (start_noeps g Heps _ Hr) as Hn.
    apply (tree_steps teq g (Branch (g_start g) ys)); [|reflexivity]. econstructor; eauto. rewrite filter_noeps; auto.
  Qed.

  Lemma useless_one {ho : HashOrder} fuel p tb : slr_new teq fuel p g = Val tb ->
    exact_parser g teq tb <-> (productive g (g_start g) -> front /\ ends /\ exists fuel' ts n, parse teq fuel' tb ts = Val (Some n)).
  Proof.
    intros H. split.
    - intros Hx Hpr. split; [eapply exact_only_front; eauto|]. split; [eapply exact_ends; eauto|]. destruct (productive_sentence Hpr) as (ts & x & Hp).
      apply Hx in Hp. destruct Hp as (k & Hk). exists k, ts, (to_node x). apply Hk. lia.
    - intros Hr ts x. split.
      + intros (n & Hn). destruct (slr_new_parts teq Hteq g Hb _ _ _ H) as (c & fs & _ & Hc & Hfs & Ht).
        destruct (parse_accepted teq Hteq g Hgood Heps c Hc fs Hfs tb Ht _ _ _ (Hn n (le_n _))) as (_ & x' & Ha & E). apply to_node_inj in E. subst x'.
        apply accepted_sentence; auto. apply Hr. eapply accepted_productive; eauto.
      + intros Hp. assert (Hpr : productive g (g_start g)).
        { destruct Hp as (Hd & _ & cs & ->). apply (tree_steps teq g _ Hd). reflexivity. }
        destruct (Hr Hpr) as (Hf & He & fuel' & ts' & n' & Hp'). destruct (slr_new_parts teq Hteq g Hb _ _ _ H) as (c & fs & _ & Hc & Hfs & Ht).
        destruct (parse_accepted teq Hteq g Hgood Heps c Hc fs Hfs tb Ht _ _ _ Hp') as (Hh & _).
        apply (accepted_parse teq Hteq g Hgood Heps c Hc fs Hfs tb Ht); auto. apply sentence_accepted; auto.
  Qed.

  Lemma useless_all :
    (forall (ho : HashOrder) p, exists n tb, (forall fuel, n <= fuel -> slr_new teq fuel p g = Val tb) /\ exact_parser g teq tb) <->
    ~ clash g teq (entry_possible g (g_start g)) /\ (productive g (g_start g) -> front /\ ends /\ entry_sure g (g_start g)).
  Proof.
    split.
    - intros Ha. split.
      + intros Hc. apply (proj1 (some_order g Hb teq Hteq)) in Hc. destruct Hc as (ho' & p' & k & Hk). destruct (Ha ho' p') as (n' & tb' & En' & _).
        specialize (Hk (k + n') ltac:(lia)). rewrite En' in Hk by lia. discriminate.
      + intros Hpr. destruct (fewest g Hb [0; 1]) as (ho & fuel & fs & E & He).
        destruct (Ha ho []) as (n & tb & En & Hx). specialize (En n (le_n _)).
        split; [eapply exact_only_front; eauto|]. split; [eapply exact_ends; eauto|].
        destruct (productive_sentence Hpr) as (ts & x & Hp). apply Hx in Hp. destruct Hp as (k & Hk).
        destruct (new_entry g Hb teq Hteq ho n [] tb En) as (c & fs' & Ef & Hc & Hf & Ht).
        destruct (parse_accepted teq Hteq g Hgood Heps c Hc fs' Hf tb Ht _ _ _ (Hk k (le_n _))) as (Hh & _).
        assert (fs' = fs) as ->.
        { apply (follow_set_more g _ n fuel fs') in Ef. apply (follow_set_more g _ fuel n fs) in E. rewrite Nat.add_comm in E. congruence. }
        apply He. exact Hh.
    - intros (Hc & Hr) ho p. destruct (slr_new_total teq Hteq g Hb p) as (n & r & E & [[-> Hcl]|(tb & -> & _)]).
      + exfalso. apply Hc. exact Hcl.
      + exists n, tb. split; auto. apply (useless_one n p tb (E n (le_n _))). intros Hpr. destruct (Hr Hpr) as (Hf & He & Hs). split; auto. split; auto.
        destruct (productive_sentence Hpr) as (ts & x & Hp).
        destruct (proj1 (parse_exact teq Hteq g Hb n p tb ts x Heps (E n (le_n _)) Hs) (sentence_accepted _ _ He Hp)) as (k & Hk).
        exists k, ts, (to_node x). apply Hk. lia.
  Qed.
End Useless.
