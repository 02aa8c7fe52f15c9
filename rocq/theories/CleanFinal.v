(** Proofs for C100: the builder takes the clean grammar, and with an end token it is parsed
    exactly. *)
From Verif Require Import Base GrammarModel CfsmModel SlrModel SpecCfg SpecWrap SpecClean GrammarProofs FirstProofs FollowProofs SlrRun SlrMoves
  SlrTerm SlrNew SlrFinal SlrLinear WrapProofs CleanProofs.
From Coq Require Import Lia.

Section Builder.
  Context {V T : Type} {dv : DecEq V} {dt : DecEq T}.
  Variable teq : T -> T -> bool.
  Hypothesis Hteq : lawful teq.

  Lemma in_call_rules (cs : list (call V T)) v bd : In (v, bd) (call_rules cs) <-> added cs v bd.
  Proof.
    unfold call_rules, added. rewrite in_flat_map. split.
    - intros ([u|u b] & Hi & H); [destruct H|]. destruct H as [[= <- <-]|[]]. eauto.
    - intros (b & Hi & ->). exists (CallRule v b). split; auto. left. auto.
  Qed.

  Definition R (cs : list (call V T)) (g : grammar V T) : V -> body V T -> Prop := R3 teq g (call_rules cs) (g_start g).

  Lemma added_cleaned cs (g : grammar V T) : build (do_calls cs) = Val g ->
    (forall v bd, In (v, bd) (call_rules cs) <-> rule g v bd) /\ last_start (cleaned cs) = Some (g_start g) /\
    forall v bd, added (cleaned cs) v bd <-> R cs g v bd.
  Proof.
    intros H. destruct (build_rules _ _ H) as [Hs Hr].
    assert (Hrs : forall v bd, In (v, bd) (call_rules cs) <-> rule g v bd) by (intros v bd; rewrite in_call_rules, Hr; reflexivity).
    split; auto. unfold cleaned. rewrite Hs. split.
    - cbn [last_start]. replace (last_start (map _ _)) with (@None V); auto.
      match goal with |- None = last_start (map _ ?l) => generalize l end. intros l. induction l; cbn; auto.
    - intros v bd. unfold R. rewrite <- (needed_R3 teq g (call_rules cs) Hrs (g_start g)). unfold added. split.
      + intros (b & [E|Hi] & ->); [discriminate|]. apply in_map_iff in Hi. destruct Hi as ([u b'] & [= -> ->] & Hi). cbn [fst snd] in *.
        destruct b as [|s b]; [|exact Hi]. apply (needed_R3 teq g (call_rules cs) Hrs (g_start g)) in Hi.
        destruct Hi as [[(b0 & _ & _ & N) _] _]. contradiction.
      + intros Hi. exists bd. split; [right; apply in_map_iff; exists (v, bd); auto|].
        apply (needed_R3 teq g (call_rules cs) Hrs (g_start g)) in Hi. destruct Hi as [[(b0 & _ & _ & N) _] _]. destruct bd; [contradiction|auto].
  Qed.

  Lemma cleaned_build cs (g : grammar V T) : build (do_calls cs) = Val g ->
    ((exists ts x, ts <> [] /\ parses g teq ts x) -> exists g', build (do_calls (cleaned cs)) = Val g') /\
    (forall g', build (do_calls (cleaned cs)) = Val g' -> g_start g' = g_start g /\ (forall v bd, rule g' v bd <-> R cs g v bd) /\
       exists ts x, ts <> [] /\ parses g teq ts x).
  Proof.
    intros H. destruct (added_cleaned cs g H) as (Hrs & Hl & Ha). split.
    - intros (ts & x & N & Hp). apply build_ok. exists (g_start g). split; auto.
      assert (Hhas : forall v, fert (call_rules cs) v -> need (call_rules cs) (g_start g) v -> has_rule (cleaned cs) v).
      { intros v Hf Hn. destruct (R3_rule teq Hteq g _ Hrs (g_start g) v Hf Hn) as (bd & Hb). exists bd. apply Ha. exact Hb. }
      split.
      + apply Hhas; [|apply need_start]. destruct Hp as (D & L & cs0 & E). destruct (pruned_shape x) as [Ex|(y & Ex)].
        * apply pruned_nil in Ex. congruence.
        * destruct (prune_der teq g x D y) as [Dy Sy]; [rewrite Ex; left; auto|]. eapply der_R2; eauto. apply Sy. rewrite E. reflexivity.
      + intros v bd u Hb Hu. apply Ha in Hb. apply Hhas; [apply Hb; auto|]. exact (need_next teq g _ Hrs (g_start g) v bd u Hb Hu).
    - intros g' H'. destruct (build_rules _ _ H') as [Hs' Hr']. assert (Es : g_start g' = g_start g) by congruence. split; auto.
      assert (HR : forall v bd, rule g' v bd <-> R cs g v bd) by (intros v bd; rewrite Hr'; apply Ha). split; auto.
      destruct (good_start _ (built_good g' (ex_intro _ _ H'))) as (bd & Hb). apply HR in Hb. rewrite Es in Hb. destruct Hb as [H2 _].
      apply R2_fert in H2; auto. apply (fert_tree teq Hteq g _ Hrs) in H2. destruct H2 as (y & Dy & Sy).
      destruct (der_prune teq g y Dy) as (x & Dx & Px & Sx). exists (leaves x), x. split.
      + rewrite <- (pruned_leaves x), Px. cbn. rewrite app_nil_r. apply (pruned_full x). rewrite Px. left. auto.
      + split; auto. split; auto. apply Sx in Sy. destruct x as [t|u xs]; [contradiction|]. cbn in Sy. subst u. eauto.
  Qed.

  Lemma cleaned_ok cs (g g' : grammar V T) : build (do_calls cs) = Val g -> build (do_calls (cleaned cs)) = Val g' ->
    clean g' /\ g_start g' = g_start g /\
    (forall ts x, parses g teq ts x -> ts <> [] -> exists y, pruned x = [y] /\ parses g' teq ts y) /\
    (forall ts y, parses g' teq ts y -> ts <> [] /\ exists x, parses g teq ts x /\ pruned x = [y]) /\
    (forall x y, steps g' x y -> steps g x y).
  Proof.
    intros H H'. destruct (added_cleaned cs g H) as (Hrs & _ & _). destruct (proj2 (cleaned_build cs g H) g' H') as (Es & HR & _). unfold R in HR.
    split; [exact (g'_clean teq Hteq g _ Hrs _ g' HR Es)|]. split; auto. split; [|split].
    - intros ts x Hp N. exact (cleaned_parses teq g _ Hrs _ g' HR Es eq_refl ts x Hp N).
    - intros ts y Hp. split; [exact (cleaned_full teq g _ _ g' HR Es eq_refl ts y Hp)|].
      exact (parses_cleaned teq g _ _ g' HR Es eq_refl ts y Hp).
    - exact (cleaned_steps teq g _ _ g' HR).
  Qed.
End Builder.

(** ** Grammars whose sentences end with a token *)
Section Ended.
  Context {V T : Type} {dv : DecEq V} {dt : DecEq T} {ho : HashOrder}.
  Variable teq : T -> T -> bool.
  Hypothesis Hteq : lawful teq.
  Variable w : grammar V T.
  Hypothesis Hb : built w.
  Hypothesis Hclean : clean w.
  Hypothesis Hfront : start_at_front w.
  Hypothesis Hentry : entry_sure w (g_start w).
  Hypothesis Hends : forall ts y, parses w teq ts y -> ends_in_leaf y.
  Hypothesis Hforms : forall x, steps w [Var (g_start w)] x -> x = [Var (g_start w)] \/ exists l t, x = l ++ [Ter t].

  Lemma clean_forms x : steps w [Var (g_start w)] x -> ~ In Eps x /\ forall u, In (Var u) x -> exists bu, rule w u bu.
  Proof. exact (forms_fine w Hb Hclean x). Qed.

  Lemma some_follow v bd : rule w v bd -> v = g_start w \/ exists t, followed_by w v t.
  Proof.
    intros Hr. destruct Hclean as (Hf & Ha & Hp). pose proof (built_good w Hb) as Hg. destruct (Ha _ _ Hr) as (l & r & H).
    pose proof (good_start _ Hg) as Hst.
    destruct r as [|c r].
    - destruct (Hforms _ H) as [E|(l' & t & E)].
      + left. destruct l as [|c l]; [cbn in E; injection E as E; auto|]. destruct l; discriminate.
      + exfalso. apply app_inj_tail in E. destruct E as [_ E]. discriminate.
    - right. destruct (clean_forms _ H) as [H1 H2]. destruct c as [t|u|].
      + exists t, (g_start w), l, r. auto.
      + destruct (H2 u) as (bu & Hu); [apply in_app_iff; cbn; auto|]. destruct (Hp _ _ Hu) as ([|t ts] & Hs).
        * exfalso. assert (Hn : nullb w [Var u]) by (apply null_steps; exact Hs).
          apply (null_empty w Hg Hf) in Hn; [discriminate|intros [?|[]]; discriminate|]. intros y [[= <-]|[]]. eapply Ha; eauto.
        * exists t, (g_start w), l, (map Ter ts ++ r). split; auto. eapply steps_trans; [exact H|].
          pose proof (steps_ctx w (l ++ [Var v]) r _ _ Hs) as Hc. rewrite <- !app_assoc in Hc. exact Hc.
      + exfalso. apply H1. apply in_app_iff. cbn. auto.
  Qed.

  Lemma ended_exact fuel p tb ts : slr_new teq fuel p w = Val tb ->
    let turns := (2 * length ts + 1) * (length (g_rules w) + 1) + 1 in
    (exists y, parses w teq ts y /\ (forall y', parses w teq ts y' -> y' = y) /\
       forall fuel', turns <= fuel' -> parse teq fuel' tb ts = Val (Some (to_node y))) \/
    ((forall y, ~ parses w teq ts y) /\ forall fuel', turns <= fuel' -> parse teq fuel' tb ts = Val None).
  Proof.
    intros H turns. pose proof Hclean as (Hf & Ha & Hp).
    assert (Hlin : forall fuel', turns <= fuel' -> parse teq fuel' tb ts = parse teq turns tb ts).
    { intros fuel' Hle. apply (parse_linear teq Hteq w Hb fuel p tb ts fuel' H). exact Hle. }
    destruct (parse_terminates teq Hteq w Hb fuel p tb ts Hf (or_introl Ha) H) as (n & r & Nr & Hr).
    assert (Er : parse teq turns tb ts = r).
    { rewrite <- (Hlin (Nat.max n turns)) by lia. apply Hr. lia. }
    destruct r as [[nd|]| |]; [left|right| |contradiction].
    - destruct (parse_derivation teq Hteq w Hb _ _ _ _ _ _ Hf Hfront H Er) as (y & Hy & ->).
      exists y. split; auto. split; [|intros fuel' Hle; rewrite (Hlin _ Hle), Er; reflexivity].
      intros y' Hy'. exact (ended_sentences_unique teq Hteq w Hb fuel p tb ts y' y Hf H Hy' Hy (Hends _ _ Hy') (Hends _ _ Hy)).
    - split; [|intros fuel' Hle; rewrite (Hlin _ Hle); exact Er]. intros y Hy.
      destruct (parse_complete teq Hteq w Hb _ _ _ _ _ Hf H Hentry Hy (Hends _ _ Hy)) as (m & Hm).
      rewrite <- (Hlin (Nat.max m turns)) in Er by lia. rewrite Hm in Er by lia. discriminate.
    - exfalso. revert Er. exact (parse_no_panic teq Hteq w Hb fuel p tb turns ts Hf Ha Hp some_follow Hentry H).
  Qed.
End Ended.

Section Final.
  Context {V T : Type} {dv : DecEq V} {dt : DecEq T}.
  Variable teq : T -> T -> bool.
  Hypothesis Hteq : lawful teq.
  Variables (cs : list (call V T)) (g : grammar V T) (z : V) (e o : T).
  Hypothesis Hg : build (do_calls cs) = Val g.
  Hypothesis Hz : fresh_variable g z.
  Notation wcs := (wrapped cs (g_start g) z e o).

  Lemma ended_builds : (exists ts x, parses g teq ts x) <-> exists w, build (do_calls (cleaned wcs)) = Val w.
  Proof.
    destruct (build_wrapped cs g z e o Hg) as (g1 & E1 & Es & Hr).
    assert (Hz1 : fresh_variable g (g_start g1)) by (rewrite Es; auto).
    assert (Hr1 : forall v bd, rule g1 v bd <-> rule g v bd \/ (v = g_start g1 /\ (bd = [Var (g_start g); Ter e] \/ bd = [Var (g_start g1); Ter o])))
      by (intros v bd; rewrite Hr, Es; reflexivity).
    destruct (cleaned_build teq Hteq wcs g1 E1) as [B1 B2]. split.
    - intros (ts & x & D & L & xs & ->). apply B1. exists (ts ++ [e]), (Branch z [Branch (g_start g) xs; Leaf e]). split; [destruct ts; discriminate|].
      split; [|split].
      + econstructor; [apply Hr; right; split; [reflexivity|left; reflexivity]| |].
        * cbn. constructor; [reflexivity|]. constructor; [apply (proj1 Hteq)|constructor].
        * constructor; [|repeat constructor]. eapply derivation_up; eauto.
      + cbn [leaves flat_map]. rewrite app_nil_r. cbn [leaves] in L. rewrite L. reflexivity.
      + rewrite Es. eauto.
    - intros (w & Hw). destruct (B2 w Hw) as (_ & _ & ts & x & _ & D & _ & xs & ->). rewrite Es in D.
      clear - D Hr Hz Hg Hr1 Hz1 Es.
      assert (Hmain : forall x, derivation g1 teq x -> (exists xs, x = Branch z xs) -> exists ts x', parses g teq ts x').
      { clear D xs. induction x as [t|v xs IH] using tree_ind2; intros D (ys & E); [discriminate|]. injection E as -> <-.
        inversion D as [|v' bd cs' H1 H2 H3]; subst v' cs'. apply Hr in H1. destruct H1 as [H1|(_ & [->| ->])].
        - destruct (Hz _ _ H1). contradiction.
        - cbn in H2. inversion H2 as [|? x ? ? Hx _]; subst. inversion H3 as [|? ? D1 _]; subst. destruct x as [t|u us]; [contradiction|].
          cbn in Hx. subst u. exists (leaves (Branch (g_start g) us)), (Branch (g_start g) us). split; [|split; eauto].
          apply (derivation_down teq g g1 e o Hr1 Hz1); [|exact D1].
          cbn. apply (s_not_z g g1 (ex_intro _ _ Hg) Hz1).
        - cbn in H2. inversion H2 as [|? x ? ? Hx _]; subst. inversion H3 as [|? ? D1 _]; subst. inversion IH as [|? ? F1 _]; subst.
          apply F1; auto. destruct x as [t|u us]; [contradiction|]. cbn in Hx. subst u. eauto. }
      eapply Hmain; eauto.
  Qed.

  Lemma ended_parse {ho : HashOrder} w fuel p tb us : build (do_calls (cleaned wcs)) = Val w -> slr_new teq fuel p w = Val tb ->
    (forall t, In t us -> teq o t = false) ->
    let turns := (2 * length us + 1) * (length (g_rules w) + 1) + 1 in
    (exists ks e' ys, us = ks ++ [e'] /\ teq e e' = true /\ (exists x, parses g teq ks x) /\ (forall x, parses g teq ks x -> pruned x = ys) /\
       forall fuel', turns <= fuel' -> parse teq fuel' tb us = Val (Some (Node (Var z) (Node (Ter e') [] :: map to_node ys)))) \/
    ((forall ks e' x, us = ks ++ [e'] -> teq e e' = true -> ~ parses g teq ks x) /\
     forall fuel', turns <= fuel' -> parse teq fuel' tb us = Val None).
  Proof.
    intros Hw Hn Hus turns.
    destruct (build_wrapped cs g z e o Hg) as (g1 & E1 & Es & Hr).
    assert (Hz1 : fresh_variable g (g_start g1)) by (rewrite Es; auto).
    assert (Hr1 : forall v bd, rule g1 v bd <-> rule g v bd \/ (v = g_start g1 /\ (bd = [Var (g_start g); Ter e] \/ bd = [Var (g_start g1); Ter o])))
      by (intros v bd; rewrite Hr, Es; reflexivity).
    assert (Hb0 : built g) by (eexists; eauto). assert (Hb1 : built g1) by (eexists; eauto). assert (Hbw : built w) by (eexists; eauto).
    destruct (cleaned_ok teq Hteq wcs g1 w E1 Hw) as (Hclean & Esw & Hto & Hfrom & Hst).
    destruct (cleaned_build teq Hteq wcs g1 E1) as [_ B2]. destruct (B2 w Hw) as (_ & HR & _).
    assert (Hfront : start_at_front w).
    { intros l r H. apply Hst in H. rewrite Esw in H. exact (front g g1 e o Hb0 Hr1 Hz1 l r H). }
    assert (Hprune : forall v (xs : list (tree V T)) t, pruned (Branch v (xs ++ [Leaf t])) = [Branch v (flat_map pruned xs ++ [Leaf t])]).
    { intros v xs t. rewrite pruned_branch; rewrite flat_map_app; [reflexivity|]. cbn. destruct (flat_map pruned xs); discriminate. }
    assert (Hends : forall ts y, parses w teq ts y -> ends_in_leaf y).
    { intros ts y Hy. destruct (Hfrom _ _ Hy) as (_ & x & Hx & Px). destruct (wrapped_ends teq g g1 e o Hr1 Hz1 ts x Hx) as (v & xs & t & ->).
      rewrite Hprune in Px. injection Px as <-. exists v, (flat_map pruned xs), t. reflexivity. }
    assert (Hforms : forall x, steps w [Var (g_start w)] x -> x = [Var (g_start w)] \/ exists l t, x = l ++ [Ter t]).
    { intros x H. apply Hst in H. rewrite Esw in *.
      assert (Htail : forall l (n : nat) t, exists l' t', l ++ Ter t :: map (@Ter V T) (repeat o n) = l' ++ [Ter t']).
      { intros l n t. revert l t. induction n as [|n IH]; intros l t; [exists l, t; reflexivity|]. cbn.
        destruct (IH (l ++ [Ter t]) o) as (l' & t' & E). exists l', t'. rewrite <- E, <- app_assoc. reflexivity. }
      destruct (steps_form g g1 e o Hb0 Hr1 Hz1 x H) as [(n & ->)|(a & n & -> & _)].
      - destruct n as [|n]; [left; reflexivity|right]. exact (Htail [Var (g_start g1)] n o).
      - right. apply Htail. }
    assert (Hentry : entry_sure w (g_start w)).
    { left. exists (g_start w), [], [Ter o]. split; [|discriminate]. rewrite Esw. apply HR.
      destruct (good_start _ (built_good w Hbw)) as (bd & Hbd). apply HR in Hbd. rewrite Esw in Hbd. destruct Hbd as [H2 Hneed].
      destruct (added_cleaned teq wcs g1 E1) as (Hrs & _ & _).
      split; [|exact Hneed]. split.
      - exists [Var (g_start g1); Ter o]. split; [apply Hr1; auto|]. split; [|discriminate]. apply keeps_all. intros [|[|[]]]; discriminate.
      - intros x [[= <-]|[|[]]]; [|discriminate]. eapply R2_fert; eauto. }
    destruct (ended_exact teq Hteq w Hbw Hclean Hfront Hentry Hends Hforms fuel p tb us Hn) as [(y & Hy & Hu & Hp)|(Hno & Hp)]; [left|right].
    - destruct (Hfrom _ _ Hy) as (_ & x & Hx & Px).
      apply (parses_unsent teq g g1 e o Hb0 Hr1 Hz1 us x Hus) in Hx. destruct Hx as (ks & e' & x0 & -> & Ee & Hx0 & ->).
      assert (Hpx : forall x1, pruned (Branch (g_start g1) [x1; Leaf e']) = [Branch (g_start g1) (pruned x1 ++ [Leaf e'])]).
      { intros x1. pose proof (Hprune (g_start g1) [x1] e') as E. cbn [app flat_map] in E. rewrite app_nil_r in E. exact E. }
      rewrite Hpx in Px. injection Px as <-. exists ks, e', (pruned x0). split; auto. split; auto. split; [eauto|]. split.
      + intros x1 Hx1. assert (Hw1 : parses g1 teq (ks ++ [e']) (Branch (g_start g1) [x1; Leaf e'])).
        { apply (parses_unsent teq g g1 e o Hb0 Hr1 Hz1 _ _ Hus). exists ks, e', x1. auto. }
        destruct (Hto _ _ Hw1) as (y1 & P1 & Hy1); [destruct ks; discriminate|]. apply Hu in Hy1. subst y1.
        rewrite Hpx in P1. injection P1 as P1. apply app_inj_tail in P1. apply P1.
      + intros fuel' Hle. rewrite (Hp fuel' Hle). cbn [to_node]. rewrite map_app, rev_app_distr. cbn [map rev app]. rewrite Es.
        destruct (pruned_shape x0) as [->|(y0 & ->)]; reflexivity.
    - split; auto. intros ks e' x E Ee Hx. assert (Hw1 : parses g1 teq us (Branch (g_start g1) [x; Leaf e'])).
      { apply (parses_unsent teq g g1 e o Hb0 Hr1 Hz1 _ _ Hus). exists ks, e', x. auto. }
      destruct (Hto _ _ Hw1) as (y1 & _ & Hy1); [rewrite E; destruct ks; discriminate|]. exact (Hno _ Hy1).
  Qed.
End Final.
