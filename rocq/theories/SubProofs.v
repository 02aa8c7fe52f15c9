(** Grammars with fewer rules. *)
From Verif Require Import Base GrammarModel CfsmModel SlrModel SpecCfg SpecMachine SpecSub SlrNew SlrFinal SlrRun SlrMoves SlrMachine.

Section Sub.
  Context {V T : Type}.
  Notation sym := (symbol V T).
  Variables g g' : grammar V T.
  Hypothesis Hsub : fewer_rules g g'.

  Lemma step_more x y : step g x y -> step g' x y.
  Proof. intros [l v bd r H|l r]; constructor. apply Hsub, H. Qed.

  Lemma steps_more x y : steps g x y -> steps g' x y.
  Proof. induction 1 as [|x y z _ IH H]; [constructor|]. eapply steps_next; [exact IH|apply step_more, H]. Qed.

  Lemma followed_more v t : followed_by g v t -> followed_by g' v t.
  Proof. intros (x & l & r & (bd & Hr) & H). exists x, l, r. split; [exists bd; apply Hsub, Hr|apply steps_more, H]. Qed.

  Lemma lr0_more w d : lr0 g w d -> lr0 g' w d.
  Proof.
    induction 1 as [bd a b Hr Hs|w h a v r bd a' b' _ IH Hr Hs|w h a s r a' b' _ IH Hs].
    - rewrite (proj1 Hsub) in *. eapply lr0_start; [apply Hsub, Hr|exact Hs].
    - eapply lr0_close; [exact IH|apply Hsub, Hr|exact Hs].
    - eapply lr0_goto; eassumption.
  Qed.

  Lemma wants_more (e e' : Prop) w d k : (e -> e') -> wants g e w d k -> wants g' e' w d k.
  Proof.
    intros He [H1 H2]. split; [apply lr0_more, H1|]. destruct d as [[h a] [|[t|v|] r]], k as [t'|]; auto.
    - apply followed_more, H2.
    - rewrite <- (proj1 Hsub). tauto.
  Qed.

  Lemma clash_more teq (e e' : Prop) : (e -> e') -> clash g teq e -> clash g' teq e'.
  Proof.
    intros He (w & d & k & d' & k' & H1 & H2 & H3). exists w, d, k, d', k'.
    split; [eapply wants_more; eassumption|]. split; [eapply wants_more; eassumption|exact H3].
  Qed.

  Lemma mmove_more teq m m' : mmove teq g m m' -> mmove teq g' m m'.
  Proof.
    intros [st t ts t' h a r H1 H2|popped st t ts t' h bd h' a r H1 H2 H3 H4 H5].
    - econstructor; [apply lr0_more, H1|exact H2].
    - econstructor; [apply lr0_more, H1|apply followed_more, H2|exact H3|exact H4|apply lr0_more, H5].
  Qed.

  Lemma mmoves_more teq k m m' : mmoves teq g k m m' -> mmoves teq g' k m m'.
  Proof. induction 1 as [|k m m1 m2 H _ IH]; [constructor|]. econstructor; [apply mmove_more, H|exact IH]. Qed.

  Lemma maccepts_more (e e' : Prop) m n : (e -> e') -> maccepts g e m n -> maccepts g' e' m n.
  Proof.
    destruct m as [st ts]. intros He (H1 & H2 & bd & H3 & H4 & H5). split; [exact H1|]. split; [auto|]. exists bd.
    unfold bottom in *. rewrite <- (proj1 Hsub). split; [apply lr0_more, H3|]. split; assumption.
  Qed.

  Lemma entry_possible_more v : entry_possible g v -> entry_possible g' v.
  Proof.
    induction 1 as [h l v r H Hr|h l v r H Hr _ IH].
    - eapply entry_direct; [apply Hsub, H|exact Hr].
    - eapply entry_up; [apply Hsub, H|apply steps_more, Hr|exact IH].
  Qed.

  Lemma entry_sure_more v : entry_sure g v -> entry_sure g' v.
  Proof.
    intros [(h & l & r & H & Hr)|[(t & H)|(h & l & h' & l' & r' & H & H' & Hr)]];
      [left; exists h, l, r; split; [apply Hsub, H|exact Hr]|right; left; exists t; apply followed_more, H|].
    right. right. exists h, l, h', l', r'. split; [apply Hsub, H|]. split; [apply Hsub, H'|exact Hr].
  Qed.
End Sub.

Section New.
  Context {V T : Type} {dv : DecEq V} {dt : DecEq T}.
  Variable teq : T -> T -> bool.
  Hypothesis Hteq : lawful teq.
  Variables g g' : grammar V T.
  Hypothesis Hsub : fewer_rules g g'.
  Hypothesis Hb : built g.
  Hypothesis Hb' : built g'.

  Lemma fewer_new (ho ho' : HashOrder) p p' fuel' tb' : (entry_possible g (g_start g) -> entry_sure g' (g_start g)) ->
    slr_new (ho := ho') teq fuel' p' g' = Val tb' ->
    exists n tb, forall fuel, n <= fuel -> slr_new (ho := ho) teq fuel p g = Val tb.
  Proof.
    intros He H. destruct (slr_new_total (ho := ho) teq Hteq g Hb p) as (n & r & Hn & [[-> Hc]|(tb & -> & _)]).
    - exfalso. apply (new_no_clash (ho := ho') teq Hteq g' Hb' fuel' p' tb' H).
      eapply (clash_more g g' Hsub); [|exact Hc]. rewrite <- (proj1 Hsub). exact He.
    - exists n, tb. exact Hn.
  Qed.

  Lemma fewer_parse (ho ho' : HashOrder) p p' fuel fuel' tb tb' ts :
    slr_new (ho := ho) teq fuel p g = Val tb -> slr_new (ho := ho') teq fuel' p' g' = Val tb' ->
    ((entry_possible g (g_start g) -> entry_sure g' (g_start g)) -> forall k n, parse teq k tb ts = Val (Some n) ->
      exists k', forall f, k' <= f -> parse teq f tb' ts = Val (Some n)) /\
    ((forall k, parse teq k tb ts = Diverge) -> forall k, parse teq k tb' ts = Diverge).
  Proof.
    intros H H'.
    destruct (parser_machine (ho := ho) teq Hteq g Hb _ _ _ H) as (e & E1 & E2 & M).
    destruct (parser_machine (ho := ho') teq Hteq g' Hb' _ _ _ H') as (e' & E1' & E2' & M').
    destruct (M ts) as (MA & _ & MD & _). destruct (M' ts) as (MA' & _ & MD' & _). split.
    - intros He k n Hk. destruct (proj1 (MA n) (ex_intro _ k Hk)) as (j & m & J1 & J2).
      destruct (proj2 (MA' n)) as (k' & Hk').
      + exists j, m. split; [apply (mmoves_more g g' Hsub), J1|]. apply (maccepts_more g g' Hsub e); [|exact J2].
        intros X. apply E1'. rewrite <- (proj1 Hsub). auto.
      + exists k'. intros f. apply parse_stable; [exact Hk'|discriminate].
    - intros D. apply MD'. intros k. destruct (proj1 MD D k) as [m Hm]. exists m. apply (mmoves_more g g' Hsub), Hm.
  Qed.
End New.

(** ** Rules that cannot be used *)
Section Unused.
  Context {V T : Type}.
  Notation sym := (symbol V T).
  Variables g g' : grammar V T.
  Hypothesis Hsame : same_reachable g g'.

  Lemma steps_unused x : steps g' [Var (g_start g')] x -> steps g [Var (g_start g)] x.
  Proof.
    pose proof (proj1 (proj1 Hsame)) as E. remember [Var (g_start g')] as s eqn:Es. intros H. revert Es.
    induction H as [x|x y z Hxy IH Hyz]; intros ->.
    - rewrite E. constructor.
    - eapply steps_next; [apply IH; reflexivity|]. inversion Hyz as [l v bd r Hr|l r]; subst; constructor.
      apply (proj2 Hsame); [|exact Hr]. exists l, r. exact Hxy.
  Qed.

  Lemma reachable_in h l v r : reachable g' h -> rule g' h (l ++ Var v :: r) -> reachable g' v.
  Proof.
    intros (a & b & H) Hr. exists (a ++ l), (r ++ b).
    pose proof (steps_next g' _ _ _ H (step_rule g' a h _ b Hr)) as Hs. rewrite <- !app_assoc in *. exact Hs.
  Qed.

  Lemma lr0_unused w d : lr0 g' w d -> lr0 g w d.
  Proof.
    pose proof (proj1 (proj1 Hsame)) as E.
    induction 1 as [bd a b Hr Hs|w h a v r bd a' b' Hl IH Hr Hs|w h a s r a' b' _ IH Hs].
    - rewrite <- E in *. eapply lr0_start; [|exact Hs]. apply (proj2 Hsame); [|exact Hr].
      exists [], []. rewrite E. constructor.
    - eapply lr0_close; [exact IH| |exact Hs]. apply (proj2 Hsame); [|exact Hr].
      eapply reachable_in; [eapply lr0_reachable; exact Hl|eapply lr0_rule; exact Hl].
    - eapply lr0_goto; eassumption.
  Qed.

  Lemma lr0_read w d : lr0 g' w d -> forall v, In (Var v) w -> reachable g' v.
  Proof.
    induction 1 as [bd a b Hr Hs|w h a v r bd a' b' Hl IH Hr Hs|w h a s r a' b' Hl IH Hs]; intros x Hx; [destruct Hx|auto|].
    apply in_app_iff in Hx. destruct Hx as [Hx|[->|[]]]; [auto|].
    eapply reachable_in; [eapply lr0_reachable; exact Hl|eapply lr0_rule; exact Hl].
  Qed.

  Definition root_reachable (x : tree V T) : Prop := match x with Leaf _ => True | Branch v _ => reachable g' v end.

  Lemma sat_reachable teq w xs : (forall v, In (Var v) w -> reachable g' v) -> Forall2 (sat teq) w xs -> Forall root_reachable xs.
  Proof.
    intros Hw H. induction H as [|s x w xs Hs H IH]; constructor.
    - destruct s as [t|v|], x as [t'|v' cs]; cbn in *; try tauto. subst v'. apply Hw. auto.
    - apply IH. intros v Hv. apply Hw. right. exact Hv.
  Qed.

  Lemma derivation_unused teq x : root_reachable x -> derivation g' teq x -> derivation g teq x.
  Proof.
    induction x as [t|v cs IH] using tree_ind2; intros Hx Hd; [constructor|].
    inversion Hd as [|v' bd cs' Hr Hs Hc]; subst. econstructor; [apply (proj2 Hsame); [exact Hx|exact Hr]|exact Hs|].
    assert (Hroots : Forall root_reachable cs).
    { eapply sat_reachable; [|exact Hs]. intros y Hy. apply filter_In in Hy. destruct Hy as [Hy _].
      apply in_split in Hy. destruct Hy as (l & r & ->). eapply reachable_in; [exact Hx|exact Hr]. }
    clear - IH Hroots Hc. induction IH as [|y cs Hy _ IH']; constructor; inversion Hroots; inversion Hc; subst; auto.
  Qed.

  Lemma derivations_unused teq xs : Forall root_reachable xs -> Forall (derivation g' teq) xs -> Forall (derivation g teq) xs.
  Proof. intros H Hd. induction H as [|x xs Hx H IH]; constructor; inversion Hd; subst; [apply derivation_unused; assumption|auto]. Qed.

  Lemma derivation_more teq x : derivation g teq x -> derivation g' teq x.
  Proof.
    induction x as [t|v cs IH] using tree_ind2; intros Hd; [constructor|].
    inversion Hd as [|v' bd cs' Hr Hs Hc]; subst. econstructor; [apply (proj1 Hsame), Hr|exact Hs|].
    clear - IH Hc. induction IH as [|y cs Hy _ IH']; constructor; inversion Hc; subst; auto.
  Qed.

  Lemma accepted_unused teq ts x : accepted teq g ts x <-> accepted teq g' ts x.
  Proof.
    pose proof (proj1 (proj1 Hsame)) as E. split; intros (w & xs & bd & b & t & ys & H1 & H2 & H3 & H4 & H5 & H6 & H7 & H8);
      exists w, xs, bd, b, t, ys.
    - rewrite <- E. split; [apply (lr0_more g g' (proj1 Hsame)), H1|]. split; [exact H2|]. split; [exact H3|].
      split; [eapply Forall_impl; [intros y; apply derivation_more|exact H4]|]. split; [exact H5|].
      split; [eapply Forall_impl; [intros y; apply derivation_more|exact H6]|]. split; assumption.
    - rewrite E. split; [apply lr0_unused, H1|]. split; [exact H2|]. split; [exact H3|].
      split; [|split; [exact H5|split; [|split; assumption]]].
      + apply derivations_unused; [|exact H4]. eapply sat_reachable; [|exact H3]. eapply lr0_read; exact H1.
      + apply derivations_unused; [|exact H6]. eapply sat_reachable; [|exact H5]. intros v Hv.
        apply in_split in Hv. destruct Hv as (l & r & ->). eapply reachable_in; [eapply lr0_reachable; exact H1|].
        exact (lr0_rule g' _ _ _ _ H1).
  Qed.
End Unused.

Section UnusedNew.
  Context {V T : Type} {dv : DecEq V} {dt : DecEq T}.
  Variable teq : T -> T -> bool.
  Hypothesis Hteq : lawful teq.
  Variables g g' : grammar V T.
  Hypothesis Hsame : same_reachable g g'.
  Hypothesis Hb : built g.
  Hypothesis Hb' : built g'.

  Lemma unused_parse (ho ho' : HashOrder) p p' fuel fuel' tb tb' ts n :
    epsilon_free g -> entry_sure g (g_start g) ->
    slr_new (ho := ho) teq fuel p g = Val tb -> slr_new (ho := ho') teq fuel' p' g' = Val tb' ->
    (exists k, parse teq k tb ts = Val (Some n)) <-> (exists k, parse teq k tb' ts = Val (Some n)).
  Proof.
    intros Heps He H H'.
    assert (Heps' : epsilon_free g').
    { intros v bd Hv Hr. apply (Heps v); [|apply (proj2 Hsame); assumption].
      destruct Hv as (l & r & Hv). exists l, r. apply (steps_unused g g' Hsame), Hv. }
    assert (He' : entry_sure g' (g_start g')).
    { rewrite <- (proj1 (proj1 Hsame)). apply (entry_sure_more g g' (proj1 Hsame)), He. }
    split; intros (k & Hk).
    - destruct (parse_accepts_only (ho := ho) teq Hteq g Hb _ _ _ _ _ _ Heps H Hk) as (_ & x & Ha & ->).
      apply (accepted_unused g g' Hsame) in Ha.
      destruct (proj1 (parse_exact (ho := ho') teq Hteq g' Hb' _ _ _ _ _ Heps' H' He') Ha) as (m & Hm). exists m. apply Hm, le_n.
    - destruct (parse_accepts_only (ho := ho') teq Hteq g' Hb' _ _ _ _ _ _ Heps' H' Hk) as (_ & x & Ha & ->).
      apply (accepted_unused g g' Hsame) in Ha.
      destruct (proj1 (parse_exact (ho := ho) teq Hteq g Hb _ _ _ _ _ Heps H He) Ha) as (m & Hm). exists m. apply Hm, le_n.
  Qed.
End UnusedNew.
