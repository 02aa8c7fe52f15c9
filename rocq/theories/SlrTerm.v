(** Unit cycles, termination, uniqueness of trees and absence of panics, for
    grammars without epsilon. *)
From Verif Require Import Base GrammarModel CfsmModel SlrModel SpecCfg GrammarProofs FirstProofs FollowProofs GrammarTotal
  ItemProofs CfsmProofs CfsmCorrect TableProofs SlrTable SlrNew SlrRun SlrMoves SlrSim.
From Coq Require Import Relation_Operators.

(** ** Finite acyclic relations *)
Lemma finite_acc {A} {d : DecEq A} (R : A -> A -> Prop) (dom : list A) :
  (forall y x, R y x -> In y dom) -> (forall x, ~ clos_trans A R x x) -> forall x, Acc R x.
Proof.
  intros Hdom Hcyc.
  assert (H : forall n vis x, length dom - length vis <= n -> NoDup vis -> incl vis dom ->
    (forall v, In v vis -> v = x \/ clos_trans A R x v) -> Acc R x).
  { induction n as [|n IH]; intros vis x Hn Hnd Hin Hv; constructor; intros y Hy.
    - assert (Hy' : ~ In y vis).
      { intros Hi. destruct (Hv y Hi) as [-> | Ht]; [apply (Hcyc x); constructor; auto|].
        apply (Hcyc y). eapply t_trans; [constructor; exact Hy|exact Ht]. }
      exfalso. assert (Hl : length (y :: vis) <= length dom).
      { apply NoDup_incl_length; [constructor; auto|]. intros z [<-|Hz]; eauto. }
      cbn in Hl. lia.
    - assert (Hy' : ~ In y vis).
      { intros Hi. destruct (Hv y Hi) as [-> | Ht]; [apply (Hcyc x); constructor; auto|].
        apply (Hcyc y). eapply t_trans; [constructor; exact Hy|exact Ht]. }
      apply (IH (y :: vis)).
      + cbn. lia.
      + constructor; auto.
      + intros z [<-|Hz]; eauto.
      + intros v [<-|Hv']; auto. right. destruct (Hv v Hv') as [-> | Ht]; [constructor; auto|].
        eapply t_trans; [constructor; exact Hy|exact Ht]. }
  intros x. eapply (H (length dom) [] x); cbn; [lia|constructor|intros ? []|intros ? []].
Qed.

(** ** Unit cycles *)
Section Cycles.
  Context {V T : Type} {dv : DecEq V} {dt : DecEq T}.
  Notation sym := (symbol V T).
  Variable teq : T -> T -> bool.
  Hypothesis Hteq : lawful teq.
  Variable g : grammar V T.
  Hypothesis Hgood : good g.
  Hypothesis Heps : epsilon_free g.

  Lemma lr0_of_form x y : steps g x y -> x = [Var (g_start g)] -> forall v bd, In (Var v) y -> rule g v bd ->
    exists w, lr0 g w (v, [], bd).
  Proof.
    induction 1 as [x|x y z H IH Hst]; intros E v bd Hin Hr.
    - subst x. destruct Hin as [[= <-]|[]]. exists []. apply lr0_begin; auto.
    - destruct Hst as [l u b r Hu|l r].
      + apply in_app_iff in Hin. destruct Hin as [Hin|Hin]; [apply (IH E v bd); auto; apply in_app_iff; auto|].
        apply in_app_iff in Hin. destruct Hin as [Hin|Hin].
        * apply in_split in Hin. destruct Hin as (a & c & ->).
          destruct (IH E u _ ltac:(apply in_app_iff; right; left; auto) Hu) as (w & Hl).
          pose proof (lr0_adv_all g Heps a w u [] (Var v :: c) Hl) as Hl2. exists (w ++ a). eapply lr0_clo; eauto.
        * apply (IH E v bd); auto. apply in_app_iff. right. right. auto.
      + apply (IH E v bd); auto. apply in_app_iff in Hin. apply in_app_iff. destruct Hin; [left; auto|right; right; auto].
  Qed.

  Lemma reachable_lr0 h a b : reachable g h -> rule g h (a ++ b) -> exists w, lr0 g w (h, a, b).
  Proof.
    intros (l & r & H) Hr. destruct (lr0_of_form _ _ H eq_refl h _ ltac:(apply in_app_iff; right; left; auto) Hr) as (w & Hl).
    exists (w ++ a). exact (lr0_adv_all g Heps a w h [] b Hl).
  Qed.

  Lemma reachable_rule h bd v : reachable g h -> rule g h bd -> In (Var v) bd -> reachable g v.
  Proof.
    intros Hh Hr Hin. apply in_split in Hin. destruct Hin as (a & b & ->). destruct (reachable_lr0 _ _ _ Hh Hr) as (w & Hl).
    destruct (good_closed _ Hgood h _ v Hr ltac:(apply in_app_iff; right; left; auto)) as (bd & Hb).
    exact (lr0_reachable g _ _ _ _ (lr0_clo g Heps _ _ _ _ _ _ Hl Hb)).
  Qed.

  Lemma null_empty r : nullb g r -> ~ In Eps r -> (forall v, In (Var v) r -> reachable g v) -> r = [].
  Proof.
    induction 1 as [|r H IH|v b r Hr Hb IHb H IH]; intros Hn Hv; auto.
    - destruct Hn. left; auto.
    - exfalso. assert (Hvr : reachable g v) by (apply Hv; left; auto).
      apply (rule_nonempty g v b Hgood Hr). apply IHb; [eapply Heps; eauto|]. intros u Hu. eapply reachable_rule; eauto.
  Qed.

  (** A closed set of items has an item before every terminal a rest can start
      with. *)
  Lemma start_shift r t : startb g r t -> forall w h a, lr0 g w (h, a, r) -> exists h' a' r', lr0 g w (h', a', Ter t :: r').
  Proof.
    induction 1 as [t r|t r H IH|t v b r Hr H IH|t v b r Hr Hb H IH]; intros w h a Hl.
    - eauto.
    - destruct (lr0_noeps g Heps _ _ _ _ Hl). apply in_app_iff. right; left; auto.
    - eapply IH. eapply lr0_clo; eauto.
    - exfalso. pose proof (lr0_clo g Heps _ _ _ _ _ _ Hl Hr) as Hl'. pose proof (lr0_reachable g _ _ _ _ Hl') as Hv.
      apply (rule_nonempty g v b Hgood Hr). apply null_empty; auto; [eapply Heps; eauto|]. intros u Hu. eapply reachable_rule; eauto.
  Qed.

  Lemma chain_trans u v w : unit_chain g u v -> unit_chain g v w -> unit_chain g u w.
  Proof.
    intros H1 H2. induction H2 as [v w H|v x w H IH H2]; [eapply unit_more; eauto|]. eapply unit_more; [apply IH; auto|auto].
  Qed.

  Lemma chain_down v p t : unit_chain g v p -> followb g v t -> followb g p t.
  Proof.
    induction 1 as [v w H|u v w H IH H2]; intros Hf.
    - eapply (follow_up g v [] w []); eauto. constructor.
    - eapply (follow_up g v [] w []); eauto. constructor.
  Qed.

  Lemma chain_closure v p : unit_chain g v p -> forall w h a r, lr0 g w (h, a, Var v :: r) -> exists h', lr0 g w (h', [], [Var p]).
  Proof.
    induction 1 as [v x H|u v x H IH H2]; intros w h a r Hl.
    - exists v. eapply lr0_clo; eauto.
    - destruct (IH _ _ _ _ Hl) as (h' & Hl'). exists v. eapply lr0_clo; eauto.
  Qed.

  Lemma chain_last v : unit_chain g v v -> exists p, rule g p [Var v] /\ unit_chain g p p /\ (p = v \/ unit_chain g v p).
  Proof.
    intros H. remember v as u eqn:E in H at 2. destruct H as [u x H|u p x H Hr].
    - subst x. exists u. split; auto. split; [constructor; auto|auto].
    - subst x. exists p. split; auto. split; auto. eapply chain_trans; [constructor; exact Hr|auto].
  Qed.

  Lemma chain_item v : unit_chain g v v -> forall w h a r t, lr0 g w (h, a, Var v :: r) -> followb g v t ->
    exists p, unit_chain g p p /\ lr0 g (w ++ [Var v]) (p, [Var v], []) /\ followb g p t.
  Proof.
    intros Hc w h a r t Hl Hf. destruct (chain_last v Hc) as (p & Hp & Hcp & Hor). exists p. split; auto.
    assert (Hp' : lr0 g w (p, [], [Var v])).
    { destruct Hor as [-> | Hor]; [eapply lr0_clo; eauto|].
      destruct (chain_closure _ _ Hor _ _ _ _ Hl) as (h' & Hl'). eapply lr0_clo; eauto. }
    split; [exact (lr0_adv g Heps _ _ _ _ _ Hp')|]. destruct Hor as [-> | Hor]; auto. eapply chain_down; eauto.
  Qed.

  Hypothesis Hall : all_reachable g.

  Lemma cycle_clash (e : Prop) v t : followb g v t -> unit_chain g v v -> clash g teq e.
  Proof.
    intros H. induction H as [h l v r t Hr Hs|h l v r t Hr Hn Hf IH]; intros Hc.
    - destruct (reachable_lr0 h l (Var v :: r) (Hall _ _ Hr) Hr) as (w & Hl).
      pose proof (follow_direct g h l v r t Hr Hs) as Hfv.
      destruct (chain_item v Hc _ _ _ _ _ Hl Hfv) as (p & _ & Hlp & Hfp).
      destruct (start_shift _ _ Hs _ _ _ (lr0_adv g Heps _ _ _ _ _ Hl)) as (h' & a' & r' & Hl').
      exists (w ++ [Var v]), (h', a', Ter t :: r'), (Some t), (p, [Var v], []), (Some t).
      split; [split; auto|]. split; [split; [auto|apply follow_steps; auto]|]. split; [discriminate|]. cbn. apply (proj1 Hteq).
    - destruct (reachable_lr0 h l (Var v :: r) (Hall _ _ Hr) Hr) as (w & Hl).
      pose proof (follow_up g h l v r t Hr Hn Hf) as Hfv.
      destruct (chain_item v Hc _ _ _ _ _ Hl Hfv) as (p & Hcp & Hlp & Hfp).
      assert (r = []) as ->.
      { apply null_empty; auto.
        - intros Hi. apply (lr0_noeps g Heps _ _ _ _ Hl). apply in_app_iff. right; right; auto.
        - intros u Hu. eapply (reachable_rule h); eauto. apply in_app_iff. right; right; auto. }
      pose proof (lr0_adv g Heps _ _ _ _ _ Hl) as Hl'.
      destruct (eqb_spec h p) as [-> | Hne]; [auto|].
      exists (w ++ [Var v]), (h, l ++ [Var v], []), (Some t), (p, [Var v], []), (Some t).
      split; [split; [auto|apply follow_steps; auto]|]. split; [split; [auto|apply follow_steps; auto]|].
      split; [congruence|]. cbn. apply (proj1 Hteq).
  Qed.
End Cycles.

Section Term.
  Context {V T : Type} {dv : DecEq V} {dt : DecEq T}.
  Notation sym := (symbol V T).
  Notation tr := (tree V T).
  Variable teq : T -> T -> bool.
  Hypothesis Hteq : lawful teq.
  Variable g : grammar V T.
  Hypothesis Hgood : good g.
  Hypothesis Heps : epsilon_free g.
  Variable c : cfsm V T.
  Hypothesis Hc : cfsm_ok g c.
  Variable fs : list (V * list sym).
  Hypothesis Hf : exact_follow g fs.
  Variable tb : table V T.
  Hypothesis Htb : table_ok teq g c fs tb.

  Notation move := (move teq g).
  Notation moves := (moves teq g).
  Notation stk := (stk c tb).

  Lemma no_clash : ~ clash g teq (has_entry g fs).
  Proof.
    intros Hcl. apply (clash_not_distinct teq Hteq g c Hc fs Hf) in Hcl. destruct Hcl as (st & Hin & Hd). apply Hd.
    eapply (distinct_perm teq Hteq); [apply (to_row _ _ _ _ _ Htb); auto|]. apply (to_distinct _ _ _ _ _ Htb); auto.
  Qed.

  (** [y] is what [x] is reduced to by a unit rule under the lookahead [t]. *)
  Definition up (t : T) (y x : V) : Prop := rule g y [Var x] /\ exists t', followb g y t' /\ teq t' t = true.

  Lemma up_chain t y x : clos_trans V (up t) y x -> unit_chain g y x /\ exists t', followb g y t'.
  Proof.
    induction 1 as [y x [H (t' & H1 & _)]|y z x H1 [IH1 IH2] H2 [IH3 _]].
    - split; [constructor; auto|eauto].
    - split; auto. eapply chain_trans; eauto.
  Qed.

  Lemma up_acc t : (forall v t', followb g v t' -> ~ unit_chain g v v) -> forall x, Acc (up t) x.
  Proof.
    intros H. apply (finite_acc (up t) (map fst (g_rules g))).
    - intros y x [(bds & Hr & _) _]. change y with (fst (y, bds)). apply in_map. auto.
    - intros x Hx. apply up_chain in Hx. destruct Hx as [Hx (t' & Ht)]. eapply H; eauto.
  Qed.

  Definition stops (rem : list T) (st : list (parse_node V T)) : Prop := exists n, ploop teq tb n rem st <> Diverge.

  Lemma stops_step (w : list sym) (xs : list tr) t ts st : stk w xs st ->
    (forall w' xs' st', stk w' xs' st' -> stops ts st') ->
    (forall w' bd h xs' st', w = w' ++ bd -> rule g h bd -> (forall x, bd = [Var x] -> up t h x) ->
       stk (w' ++ [Var h]) xs' st' -> stops (t :: ts) st') ->
    stops (t :: ts) st.
  Proof.
    intros Hst H1 H2. destruct (step_cases teq Hteq g Hgood Heps c Hc fs Hf tb Htb w xs t ts st Hst) as [(m & Hm)|[H|(H & _)]].
    - destruct m as [[w' xs'] rem']. destruct (move_sim teq Hteq g Heps c Hc fs Hf tb Htb _ _ _ _ _ _ _ Hst Hm) as (st' & Hst' & E).
      assert (Hs : stops rem' st').
      { remember (w, xs, t :: ts) as m eqn:Em. remember (w', xs', rem') as m' eqn:Em'.
        destruct Hm as [w0 xs0 t0 ts0 t' h a r L1 L2|w0 bd xs0 ys t0 ts0 t' h h' a r L1 L2 L3 L4 L5];
          injection Em as E1 E2 E3 E4; injection Em' as E5 E6 E7.
        - subst. eapply H1; eauto.
        - subst. eapply (H2 w0 bd h); eauto.
          + pose proof (lr0_rule g _ _ _ _ L1) as Hr. rewrite app_nil_r in Hr. exact Hr.
          + intros x ->. split; eauto. pose proof (lr0_rule g _ _ _ _ L1) as Hr. exact Hr. }
      destruct Hs as (n & Hn). exists (S n). rewrite E. auto.
    - exists 1. rewrite H. discriminate.
    - exists 1. rewrite H. discriminate.
  Qed.

  Lemma ploop_stops : (forall t x, Acc (up t) x) -> forall rem w xs st, stk w xs st -> stops rem st.
  Proof.
    intros Hacc. induction rem as [|t ts IH]; intros w xs st Hst.
    - exists 2. destruct (eof_cases teq g Hgood Heps c Hc fs Hf tb Htb w xs st Hst) as [(x & _ & _ & H)|[H|(H & _)]];
        rewrite H; discriminate.
    - assert (Hk : forall k w xs st, length w <= k -> stk w xs st -> stops (t :: ts) st); [|eapply Hk; eauto].
      clear w xs st Hst. induction k as [|k IHk]; intros w xs st Hle Hst.
      + destruct w; [|cbn in Hle; lia]. eapply stops_step; eauto.
        intros w' bd h xs' st' E Hr _ _. symmetry in E. apply app_eq_nil in E. destruct E as [_ ->].
        destruct (rule_nonempty g h [] Hgood Hr eq_refl).
      + assert (Hvar : forall x, Acc (up t) x -> forall w0 xs st, length w0 <= k -> stk (w0 ++ [Var x]) xs st -> stops (t :: ts) st).
        { clear w xs st Hle Hst. intros x Hx. induction Hx as [x _ IHx]. intros w0 xs st Hle Hst.
          eapply stops_step; eauto. intros w' bd h xs' st' E Hr Hu Hst'.
          pose proof (rule_nonempty g h bd Hgood Hr) as Hne. destruct (exists_last Hne) as (b & s & ->).
          rewrite app_assoc in E. apply app_inj_tail in E. destruct E as [-> <-]. rewrite app_length in Hle.
          destruct b as [|s b]; [|eapply IHk; [|eauto]; rewrite app_length; cbn in *; lia].
          eapply (IHx h); [apply Hu; reflexivity| |eauto]. cbn in Hle. lia. }
        eapply stops_step; eauto. intros w' bd h xs' st' -> Hr Hu Hst'.
        pose proof (rule_nonempty g h bd Hgood Hr) as Hne. rewrite app_length in Hle.
        eapply Hvar; [apply Hacc| |eauto]. destruct bd; [congruence|]. cbn in Hle. lia.
  Qed.

  Theorem parse_stops ts : (forall v t', followb g v t' -> ~ unit_chain g v v) ->
    exists n r, r <> Diverge /\ forall fuel, n <= fuel -> parse teq fuel tb ts = r.
  Proof.
    intros H. destruct (ploop_stops (fun t => up_acc t H) ts [] [] _ (stk_nil c tb)) as (n & Hn).
    exists n, (parse teq n tb ts). rewrite parse_ploop. split; auto. intros fuel Hfu.
    apply (parse_stable teq tb n); auto; rewrite parse_ploop; auto.
  Qed.

  Lemma no_followed_cycle : all_reachable g -> forall v t, followb g v t -> ~ unit_chain g v v.
  Proof. intros Hall v t Hv Hc'. apply no_clash. eapply cycle_clash; eauto. Qed.

  (** ** Unique trees *)

  Lemma move_size m m' : move m m' -> length (snd m') <= length (snd m) /\
    (length (snd m') = length (snd m) -> length (fst (fst m')) <= length (fst (fst m))).
  Proof.
    destruct 1 as [w0 xs0 t ts t' h a r L1 L2|w0 bd xs0 ys t ts t' h h' a r L1 L2 L3 L4 L5]; cbn [fst snd length].
    - split; lia.
    - split; [lia|]. intros _. rewrite !app_length. pose proof (lr0_rule g _ _ _ _ L1) as Hr. rewrite app_nil_r in Hr.
      pose proof (rule_nonempty g _ _ Hgood Hr). destruct bd; [congruence|]. cbn. lia.
  Qed.

  Lemma moves_size m m' : moves m m' -> length (snd m') <= length (snd m) /\
    (length (snd m') = length (snd m) -> length (fst (fst m')) <= length (fst (fst m))).
  Proof.
    induction 1 as [m|m m1 m2 H H' IH]; [auto|]. apply move_size in H. split; [lia|]. intros E. lia.
  Qed.

  Lemma moves_stay m m' : moves m m' -> length (snd m') = length (snd m) -> length (fst (fst m')) = length (fst (fst m)) ->
    forall w x, fst (fst m) = w ++ [Var x] -> m = m' \/ exists y, fst (fst m') = w ++ [Var y] /\ unit_chain g y x.
  Proof.
    induction 1 as [m|m m1 m2 H H' IH]; intros E1 E2 w x Ew; [auto|]. right.
    pose proof (move_size _ _ H) as [S1 S2]. pose proof (moves_size _ _ H') as [S3 S4].
    destruct H as [w0 xs0 t ts t' h a r L1 L2|w0 bd xs0 ys t ts t' h h' a r L1 L2 L3 L4 L5]; cbn [fst snd length] in *; [lia|].
    rewrite !app_length in *. cbn [length] in *. pose proof (lr0_rule g _ _ _ _ L1) as Hr. rewrite app_nil_r in Hr.
    pose proof (rule_nonempty g _ _ Hgood Hr) as Hne.
    assert (Hb : length bd = 1) by (destruct bd; [congruence|]; cbn in *; lia).
    destruct bd as [|s [|]]; cbn in Hb; try lia. apply app_inj_tail in Ew. destruct Ew as [-> ->].
    destruct (IH ltac:(lia) ltac:(cbn in *; lia) w h eq_refl) as [<- | (y & Ey & Hy)].
    - exists h. split; auto. constructor; auto.
    - exists y. split; auto. eapply unit_more; eauto.
  Qed.

  Theorem tree_unique v k x x' : all_reachable g -> followb g v k ->
    derivation g teq x -> derivation g teq x' -> sat teq (Var v) x -> sat teq (Var v) x' -> leaves x = leaves x' -> x = x'.
  Proof.
    intros Hall Hk D D' Sx Sx' El.
    assert (Hocc : exists w h a r, lr0 g w (h, a, Var v :: r)).
    { destruct Hk as [h l v r t Hr Hs|h l v r t Hr Hn Hfu]; destruct (reachable_lr0 g Heps h l (Var v :: r) (Hall _ _ Hr) Hr) as (w & Hl); eauto. }
    destruct Hocc as (w & h & a & r & Hl).
    assert (Hfit : fits teq g (Var v) k) by (exists k; split; auto; apply (proj1 Hteq)).
    pose proof (tree_moves teq g Hgood Heps x w [] h a (Var v) r k [] D Sx Hl Hfit) as M.
    pose proof (tree_moves teq g Hgood Heps x' w [] h a (Var v) r k [] D' Sx' Hl Hfit) as M'. rewrite <- El in M'.
    destruct (lr0_path g c Hc _ _ Hl) as (i & Hi).
    assert (Hst : forall y y', moves (w ++ [Var v], [] ++ [y], [k]) (w ++ [Var v], [] ++ [y'], [k]) -> y = y').
    { intros y y' Hm. destruct (moves_stay _ _ Hm eq_refl eq_refl w v eq_refl) as [E|(u & Eu & Hu)].
      - injection E; auto.
      - apply app_inj_tail in Eu. destruct Eu as [_ [= <-]]. destruct (no_followed_cycle Hall v k Hk Hu). }
    destruct (moves_fork teq Hteq g Heps c Hc fs Hf tb Htb (w, [], leaves x ++ [k]) _ _ (ex_intro _ i Hi) M M') as [Hm|Hm]; auto.
    symmetry; auto.
  Qed.

  (** ** No panics *)

  Theorem parse_panics fuel ts : parse teq fuel tb ts = Panic -> panic_reason g fs.
  Proof.
    rewrite parse_ploop. enough (H : forall w xs rem st, stk w xs st -> ploop teq tb fuel rem st = Panic -> panic_reason g fs)
      by (intros E; eapply (H [] [] ts); eauto; constructor).
    induction fuel as [|fuel IH]; intros w xs rem st Hst H; [discriminate|]. destruct rem as [|t rem].
    - destruct fuel as [|fuel]; [discriminate|].
      destruct (eof_cases teq g Hgood Heps c Hc fs Hf tb Htb w xs st Hst) as [(x & _ & _ & E)|[E|(_ & Hp)]]; auto; rewrite E in H; discriminate.
    - destruct (step_cases teq Hteq g Hgood Heps c Hc fs Hf tb Htb w xs t rem st Hst) as [([[w' xs'] rem'] & Hm)|[E|(_ & Hp)]]; auto.
      + destruct (move_sim teq Hteq g Heps c Hc fs Hf tb Htb _ _ _ _ _ _ _ Hst Hm) as (st' & Hst' & E). rewrite E in H. eauto.
      + rewrite E in H. discriminate.
  Qed.

  Lemma no_panic_reason : all_reachable g -> (forall v bd, rule g v bd -> productive g v) ->
    (forall v bd, rule g v bd -> v = g_start g \/ exists t, followed_by g v t) -> entry_sure g (g_start g) -> ~ panic_reason g fs.
  Proof.
    intros Hall Hprod Hfol He [(w & (d & Hd) & Hno)|(Hno & t & Ht)].
    - destruct d as [[h a] [|[t|v|] r]].
      + pose proof (lr0_rule g _ _ _ _ Hd) as Hr. destruct (Hfol _ _ Hr) as [-> | (t & Ht)].
        * apply (Hno (g_start g, a, []) None). split; [exact Hd|]. split; auto. eapply entry_sure_has; eauto.
        * apply (Hno (h, a, []) (Some t)). split; [exact Hd|]. exact Ht.
      + apply (Hno (h, a, Ter t :: r) (Some t)). split; [exact Hd|reflexivity].
      + destruct (good_closed _ Hgood h _ v (lr0_rule g _ _ _ _ Hd)) as (bd & Hb); [apply in_app_iff; right; left; auto|].
        assert (Hst : exists t, startb g [Var v] t).
        { destruct (Hprod v bd Hb) as ([|t ws] & Hw).
          - exfalso. assert (Hn : nullb g [Var v]) by (apply null_steps; exact Hw).
            apply (null_empty g Hgood Heps) in Hn; [discriminate|intros [?|[]]; discriminate|].
            intros u [[= <-]|[]]. eapply Hall; eauto.
          - exists t. apply start_steps. exists (map Ter ws). exact Hw. }
        destruct Hst as (t & Hst). destruct (start_shift g Hgood Heps (Var v :: r) t) with (w := w) (h := h) (a := a) as (h' & a' & r' & Hl); auto.
        { change (Var v :: r) with ([Var v] ++ r). apply start_app. auto. }
        apply (Hno (h', a', Ter t :: r') (Some t)). split; [exact Hl|reflexivity].
      + apply (lr0_noeps g Heps _ _ _ _ Hd). apply in_app_iff. right; left; auto.
    - destruct Ht as [h l v r t Hr Hs|h l v r t Hr Hn Hfu]; destruct (reachable_lr0 g Heps h l (Var v :: r) (Hall _ _ Hr) Hr) as (w & Hl);
        eapply Hno; eauto.
  Qed.
End Term.
