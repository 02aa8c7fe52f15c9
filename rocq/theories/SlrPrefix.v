(** Without epsilon: which tokens the parser looks at, and how many steps it
    makes. *)
From Verif Require Import Base GrammarModel CfsmModel SlrModel SpecCfg SpecPrefix GrammarProofs FirstProofs FollowProofs GrammarTotal
  ItemProofs CfsmProofs CfsmCorrect TableProofs SlrTable SlrNew SlrRun SlrMoves SlrSim SlrTerm.
From Coq Require Import Relation_Operators.

Section Prefix.
  Context {V T : Type} {dv : DecEq V} {dt : DecEq T}.
  Notation sym := (symbol V T).
  Notation tr := (tree V T).
  Variable teq : T -> T -> bool.
  Hypothesis Hteq : lawful teq.
  Variable g : grammar V T.
  Hypothesis Hgood : good g.
  Hypothesis Heps : epsilon_free g.
  Variable c : cfsm V T.
  Hypothesis Hc : cfsm_ok g c.
  Variable fs : list (V * list sym).
  Hypothesis Hf : exact_follow g fs.
  Variable tb : table V T.
  Hypothesis Htb : table_ok teq g c fs tb.

  Notation move := (move teq g).
  Notation moves := (moves teq g).
  Notation stk := (stk c tb).

  (** A move is a successful call of [handle_token]. *)
  Lemma move_handle w xs t ts w' xs' rem' st : stk w xs st -> move (w, xs, t :: ts) (w', xs', rem') ->
    exists tok2 st' pn, handle_token teq tb (Some t) st (top st) = Val (Some (tok2, st', pn, false)) /\
      stk w' xs' (pn :: st') /\ rem' = (match tok2 with Some _ => t :: ts | None => ts end) /\ (tok2 = Some t \/ tok2 = None).
  Proof.
    intros Hst Hm. pose proof (stk_path _ _ _ _ _ Hst) as Hp.
    remember (w, xs, t :: ts) as m eqn:Em. remember (w', xs', rem') as m' eqn:Em'.
    destruct Hm as [w0 xs0 t0 ts0 t' h a r H1 H2|w0 bd xs0 ys t0 ts0 t' h h' a r H1 H2 H3 H4 H5];
      injection Em as <- <- <- <-; injection Em' as <- <- <-.
    - destruct (lr0_path g c Hc _ _ (lr0_adv g Heps _ _ _ _ _ H1)) as (d & Hd).
      assert (Hin : In (Some t', Shift d) (nth (top st) (tb_action tb) [])).
      { apply (row_action teq g c Hc fs Hf tb Htb w0); auto. split; eauto. }
      destruct (action_get teq Hteq g c Hc fs tb Htb w0 (top st) (Some t0) (Some t') (Shift d) Hp Hin) as [E1 E2].
      { cbn. apply Hteq; auto. }
      exists None, st, (Node (Ter t0) [], d). split; [|split; [|auto]].
      + unfold handle_token. rewrite E1. cbn [of_option bind]. rewrite E2. reflexivity.
      + apply (stk_snoc c tb w0 xs0 st (Ter t') (Leaf t0) d); auto.
    - assert (Hin : In (Some t', Reduce h (length bd)) (nth (top st) (tb_action tb) [])).
      { apply (row_action teq g c Hc fs Hf tb Htb (w0 ++ bd)); auto. exists bd. auto. }
      destruct (action_get teq Hteq g c Hc fs tb Htb (w0 ++ bd) (top st) (Some t0) (Some t') _ Hp Hin) as [E1 E2].
      { cbn. apply Hteq; auto. }
      destruct (stk_split c tb _ _ _ _ Hst) as (xs1 & ys1 & E & Hl & Hst' & Hm).
      apply app_inj_len in E; [|congruence]. destruct E as [<- <-].
      destruct (lr0_path g c Hc _ _ (lr0_adv g Heps _ _ _ _ _ H5)) as (d & Hd).
      exists (Some t0), (skipn (length bd) st), (to_node (Branch h ys), d). split; [|split; [|auto]].
      2:{ constructor; auto. }
      pose proof (stk_path _ _ _ _ _ Hst') as Hp'. pose proof (stk_length _ _ _ _ _ Hst) as [_ Hlen]. rewrite app_length in Hlen.
      unfold handle_token. rewrite E1. cbn [of_option bind]. rewrite E2.
      unfold drain. destruct (Nat.leb_spec (length bd) (length st)) as [_|Hbad]; [|lia]. cbn [bind].
      destruct (stk_length _ _ _ _ _ Hst') as [_ Hlen'].
      pose proof (proj2 (row_goto teq g c Hc fs tb Htb w0 _ h d Hp') Hd) as Hg.
      destruct (skipn (length bd) st) as [|[nd k] rest] eqn:Es; [cbn in Hlen'; lia|].
      cbn [hd_error of_option bind snd top] in *.
      destruct (goto_lookup teq g c fs tb Htb k) as [Eg|(_ & Eg & _)]; [|rewrite Eg in Hg; discriminate].
      rewrite Eg. cbn [of_option bind]. rewrite Hg. rewrite Hm. reflexivity.
  Qed.

  Lemma handle_cases w xs t ts st : stk w xs st ->
    handle_token teq tb (Some t) st (top st) = Val None \/ handle_token teq tb (Some t) st (top st) = Panic \/
    exists w' xs' rem' tok2 st' pn, move (w, xs, t :: ts) (w', xs', rem') /\
      handle_token teq tb (Some t) st (top st) = Val (Some (tok2, st', pn, false)) /\
      stk w' xs' (pn :: st') /\ rem' = (match tok2 with Some _ => t :: ts | None => ts end) /\ (tok2 = Some t \/ tok2 = None).
  Proof.
    intros Hst. destruct (step_cases teq Hteq g Hgood Heps c Hc fs Hf tb Htb w xs t ts st Hst) as [(m & Hm)|[H|(H & _)]].
    - destruct m as [[w' xs'] rem']. destruct (move_handle _ _ _ _ _ _ _ _ Hst Hm) as (tok2 & st' & pn & H1 & H2 & H3 & H4).
      right. right. exists w', xs', rem', tok2, st', pn. auto.
    - specialize (H 0). cbn [ploop] in H. destruct (handle_token teq tb (Some t) st (top st)) as [[[[[tok2 st'] pn] [|]]|]| |]; auto;
        discriminate.
    - specialize (H 0). cbn [ploop] in H. destruct (handle_token teq tb (Some t) st (top st)) as [[[[[tok2 st'] pn] [|]]|]| |]; auto;
        discriminate.
  Qed.

  (** ** The tokens looked at *)

  (** The tokens can be derived from a viable prefix. *)
  Definition viable (ts : list T) : Prop :=
    exists w xs d, lr0 g w d /\ Forall2 (sat teq) w xs /\ Forall (derivation g teq) xs /\ flat_map leaves xs = ts.

  Lemma loop_stops_at {L1 L2} (next1 : L1 -> res (option T * L1)) (next2 : L2 -> res (option T * L2)) u t fuel :
    ~ viable (u ++ [t]) ->
    forall w xs st tok pre i1 i1' i2 i2', stk w xs st -> Forall2 (sat teq) w xs -> Forall (derivation g teq) xs ->
      reads next1 i1 pre i1' -> reads next2 i2 pre i2' ->
      (match tok with Some x => [x] | None => [] end) ++ pre <> [] ->
      flat_map leaves xs ++ (match tok with Some x => [x] | None => [] end) ++ pre = u ++ [t] ->
      parse_loop teq next1 fuel tb i1 tok st (top st) = parse_loop teq next2 fuel tb i2 tok st (top st) /\
      forall n, parse_loop teq next1 fuel tb i1 tok st (top st) <> Val (Some n).
  Proof.
    intros Hv. induction fuel as [|fuel IH]; intros w xs st tok pre i1 i1' i2 i2' Hst Hs Hd R1 R2 Hne E; [split; [reflexivity|discriminate]|].
    cbn [parse_loop].
    assert (Hmain : forall x pre' j1 j2, flat_map leaves xs ++ x :: pre' = u ++ [t] -> reads next1 j1 pre' i1' -> reads next2 j2 pre' i2' ->
      (let! o := handle_token teq tb (Some x) st (top st) in
       match o with
       | None => Val None
       | Some (tok2, stack', pn, accept) =>
           if accept : bool then Val (Some (fst pn)) else parse_loop teq next1 fuel tb j1 tok2 (pn :: stack') (snd pn)
       end) =
      (let! o := handle_token teq tb (Some x) st (top st) in
       match o with
       | None => Val None
       | Some (tok2, stack', pn, accept) =>
           if accept : bool then Val (Some (fst pn)) else parse_loop teq next2 fuel tb j2 tok2 (pn :: stack') (snd pn)
       end) /\
      forall n, (let! o := handle_token teq tb (Some x) st (top st) in
       match o with
       | None => Val None
       | Some (tok2, stack', pn, accept) =>
           if accept : bool then Val (Some (fst pn)) else parse_loop teq next1 fuel tb j1 tok2 (pn :: stack') (snd pn)
       end) <> Val (Some n)).
    { intros x pre' j1 j2 E' R1' R2'.
      destruct (handle_cases w xs x pre' st Hst) as [H|[H|(w' & xs' & rem' & tok2 & st' & pn & Hm & H & Hst' & Hr & Ht)]];
        rewrite H; cbn [bind]; [split; [reflexivity|discriminate]..|].
      assert (Hok : conf_ok teq g (u ++ [t]) (w', xs', rem')).
      { eapply (move_ok teq g Heps); [exact Hm|]. cbn. auto. }
      destruct Hok as (Hs' & Hd' & E2).
      assert (Hpn : snd pn = top (pn :: st')) by (destruct pn; reflexivity). rewrite Hpn.
      eapply (IH w' xs' (pn :: st') tok2 pre' j1 i1' j2 i2'); auto.
      - destruct Ht as [-> | ->]; [discriminate|]. cbn. intros ->. subst rem'. rewrite app_nil_r in E2.
        apply Hv. destruct (path_lr0 g Hgood c Hc _ _ (stk_path _ _ _ _ _ Hst')) as (d & Hl). exists w', xs', d. auto.
      - destruct Ht as [-> | ->]; subst rem'; exact E2. }
    destruct tok as [x|]; cbn [bind].
    - apply (Hmain x pre i1 i2); auto.
    - cbn [app] in *. destruct pre as [|x pre]; [congruence|]. inversion R1 as [|? ? j1 ? ? N1 R1' A B C]; subst. inversion R2 as [|? ? j2 ? ? N2 R2' A B C]; subst.
      rewrite N1, N2. cbn [bind]. apply (Hmain x pre j1 j2); auto.
  Qed.

  Lemma parse_stops_at {L1 L2} (next1 : L1 -> res (option T * L1)) (next2 : L2 -> res (option T * L2)) u t fuel i1 i1' i2 i2' :
    ~ viable (u ++ [t]) -> reads next1 i1 (u ++ [t]) i1' -> reads next2 i2 (u ++ [t]) i2' ->
    parse_from teq next1 fuel tb i1 = parse_from teq next2 fuel tb i2 /\ forall n, parse_from teq next1 fuel tb i1 <> Val (Some n).
  Proof.
    intros Hv R1 R2. unfold parse_from.
    apply (loop_stops_at next1 next2 u t fuel Hv [] [] (stack0 tb) None (u ++ [t]) i1 i1' i2 i2'); auto.
    - apply stk_nil.
    - cbn. destruct u; discriminate.
  Qed.

  (** ** Viable prefixes begin sentences *)

  Definition forest (y : list sym) : Prop := exists ys, Forall2 (sat teq) (filter not_eps y) ys /\ Forall (derivation g teq) ys.

  Lemma step_forest y z : step g y z -> forest z -> forest y.
  Proof.
    intros [l v bd r Hr|l r] (zs & H1 & H2).
    - rewrite !filter_app in H1. apply forall2_split in H1. destruct H1 as (z1 & z0 & -> & Hl & H1).
      apply forall2_split in H1. destruct H1 as (z2 & z3 & -> & Hm & H1).
      apply Forall_app in H2. destruct H2 as [D1 H2]. apply Forall_app in H2. destruct H2 as [D2 D3].
      exists (z1 ++ Branch v z2 :: z3). split.
      + rewrite filter_app. apply Forall2_app; auto. cbn [filter not_eps]. constructor; [reflexivity|auto].
      + apply Forall_app. split; auto. constructor; auto. econstructor; eauto.
    - exists zs. split; auto. rewrite filter_app in *. exact H1.
  Qed.

  Lemma steps_forest y z : steps g y z -> forest z -> forest y.
  Proof. induction 1 as [|x y z H IH Hs]; auto. intros Hz. apply IH. eapply step_forest; eauto. Qed.

  Lemma productive_tree v : productive g v -> exists x, derivation g teq x /\ sat teq (Var v) x.
  Proof.
    intros (w & H). apply steps_forest in H.
    - destruct H as (ys & H1 & H2). cbn in H1. inversion H1 as [|? x ? ? Hx _]; subst. inversion H2; subst. eauto.
    - exists (map Leaf w). clear H. induction w as [|t w (I1 & I2)]; [split; constructor|]. cbn. split; constructor; auto.
      + apply (proj1 Hteq).
      + constructor.
  Qed.

  Hypothesis Hprod : forall v, reachable g v -> productive g v.

  Lemma body_trees (b : list sym) : (forall v, In (Var v) b -> reachable g v) -> ~ In Eps b ->
    exists zs, Forall2 (sat teq) b zs /\ Forall (derivation g teq) zs.
  Proof.
    intros Hr He. induction b as [|s b IH]; [exists []; split; constructor|].
    destruct IH as (zs & H1 & H2); [intros v Hv; apply Hr; right; auto|intros Hi; apply He; right; auto|].
    destruct s as [t|v|].
    - exists (Leaf t :: zs). split; constructor; auto; [apply (proj1 Hteq)|constructor].
    - destruct (productive_tree v (Hprod v (Hr v (or_introl eq_refl)))) as (x & Hx & Hs). exists (x :: zs). auto.
    - exfalso. apply He. left. auto.
  Qed.

  Lemma item_trees w h a b : lr0 g w (h, a, b) -> exists zs, Forall2 (sat teq) b zs /\ Forall (derivation g teq) zs.
  Proof.
    intros H. apply body_trees.
    - intros v Hv. eapply (reachable_rule g Hgood Heps h (a ++ b)); [eapply lr0_reachable; eauto|eapply lr0_rule; eauto|apply in_app_iff; auto].
    - intros He. apply (lr0_noeps g Heps _ _ _ _ H). apply in_app_iff. auto.
  Qed.

  Lemma lr0_body w h a b ys zs : lr0 g w (h, a, b) -> Forall2 (sat teq) a ys -> Forall2 (sat teq) b zs ->
    Forall (derivation g teq) ys -> Forall (derivation g teq) zs -> derivation g teq (Branch h (ys ++ zs)).
  Proof.
    intros H H1 H2 H3 H4. apply derivation_branch with (bd := a ++ b).
    - eapply lr0_rule; eauto.
    - rewrite filter_noeps; [apply Forall2_app; auto|]. eapply lr0_noeps; eauto.
    - apply Forall_app. auto.
  Qed.

  Lemma lr0_complete w d : lr0 g w d -> forall h a b, d = (h, a, b) ->
    exists w', w = w' ++ a /\ forall xs y, Forall2 (sat teq) w' xs -> Forall (derivation g teq) xs ->
      derivation g teq y -> sat teq (Var h) y ->
      exists rest x, parses g teq (flat_map leaves xs ++ leaves y ++ rest) x.
  Proof.
    induction 1 as [bd a b H1 H2|w h a v r bd a' b' H IH H1 H2|w h a s' r a' b' H IH H2]; intros h0 a0 b0 [= <- <- <-].
    - apply skip_eps_id in H2; [|apply (start_noeps g Heps); auto]. injection H2 as -> ->. exists []. split; auto.
      intros xs y Hx _ Hy Hs. inversion Hx; subst. exists [], y. rewrite app_nil_r. destruct y as [|v cs]; [destruct Hs|].
      cbn in Hs. subst v. split; auto. split; eauto.
    - apply skip_eps_id in H2; [|eapply (rule_reach_noeps g Heps); eauto]. injection H2 as -> ->. exists w. split; [rewrite app_nil_r; auto|].
      destruct (IH _ _ _ eq_refl) as (w' & -> & IH'). intros xs y Hx Dx Dy Sy.
      apply forall2_split in Hx. destruct Hx as (xs' & ys & -> & X1 & X2). apply Forall_app in Dx. destruct Dx as [D1 D2].
      destruct (item_trees _ _ _ _ H) as (zs & Z1 & Z2). inversion Z1 as [|? z0 ? zs' _ Z1']; subst. inversion Z2; subst.
      destruct (IH' xs' (Branch h (ys ++ y :: zs'))) as (rest & x & Hp); auto.
      + eapply lr0_body; eauto.
      + reflexivity.
      + exists (flat_map leaves zs' ++ rest), x. cbn [leaves] in Hp. rewrite !flat_map_app in *. cbn [flat_map] in Hp.
        rewrite <- !app_assoc in *. exact Hp.
    - apply skip_eps_id in H2.
      2:{ intros Hin. apply (lr0_noeps g Heps _ _ _ _ H). apply in_app_iff. right. right. auto. }
      injection H2 as -> ->. destruct (IH _ _ _ eq_refl) as (w' & -> & IH'). exists w'. rewrite <- app_assoc. auto.
  Qed.

  Lemma viable_sentence ts : viable ts -> begins_sentence g teq ts.
  Proof.
    intros (w & xs & [[h a] b] & Hl & Hs & Hd & <-). destruct (lr0_complete _ _ Hl _ _ _ eq_refl) as (w' & -> & H).
    apply forall2_split in Hs. destruct Hs as (xs' & ys & -> & X1 & X2). apply Forall_app in Hd. destruct Hd as [D1 D2].
    destruct (item_trees _ _ _ _ Hl) as (zs & Z1 & Z2).
    destruct (H xs' (Branch h (ys ++ zs))) as (rest & x & Hp); auto.
    - eapply lr0_body; eauto.
    - reflexivity.
    - exists (flat_map leaves zs ++ rest), x. cbn [leaves] in Hp. rewrite !flat_map_app in *. rewrite <- !app_assoc in *. exact Hp.
  Qed.
End Prefix.

(** ** The number of steps *)
Section Steps.
  Context {V T : Type} {dv : DecEq V} {dt : DecEq T}.
  Notation sym := (symbol V T).
  Variable teq : T -> T -> bool.
  Hypothesis Hteq : lawful teq.
  Variable g : grammar V T.
  Hypothesis Hgood : good g.
  Hypothesis Heps : epsilon_free g.
  Variable c : cfsm V T.
  Hypothesis Hc : cfsm_ok g c.
  Variable fs : list (V * list sym).
  Hypothesis Hf : exact_follow g fs.
  Variable tb : table V T.
  Hypothesis Htb : table_ok teq g c fs tb.
  Hypothesis Hcyc : forall v t', followb g v t' -> ~ unit_chain g v v.

  Notation stk := (stk c tb).
  Notation up := (up teq g).
  Notation heads := (length (g_rules g)).

  Lemma up_irrefl t x : ~ clos_trans V (up t) x x.
  Proof. intros Hx. apply up_chain in Hx. destruct Hx as [Hx (t' & Ht)]. eapply Hcyc; eauto. Qed.

  Lemma ploop_within t ts : forall k w xs st vis,
    (2 * length (t :: ts) + length w) * S heads + (heads - length vis) + 2 <= k ->
    stk w xs st -> NoDup vis -> incl vis (map fst (g_rules g)) ->
    (forall v, In v vis -> exists w0 x, w = w0 ++ [Var x] /\ (v = x \/ clos_trans V (up t) x v)) ->
    (forall k' w' xs' st', k' < k -> (2 * length ts + length w') * S heads + heads + 2 <= k' -> stk w' xs' st' ->
       ploop teq tb k' ts st' <> Diverge) ->
    ploop teq tb k (t :: ts) st <> Diverge.
  Proof.
    induction k as [|k IH]; intros w xs st vis Hk Hst Hnd Hin Hvis Hts; [lia|].
    destruct (step_cases teq Hteq g Hgood Heps c Hc fs Hf tb Htb w xs t ts st Hst) as [(m & Hm)|[H|(H & _)]];
      [|rewrite H; discriminate..].
    destruct m as [[w' xs'] rem']. destruct (move_sim teq Hteq g Heps c Hc fs Hf tb Htb _ _ _ _ _ _ _ Hst Hm) as (st' & Hst' & E).
    rewrite E. clear E. remember (w, xs, t :: ts) as m eqn:Em. remember (w', xs', rem') as m' eqn:Em'.
    destruct Hm as [w0 xs0 t0 ts0 t' h a r L1 L2|w0 bd xs0 ys t0 ts0 t' h h' a r L1 L2 L3 L4 L5];
      injection Em as E1 E2 E3 E4; injection Em' as E5 E6 E7; subst.
    - eapply Hts; [lia| |eauto]. rewrite app_length. cbn [length] in *. nia.
    - pose proof (lr0_rule g _ _ _ _ L1) as Hr. rewrite app_nil_r in Hr. pose proof (rule_nonempty g h bd Hgood Hr) as Hne.
      rewrite app_length in Hk. destruct bd as [|s [|s2 bd]]; [congruence| |].
      + (* a body of one symbol *)
        destruct s as [y|x|].
        2:{ assert (Hu : up t h x) by (split; eauto).
          assert (Hnew : ~ In h vis).
          { intros Hi. destruct (Hvis h Hi) as (w1 & x1 & Ew & Hor). apply app_inj_tail in Ew. destruct Ew as [_ [= <-]].
            destruct Hor as [-> | Hor]; [apply (up_irrefl t x); constructor; auto|].
            apply (up_irrefl t h). eapply t_trans; [constructor; exact Hu|exact Hor]. }
          assert (Hin' : incl (h :: vis) (map fst (g_rules g))).
          { intros z [<-|Hz]; auto. destruct Hr as (bds & Hb & _). change h with (fst (h, bds)). apply in_map. auto. }
          assert (Hnd' : NoDup (h :: vis)) by (constructor; auto).
          pose proof (NoDup_incl_length Hnd' Hin') as Hlen. rewrite map_length in Hlen. cbn [length] in Hlen.
          eapply (IH _ _ _ (h :: vis)); eauto.
          -- rewrite app_length. cbn [length] in *. lia.
          -- intros v [<-|Hv]; [exists w0, h; auto|]. destruct (Hvis v Hv) as (w1 & x1 & Ew & Hor).
             apply app_inj_tail in Ew. destruct Ew as [<- [= <-]]. exists w0, h. split; auto. right.
             destruct Hor as [-> | Hor]; [constructor; auto|]. eapply t_trans; [constructor; exact Hu|exact Hor]. }
        * destruct vis as [|v vis].
          2:{ destruct (Hvis v (or_introl eq_refl)) as (w1 & x1 & Ew & _). apply app_inj_tail in Ew. destruct Ew as [_ Ew]. discriminate. }
          pose proof Hr as (bds & Hb & _).
          assert (Hh : In h (map fst (g_rules g))) by (change h with (fst (h, bds)); apply in_map; auto).
          assert (heads <> 0) by (destruct (g_rules g); [destruct Hh|discriminate]).
          eapply (IH _ _ _ [h]); eauto.
          -- rewrite app_length. cbn [length] in *. lia.
          -- constructor; [intros []|constructor].
          -- intros z [<-|[]]; auto.
          -- intros z [<-|[]]. exists w0, h. auto.
        * exfalso. apply (Heps h [Eps]); [eapply lr0_reachable; eauto|auto|left; auto].
      + eapply (IH _ _ _ []); eauto.
        * rewrite app_length. cbn [length] in *. nia.
        * constructor.
        * intros z [].
        * intros z [].
  Qed.

  Lemma ploop_bound ts : forall k w xs st, (2 * length ts + length w) * S heads + heads + 2 <= k -> stk w xs st ->
    ploop teq tb k ts st <> Diverge.
  Proof.
    induction ts as [|t ts IH]; intros k w xs st Hk Hst.
    - destruct k as [|[|k]]; [lia|lia|].
      destruct (eof_cases teq g Hgood Heps c Hc fs Hf tb Htb w xs st Hst) as [(x & _ & _ & H)|[H|(H & _)]]; rewrite H; discriminate.
    - eapply (ploop_within t ts k w xs st []); eauto.
      + cbn [length] in *. lia.
      + constructor.
      + intros z [].
      + intros z [].
  Qed.

  Lemma parse_bound ts fuel : (2 * length ts + 1) * S heads + 1 <= fuel -> parse teq fuel tb ts <> Diverge.
  Proof. intros H. rewrite parse_ploop. eapply ploop_bound; [|apply stk_nil]. cbn [length]. nia. Qed.
End Steps.
