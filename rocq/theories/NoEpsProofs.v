(** A parser of a grammar with epsilon rules is never exact. *)
From Verif Require Import Base GrammarModel CfsmModel SlrModel SpecCfg SpecMachine GrammarProofs ItemProofs SlrTable SlrNew SlrTerm SlrRun SlrMoves SlrAll
  SlrPrefix SlrFinal SlrMachine.

Section NoEps.
  Context {V T : Type} {dv : DecEq V} {dt : DecEq T}.
  Notation sym := (symbol V T).
  Notation nd := (node V T).
  Variable teq : T -> T -> bool.
  Hypothesis Hteq : lawful teq.
  Variable g : grammar V T.
  Hypothesis Hgood : good g.

  (** ** Items after words that fit a body *)

  Lemma lr0_on w r d : lr0 g (w ++ r) d -> exists d', lr0 g w d'.
  Proof.
    revert d. induction r as [|s r IH] using rev_ind; intros d H; [rewrite app_nil_r in H; eauto|].
    rewrite app_assoc in H. apply (lr0_last g) in H. destruct H as (h & a & r' & H). eauto.
  Qed.

  Lemma skip_no_eps (x y : list sym * list sym) : skip_eps x y -> forall b, snd y <> Eps :: b.
  Proof. induction 1 as [a b H|a b x H IH]; auto. Qed.

  Lemma lr0_no_eps w h a b : lr0 g w (h, a, b) -> forall b', b <> Eps :: b'.
  Proof. intros H. inversion H; subst; eapply (skip_no_eps (_, _) (_, _)); eauto. Qed.

  Lemma skip_filter (x y : list sym * list sym) : skip_eps x y -> filter not_eps (snd y) = filter not_eps (snd x).
  Proof. induction 1 as [a b H|a b x H IH]; auto. Qed.

  (** Both stand where one tree stands. *)
  Definition same_place (s u : sym) : Prop := exists x, sat teq s x /\ sat teq u x.

  Variable e : Prop.
  Hypothesis Hcl : ~ clash g teq e.

  Lemma advance us : forall b w h a, lr0 g w (h, a, b) -> Forall2 same_place (filter not_eps b) us -> (exists d, lr0 g (w ++ us) d) ->
    filter not_eps b = us /\ lr0 g (w ++ us) (h, a ++ b, []).
  Proof.
    induction us as [|u us IH]; intros b w h a H Hf (d & Hd).
    - inversion Hf as [E|]; subst. destruct b as [|s b]; [rewrite !app_nil_r; auto|]. exfalso.
      destruct s; cbn in E; try discriminate. exact (lr0_no_eps _ _ _ _ H b eq_refl).
    - destruct b as [|s b]; [inversion Hf|]. assert (Hs : filter not_eps (s :: b) = s :: filter not_eps b).
      { destruct s; auto. exfalso. exact (lr0_no_eps _ _ _ _ H b eq_refl). }
      rewrite Hs in *. inversion Hf as [|? ? ? ? (x & S1 & S2) Hf']; subst.
      assert (Hd1 : exists h2 a2 r2, lr0 g w (h2, a2, u :: r2)).
      { change (u :: us) with ([u] ++ us) in Hd. rewrite app_assoc in Hd. apply lr0_on in Hd. destruct Hd as (d' & Hd). eapply lr0_last; eauto. }
      destruct Hd1 as (h2 & a2 & r2 & H2).
      assert (s = u) as ->.
      { destruct s as [t|v|], u as [t'|v'|], x as [tx|vx cx]; cbn in S1, S2; try contradiction; [|congruence].
        destruct (eqb t t') eqn:E; [apply eqb_eq in E; congruence|]. exfalso. apply Hcl.
        exists w, (h, a, Ter t :: b), (Some t), (h2, a2, Ter t' :: r2), (Some t'). split; [split; auto|]. split; [split; auto|]. split.
        - intros [= _ _ _ E']. subst t'. rewrite (proj2 (eqb_eq t t) eq_refl) in E. discriminate.
        - cbn. destruct Hteq as (_ & Hsym & Htr). eauto. }
      pose proof (skip_eps_count (V:=V) (T:=T) b (a ++ [u])) as Hk. pose proof (lr0_goto g _ _ _ _ _ _ _ H Hk) as Hn.
      pose proof (skip_filter _ _ Hk) as Hfl. cbn [snd] in Hfl. rewrite <- Hfl in Hf'.
      change (u :: us) with ([u] ++ us) in Hd |- *. rewrite app_assoc in Hd |- *.
      destruct (IH _ _ _ _ Hn Hf' (ex_intro _ d Hd)) as (E1 & E2). split; [cbn; congruence|].
      pose proof (SlrRun.skip_eps_app _ _ Hk) as Ha. cbn [fst snd] in Ha. rewrite <- Ha in E2.
      replace (a ++ u :: b) with ((a ++ [u]) ++ b) by (rewrite <- app_assoc; reflexivity). exact E2.
  Qed.

  Lemma filter_shorter (bd : list sym) : In Eps bd -> length (filter not_eps bd) < length bd.
  Proof.
    induction bd as [|s bd IH]; intros Hi; [destruct Hi|]. assert (Hl : length (filter not_eps bd) <= length bd) by (clear; induction bd as [|s bd IH]; cbn; [lia|]; destruct (not_eps s); cbn; lia).
    destruct Hi as [->|Hi]; cbn; [lia|]. destruct (not_eps s); cbn; [specialize (IH Hi)|]; lia.
  Qed.

  (** ** What the nodes on the stack are made of *)

  Inductive made : sym -> nd -> Prop :=
  | made_leaf : forall t t', teq t t' = true -> made (Ter t') (Node (Ter t) [])
  | made_node : forall h popped w bd t h' a r,
      (forall s n, In (s, n) popped -> made s n) ->
      lr0 g (w ++ word popped) (h, bd, []) -> length popped = length bd -> followed_by g h t -> lr0 g w (h', a, Var h :: r) ->
      made (Var h) (Node (Var h) (map snd popped)).

  Definition all_made (st : stack V T) : Prop := forall s n, In (s, n) st -> made s n.

  Lemma word_app (p st : stack V T) : word (p ++ st) = word st ++ word p.
  Proof. unfold word. rewrite map_app, rev_app_distr. reflexivity. Qed.

  Lemma mmoves_made k m m' : mmoves teq g k m m' -> all_made (fst m) -> all_made (fst m').
  Proof.
    induction 1 as [|k m m1 m2 Hm Hms IH]; auto. intros H. apply IH. clear IH Hms.
    destruct Hm as [st t ts t' h a r Hl Ht|popped st t ts t' h bd h' a r Hl Hf Ht Hn Hg]; cbn [fst] in *; intros s n [E|Hi]; auto.
    - injection E as <- <-. constructor. auto.
    - injection E as <- <-. rewrite word_app in Hl. eapply made_node; eauto. intros s n Hi. apply H. apply in_or_app. auto.
    - apply H. apply in_or_app. auto.
  Qed.

  Lemma mmoves_text k m m' : mmoves teq g k m m' -> spelled_rev (map snd (fst m)) ++ snd m = spelled_rev (map snd (fst m')) ++ snd m'.
  Proof.
    induction 1 as [|k m m1 m2 Hm Hms IH]; auto. rewrite <- IH. clear IH Hms.
    destruct Hm as [st t ts t' h a r Hl Ht|popped st t ts t' h bd h' a r Hl Hf Ht Hn Hg]; cbn [fst snd map].
    - cbn [spelled_rev]. rewrite spelled_node. cbn. rewrite <- app_assoc. reflexivity.
    - cbn [spelled_rev]. rewrite spelled_node, app_nil_r, map_app, spelled_rev_app. reflexivity.
  Qed.

  Lemma made_full s n : made s n -> spelled n <> [].
  Proof.
    induction 1 as [t t' H|h popped w bd t h' a r H IH Hl Hn Hf Hg]; [discriminate|]. rewrite spelled_node, app_nil_r.
    pose proof (lr0_rule g _ _ _ _ Hl) as Hr. rewrite app_nil_r in Hr. pose proof (rule_nonempty g _ _ Hgood Hr) as Hne.
    destruct popped as [|[s n] popped]; [destruct bd; [congruence|discriminate]|]. cbn [map snd spelled_rev]. intros E. apply app_eq_nil in E.
    apply (IH s n); [left; auto|tauto].
  Qed.

  Lemma made_sat s x : made s (to_node x) -> sat teq s x.
  Proof.
    intros H. remember (to_node x) as n eqn:E. destruct H as [t t' H|h popped w bd t h' a r H Hl Hn Hf Hg]; destruct x as [tx|vx cx]; cbn in E; try discriminate.
    - injection E as ->. cbn. apply Hteq. auto.
    - injection E as -> _. reflexivity.
  Qed.

  (** The entries of the stack and the trees of their nodes. *)
  Lemma stack_trees (popped : stack V T) cs : (forall s n, In (s, n) popped -> made s n) -> rev (map to_node cs) = map snd popped ->
    Forall2 (sat teq) (word popped) cs.
  Proof.
    intros H E. apply (f_equal (@rev _)) in E. rewrite rev_involutive in E. unfold word. rewrite <- !map_rev in *.
    assert (H' : forall s n, In (s, n) (rev popped) -> made s n) by (intros s n Hi; apply H, in_rev; auto).
    clear H. revert cs E H'. induction (rev popped) as [|[s n] l IH]; intros [|c cs] E H; cbn in E; try discriminate; constructor.
    - injection E as E1 E2. apply made_sat. rewrite E1. apply H. left. auto.
    - injection E as E1 E2. apply IH; auto. intros s' n' Hi. apply H. right. auto.
  Qed.

  Lemma sat_places bd us cs : Forall2 (sat teq) bd cs -> Forall2 (sat teq) us cs -> Forall2 same_place bd us.
  Proof.
    intros H. revert us. induction H as [|s x bd cs Hs H IH]; intros us H'; inversion H'; subst; constructor; auto. exists x. auto.
  Qed.

  (** No part of a tree that was made and is a derivation fits a body with epsilon. *)
  Lemma made_parts s n : made s n -> forall x, n = to_node x -> derivation g teq x -> forall y, inside y x ->
    forall v cs bd, y = Branch v cs -> rule g v bd -> Forall2 (sat teq) (filter not_eps bd) cs -> ~ In Eps bd.
  Proof.
    induction 1 as [t t' H|h popped w bd0 t h' a r H IH Hl Hn Hf Hg]; intros x E Hd y Hy v cs bd -> Hr Hs He.
    - destruct x as [tx|vx cx]; [inversion Hy|discriminate].
    - destruct x as [tx|vx cx]; [discriminate|]. cbn in E. injection E as <- E. symmetry in E. inversion Hy as [E1|v1 cs1 z Hz Hi E1]; subst.
      + pose proof (stack_trees _ _ H E) as Hw. pose proof (sat_places _ _ _ Hs Hw) as Hp.
        pose proof (skip_eps_count (V:=V) (T:=T) bd []) as Hk. pose proof (lr0_close g _ _ _ _ _ _ _ _ Hg Hr Hk) as Hi.
        pose proof (skip_filter _ _ Hk) as Hfl. cbn [snd] in Hfl. rewrite <- Hfl in Hp.
        destruct (advance _ _ _ _ _ Hi Hp (ex_intro _ _ Hl)) as (E1 & E2).
        pose proof (SlrRun.skip_eps_app _ _ Hk) as Ha. cbn [fst snd app] in Ha, E2. rewrite <- Ha in E2.
        pose proof (filter_shorter bd He) as Hlen. rewrite <- Hfl, E1 in Hlen. unfold word in Hlen. rewrite rev_length, map_length in Hlen.
        apply Hcl. exists (w ++ word popped), (h, bd0, []), (Some t), (h, bd, []), (Some t). split; [split; auto|]. split; [split; auto|]. split.
        * intros [= E3]. subst. lia.
        * cbn. apply (proj1 Hteq).
      + inversion Hd as [|? bd1 ? D1 D2 D3]; subst. rewrite Forall_forall in D3.
        assert (Hz' : In (to_node z) (map snd popped)) by (rewrite <- E; apply in_rev; rewrite rev_involutive; apply in_map; auto).
        apply in_map_iff in Hz'. destruct Hz' as ([s1 n1] & E1 & Hz1). cbn in E1. subst n1.
        exact (IH _ _ Hz1 z eq_refl (D3 _ Hz) _ Hi v cs bd eq_refl Hr Hs He).
  Qed.

  (** A tree of the whole input that is returned. *)
  Lemma accepted_parts k ts st x : mmoves teq g k (initial ts) (st, []) -> maccepts g e (st, []) (to_node x) -> parses g teq ts x -> never_empty x ->
    forall v cs bd, inside (Branch v cs) x -> rule g v bd -> Forall2 (sat teq) (filter not_eps bd) cs -> ~ In Eps bd.
  Proof.
    intros Hm (_ & He & bd0 & Hl & Hle & En) (Hd & Hlv & cs0 & ->) Hne v cs bd Hi Hr Hs Hin.
    assert (Hmade : all_made st) by (apply (mmoves_made _ _ _ Hm); intros s n []).
    pose proof (mmoves_text _ _ _ Hm) as Htx. cbn [initial fst snd map spelled_rev app] in Htx. rewrite app_nil_r in Htx.
    cbn [to_node] in En. injection En as En.
    destruct (Nat.eq_dec (length bd0) (S (length st))) as [Hb|Hb].
    - rewrite firstn_all2 in En by (rewrite app_length, map_length; cbn; lia).
      apply (f_equal (@rev _)) in En. rewrite rev_involutive, rev_app_distr in En. cbn [rev app] in En.
      destruct cs0 as [|b cs0]; [discriminate|]. cbn [map] in En. injection En as Eb En.
      destruct b as [t|vb bs]; [discriminate|]. cbn [to_node] in Eb. injection Eb as -> Eb.
      destruct bs as [|b1 bs]; [|cbn in Eb; destruct (rev (map to_node bs)); discriminate].
      apply (Hne (g_start g)). eapply inside_child; [left; reflexivity|constructor].
    - rewrite firstn_app, map_length in En. replace (length bd0 - length st) with 0 in En by lia. cbn [firstn] in En. rewrite app_nil_r, firstn_map in En.
      set (popped := firstn (length bd0) st) in *. set (rest := skipn (length bd0) st).
      assert (Est : st = popped ++ rest) by (symmetry; apply firstn_skipn).
      assert (Hpl : length popped = length bd0) by (unfold popped; rewrite firstn_length; lia).
      assert (Hpop : forall s n, In (s, n) popped -> made s n) by (intros s n Hx; apply Hmade; rewrite Est; apply in_or_app; auto).
      assert (Hrest : rest = []).
      { assert (Hsp : spelled_rev (map snd popped) = leaves (Branch (g_start g) cs0)).
        { rewrite <- En, <- spelled_to_node. cbn [to_node]. rewrite spelled_node, app_nil_r. reflexivity. }
        rewrite Hlv in Hsp. rewrite Est, map_app, spelled_rev_app, Hsp in Htx. destruct rest as [|[s n] rest']; auto. exfalso.
        apply (f_equal (@length _)) in Htx. rewrite app_length in Htx. cbn [map snd spelled_rev] in Htx. rewrite app_length in Htx.
        assert (Hn : spelled n <> []) by (apply (made_full s); apply Hmade; rewrite Est; apply in_or_app; right; left; auto).
        destruct (spelled n); [congruence|cbn in Htx; lia]. }
      rewrite Hrest, app_nil_r in Est. rewrite <- Est in *. clear popped Est Hrest. pose proof (stack_trees _ _ Hpop En) as Hw.
      inversion Hi as [E1|v1 cs1 z Hz Hi' E1]; subst.
      + pose proof (sat_places _ _ _ Hs Hw) as Hp.
        pose proof (skip_eps_count (V:=V) (T:=T) bd []) as Hk. pose proof (lr0_start g _ _ _ Hr Hk) as Hit.
        pose proof (skip_filter _ _ Hk) as Hfl. cbn [snd] in Hfl. rewrite <- Hfl in Hp.
        destruct (advance _ _ [] _ _ Hit Hp (ex_intro _ _ Hl)) as (E1 & E2). cbn [app] in E2.
        pose proof (SlrRun.skip_eps_app _ _ Hk) as Ha. cbn [fst snd app] in Ha, E2. rewrite <- Ha in E2.
        pose proof (filter_shorter bd Hin) as Hlen. rewrite <- Hfl, E1 in Hlen. unfold word in Hlen. rewrite rev_length, map_length in Hlen.
        apply Hcl. exists (word st), (g_start g, bd0, []), None, (g_start g, bd, []), None. split; [split; auto|]. split; [split; auto|]. split; [|exact I].
        intros [= E3]. subst. lia.
      + inversion Hd as [|? bd1 ? D1 D2 D3]; subst. rewrite Forall_forall in D3.
        assert (Hz' : In (to_node z) (map snd st)) by (rewrite <- En; apply in_rev; rewrite rev_involutive; apply in_map; auto).
        apply in_map_iff in Hz'. destruct Hz' as ([s1 n1] & E1 & Hz1). cbn in E1. subst n1.
        exact (made_parts _ _ (Hpop _ _ Hz1) z eq_refl (D3 _ Hz) _ Hi' v cs bd eq_refl Hr Hs Hin).
  Qed.
End NoEps.

Section Exact.
  Context {V T : Type} {dv : DecEq V} {dt : DecEq T} {ho : HashOrder}.
  Notation sym := (symbol V T).
  Variable teq : T -> T -> bool.
  Hypothesis Hteq : lawful teq.
  Variable g : grammar V T.
  Hypothesis Hb : built g.
  Hypothesis Hprod : forall v, reachable g v -> productive g v.

  (** Trees for a sentential form, one of them with the part [b]. *)
  Definition forest_with (b : tree V T) (y : list sym) : Prop :=
    exists zs, Forall2 (sat teq) (filter not_eps y) zs /\ Forall (derivation g teq) zs /\ Exists (inside b) zs.

  Lemma step_with b y z : step g y z -> forest_with b z -> forest_with b y.
  Proof.
    intros [l v bd r Hr|l r] (zs & H1 & H2 & H3).
    - rewrite !filter_app in H1. apply forall2_split in H1. destruct H1 as (z1 & z0 & -> & Hl & H1).
      apply forall2_split in H1. destruct H1 as (z2 & z3 & -> & Hm & H1).
      apply Forall_app in H2. destruct H2 as [D1 H2]. apply Forall_app in H2. destruct H2 as [D2 D3].
      exists (z1 ++ Branch v z2 :: z3). split; [|split].
      + rewrite filter_app. cbn. apply Forall2_app; auto. constructor; auto. reflexivity.
      + apply Forall_app. split; auto. constructor; auto. econstructor; eauto.
      + rewrite !Exists_app in H3. rewrite Exists_app, Exists_cons. destruct H3 as [H3|[H3|H3]]; auto. right. left.
        apply Exists_exists in H3. destruct H3 as (u & Hu & Hi). eapply inside_child; eauto.
    - exists zs. rewrite filter_app in *. auto.
  Qed.

  Lemma steps_with b y z : steps g y z -> forest_with b z -> forest_with b y.
  Proof. induction 1 as [|x y z H IH Hs]; auto. intros Hz. apply IH. eapply step_with; eauto. Qed.

  Lemma form_trees (y : list sym) : (forall v, In (Var v) y -> reachable g v) ->
    exists zs, Forall2 (sat teq) (filter not_eps y) zs /\ Forall (derivation g teq) zs.
  Proof.
    intros H. apply (body_trees teq Hteq g Hprod).
    - intros v Hv. apply filter_In in Hv. apply H. tauto.
    - intros Hv. apply filter_In in Hv. destruct Hv as [_ Hv]. discriminate.
  Qed.

  Lemma form_reachable y v : steps g [Var (g_start g)] y -> In (Var v) y -> reachable g v.
  Proof. intros H Hi. apply in_split in Hi. destruct Hi as (l & r & ->). exists l, r. auto. Qed.

  (** Every rule of a reachable variable is used in some tree. *)
  Lemma rule_used v bd : reachable g v -> rule g v bd ->
    exists x cs, parses g teq (leaves x) x /\ inside (Branch v cs) x /\ Forall2 (sat teq) (filter not_eps bd) cs.
  Proof.
    intros (l & r & Hs) Hr.
    assert (Hs' : steps g [Var (g_start g)] (l ++ bd ++ r)) by (eapply steps_next; [exact Hs|constructor; auto]).
    destruct (form_trees bd) as (cs & C1 & C2); [intros u Hu; apply (form_reachable _ _ Hs'); rewrite !in_app_iff; auto|].
    destruct (form_trees l) as (ls & L1 & L2); [intros u Hu; apply (form_reachable _ _ Hs'); rewrite !in_app_iff; auto|].
    destruct (form_trees r) as (rs & R1 & R2); [intros u Hu; apply (form_reachable _ _ Hs'); rewrite !in_app_iff; auto|].
    assert (Hw : forest_with (Branch v cs) (l ++ Var v :: r)).
    { exists (ls ++ Branch v cs :: rs). split; [|split].
      - rewrite filter_app. cbn. apply Forall2_app; auto. constructor; auto. reflexivity.
      - apply Forall_app. split; auto. constructor; auto. econstructor; eauto.
      - rewrite Exists_app, Exists_cons. right. left. constructor. }
    apply (steps_with _ _ _ Hs) in Hw. destruct Hw as (zs & Z1 & Z2 & Z3). cbn in Z1. inversion Z1 as [|? x ? ? Hx Hx']; subst. inversion Hx'; subst.
    inversion Z2; subst. inversion Z3 as [? ? Hi|? ? Hi]; subst; [|inversion Hi]. exists x, cs. split; [|auto].
    destruct x as [t|u us]; cbn in Hx; [contradiction|subst u]. split; [auto|split; [reflexivity|eauto]].
  Qed.

  Lemma exact_full fuel p tb : slr_new teq fuel p g = Val tb ->
    (forall ts x, (exists n, forall fuel', n <= fuel' -> parse teq fuel' tb ts = Val (Some (to_node x))) <-> parses g teq ts x) ->
    forall ts x, parses g teq ts x -> never_empty x.
  Proof.
    intros H Hx ts x Hp. pose proof Hp as Hp'. apply Hx in Hp'. destruct Hp' as (n & Hn).
    destruct (no_empty_variables teq Hteq g Hb fuel p tb n ts x H (Hn n (le_n _))) as [He|(cs & -> & Hc)]; auto. exfalso.
    set (x := Branch (g_start g) (Branch (g_start g) [] :: cs)) in *. destruct Hp as (Hd & _).
    assert (Hp : parses g teq (leaves (Branch (g_start g) (x :: cs))) (Branch (g_start g) (x :: cs))).
    { split; [|split; [reflexivity|eauto]]. pose proof Hd as Hd'. unfold x in Hd'. inversion Hd' as [|? bd ? D1 D2 D3]; subst.
      inversion D2 as [|s ? b ? S1 S2]; subst. inversion D3; subst. econstructor; [exact D1| |constructor; [exact Hd|auto]].
      replace (filter not_eps bd) with (s :: b) by auto. constructor; auto. }
    apply Hx in Hp. destruct Hp as (n' & Hn').
    destruct (no_empty_variables teq Hteq g Hb fuel p tb n' _ _ H (Hn' n' (le_n _))) as [He|(cs' & E & _)]; [|discriminate].
    apply (He (g_start g)). eapply inside_child; [left; reflexivity|]. eapply inside_child; [left; reflexivity|constructor].
  Qed.

  Lemma exact_no_eps fuel p tb : slr_new teq fuel p g = Val tb ->
    (forall ts x, (exists n, forall fuel', n <= fuel' -> parse teq fuel' tb ts = Val (Some (to_node x))) <-> parses g teq ts x) ->
    epsilon_free g.
  Proof.
    intros H Hx v bd Hv Hr. pose proof (built_good g Hb) as Hgood.
    destruct (rule_used v bd Hv Hr) as (x & cs & Hp & Hi & Hs). pose proof (exact_full _ _ _ H Hx _ _ Hp) as Hne.
    pose proof Hp as Hp'. apply Hx in Hp'. destruct Hp' as (n & Hn).
    destruct (slr_new_parts teq Hteq g Hb _ _ _ H) as (c & fs & _ & Hc & Hf & Ht).
    destruct (proj1 (proj1 (machine_ok teq Hteq g Hgood c Hc fs Hf tb Ht (leaves x)) (to_node x)) (ex_intro _ n (Hn n (le_n _)))) as (k & [st rem] & Hm & Ha).
    assert (rem = []) as -> by exact (proj1 Ha).
    eapply (accepted_parts teq Hteq g Hgood _ (no_clash teq Hteq g c Hc fs Hf tb Ht) k (leaves x) st x Hm Ha Hp Hne); eauto.
  Qed.
End Exact.
