(** The functions of SpecBuildable.v are right. *)
From Verif Require Import Base GrammarModel CfsmModel SlrModel SpecCfg SpecOutcome FirstProofs FollowProofs ItemProofs GrammarTotal SlrNew SlrFinal EntryProofs WholeProofs UselessProofs
  SpecPossible PossibleFacts SpecExactness ExactnessProofs SpecBuildable.

Lemma in_pick {A B} {da : DecEq A} (v : A) (y : B) l : In y (flat_map (fun x => if eqb (fst x) v then [snd x] else []) l) <-> In (v, y) l.
Proof.
  rewrite in_flat_map. split.
  - intros ([a b] & H1 & H2). cbn [fst snd] in H2. destruct (eqb a v) eqn:E; [|destruct H2]. apply (eqb_eq a v) in E. destruct H2 as [<-|[]]. subst a. exact H1.
  - intros H. exists (v, y). split; [exact H|]. cbn [fst snd]. rewrite (proj2 (eqb_eq v v) eq_refl). left. reflexivity.
Qed.
Lemma prod_room {A B} (l : list A) (l' : list B) : length (list_prod l l') < 2 ^ (bits (length l) + bits (length l')).
Proof. rewrite prod_length, Nat.pow_add_r. pose proof (bits_more (length l)). pose proof (bits_more (length l')). nia. Qed.

(** The least closed set of pairs. *)
Lemma saturated_pairs {A B} {da : DecEq A} {db : DecEq B} (step : list (A * B) -> list (A * B)) (U : list A) (U' : list B) :
  (forall l, incl l (list_prod U U') -> incl (step l) (list_prod U U')) ->
  let l := more_all step (bits (length U) + bits (length U')) [] in (forall a b, In (a, b) (step l) -> In (a, b) l) /\
  (forall P : A -> B -> Prop, (forall l1, (forall a b, In (a, b) l1 -> P a b) -> forall a b, In (a, b) (step l1) -> P a b) -> forall a b, In (a, b) l -> P a b).
Proof.
  intros Hs l. destruct (saturated step (list_prod U U') [] (bits (length U) + bits (length U'))) as (_ & H2 & H3);
    [constructor|intros x []|exact Hs|apply prod_room|]. fold l in H2, H3. split; [intros a b; apply H2|].
  intros P HP a b H. refine (H3 (fun x => P (fst x) (snd x)) _ _ (a, b) H); [intros x []|].
  intros l1 Hl [x y] Hx. cbn [fst snd]. apply (HP l1); [|exact Hx]. intros a' b' H'. exact (Hl (a', b') H').
Qed.

Section Sets.
  Context {V T : Type} {dv : DecEq V} {dt : DecEq T}.
  Notation sym := (symbol V T).
  Notation dotted := (SpecCfg.dotted V T).
  Variable g : grammar V T.

  (** ** The empty string *)
  Lemma null_all (bd : list sym) l : (forall u, In u l -> exists b, rule g u b /\ nullb g b) -> forallb (nul_in l) bd = true -> nullb g bd.
  Proof.
    intros Hl. induction bd as [|[t|u|] bd IH]; cbn; intros E; try discriminate.
    - constructor.
    - apply andb_true_iff in E. destruct E as (E1 & E2). apply memb_in in E1. destruct (Hl u E1) as (b & Hb & Hn). econstructor; eauto.
    - constructor. auto.
  Qed.
  Lemma nullables_spec : (forall v, In v (nullables g) -> exists b, rule g v b /\ nullb g b) /\
    (forall v bd, rule g v bd -> forallb (nul_in (nullables g)) bd = true -> In v (nullables g)).
  Proof.
    destruct (saturated (fun l => flat_map (fun x : V * body V T => if forallb (nul_in l) (snd x) then [fst x] else []) (all_rules g))
      (map fst (all_rules g)) [] (bits (length (all_rules g)))) as (_ & H2 & H3).
    - constructor.
    - intros x [].
    - intros l _ x Hx. apply in_flat_map in Hx. destruct Hx as (y & Hy & Hx). destruct (forallb _ _); [|destruct Hx]. destruct Hx as [<-|[]]. apply in_map. exact Hy.
    - rewrite map_length. apply bits_more.
    - fold (nullables g) in H2, H3. split.
      + apply H3; [intros x []|]. intros l Hl x Hx. apply in_flat_map in Hx. destruct Hx as ([v bd] & Hy & Hx). cbn [fst snd] in Hx.
        destruct (forallb (nul_in l) bd) eqn:E; [|destruct Hx]. destruct Hx as [<-|[]]. apply in_rules in Hy. exists bd. split; [exact Hy|]. eapply null_all; eauto.
      + intros v bd Hr E. apply H2. apply in_flat_map. exists (v, bd). split; [apply in_rules; exact Hr|]. cbn [fst snd]. rewrite E. left. reflexivity.
  Qed.
  Lemma emptyb_null (bd : list sym) : emptyb g bd = true <-> nullb g bd.
  Proof.
    destruct nullables_spec as (H1 & H2). split; [apply null_all, H1|]. unfold emptyb. induction 1 as [|r _ IH|v b r Hr _ IHb _ IHr]; cbn [forallb nul_in].
    - reflexivity.
    - exact IH.
    - rewrite IHr, (proj2 (memb_in v (nullables g)) (H2 v b Hr IHb)). reflexivity.
  Qed.
  Lemma emptyb_ok bd : emptyb g bd = true <-> derives_empty g bd.
  Proof. rewrite emptyb_null. apply null_steps. Qed.
  Lemma nullable_iff v : In v (nullables g) <-> exists b, rule g v b /\ nullb g b.
  Proof.
    split; [apply nullables_spec|]. intros (b & Hr & Hn). apply emptyb_null in Hn. exact (proj2 nullables_spec v b Hr Hn).
  Qed.

  (** ** What a string begins with *)
  Lemma begins_sound l : (forall v t, In (v, t) l -> exists b, rule g v b /\ startb g b t) -> forall bd t, In t (begins g l bd) -> startb g bd t.
  Proof.
    intros Hl. induction bd as [|[t'|u|] bd IH]; cbn [begins]; intros t Ht.
    - destruct Ht.
    - destruct Ht as [<-|[]]. constructor.
    - apply in_app_or in Ht. destruct Ht as [Ht|Ht].
      + apply in_pick in Ht. destruct (Hl _ _ Ht) as (b & Hb & Hs). eapply start_in; eauto.
      + destruct (memb u (nullables g)) eqn:E; [|destruct Ht]. apply memb_in, nullable_iff in E. destruct E as (b & Hb & Hn). eapply start_skip; eauto.
    - constructor. auto.
  Qed.
  Lemma begins_ters l bd t : In t (begins g l bd) -> (exists v, In (v, t) l) \/ In t (ters_of bd).
  Proof.
    induction bd as [|[t'|u|] bd IH]; cbn [begins]; intros Ht.
    - destruct Ht.
    - destruct Ht as [<-|[]]. right. left. reflexivity.
    - apply in_app_or in Ht. destruct Ht as [Ht|Ht]; [left; apply in_pick in Ht; eauto|]. destruct (memb u (nullables g)); [|destruct Ht]. exact (IH Ht).
    - exact (IH Ht).
  Qed.
  Lemma in_ters v bd t : rule g v bd -> In t (ters_of bd) -> In t (all_ters g).
  Proof. intros Hr Ht. apply in_flat_map. exists (v, bd). split; [apply in_rules; exact Hr|exact Ht]. Qed.
  Lemma in_heads v bd : rule g v bd -> In v (heads g).
  Proof. intros Hr. apply in_rules in Hr. apply (in_map fst) in Hr. exact Hr. Qed.

  Lemma firsts_spec : (forall v t, In (v, t) (firsts g) -> exists b, rule g v b /\ startb g b t) /\
    (forall v bd t, rule g v bd -> In t (begins g (firsts g) bd) -> In (v, t) (firsts g)) /\ (forall v t, In (v, t) (firsts g) -> In t (all_ters g)).
  Proof.
    assert (Hu : forall l, incl l (list_prod (heads g) (all_ters g)) ->
      incl (flat_map (fun x : V * body V T => map (pair (fst x)) (begins g l (snd x))) (all_rules g)) (list_prod (heads g) (all_ters g))).
    { intros l Hl x Hx. apply in_flat_map in Hx. destruct Hx as ([v bd] & Hy & Hx). cbn [fst snd] in Hx. apply in_map_iff in Hx. destruct Hx as (t & <- & Ht). apply in_rules in Hy.
      apply in_prod; [eapply in_heads; eauto|]. apply begins_ters in Ht. destruct Ht as [(u & Ht)|Ht]; [apply Hl, in_prod_iff in Ht; apply Ht|eapply in_ters; eauto]. }
    destruct (saturated_pairs _ (heads g) (all_ters g) Hu) as (H2 & H3). fold (firsts g) in H2, H3. split; [|split].
    - apply H3. intros l Hl v t Hx. apply in_flat_map in Hx. destruct Hx as ([v' bd] & Hy & Hx). cbn [fst snd] in Hx. apply in_map_iff in Hx. destruct Hx as (t' & [= -> ->] & Ht).
      apply in_rules in Hy. exists bd. split; [exact Hy|]. eapply begins_sound; eauto.
    - intros v bd t Hr Ht. apply H2. apply in_flat_map. exists (v, bd). split; [apply in_rules; exact Hr|]. cbn [fst snd]. apply in_map. exact Ht.
    - apply (H3 (fun v t => In t (all_ters g))). intros l Hl v t Hx. apply in_flat_map in Hx. destruct Hx as ([v' bd] & Hy & Hx). cbn [fst snd] in Hx. apply in_map_iff in Hx.
      destruct Hx as (t' & [= -> ->] & Ht). apply in_rules in Hy. apply begins_ters in Ht. destruct Ht as [(u & Ht)|Ht]; [eapply Hl; eauto|eapply in_ters; eauto].
  Qed.
  Lemma begins_ok bd t : In t (begins g (firsts g) bd) <-> startb g bd t.
  Proof.
    destruct firsts_spec as (H1 & H2 & _). split; [apply begins_sound, H1|]. induction 1 as [t r|t r _ IH|t v b r Hr _ IH|t v b r Hr Hn _ IH]; cbn [begins].
    - left. reflexivity.
    - exact IH.
    - apply in_or_app. left. apply in_pick. eapply H2; eauto.
    - apply in_or_app. right. rewrite (proj2 (memb_in v (nullables g))); [exact IH|]. apply nullable_iff. eauto.
  Qed.

  (** ** What follows a variable *)
  Lemma in_tails u r : forall bd, In (u, r) (tails bd) <-> exists l, bd = l ++ Var u :: (r : list sym).
  Proof.
    induction bd as [|s bd IH]; cbn [tails].
    - split; [intros []|]. intros ([|? ?] & E); discriminate.
    - rewrite in_app_iff, IH. split.
      + intros [H|(l & ->)]; [|exists (s :: l); reflexivity]. destruct s as [t|u'|]; [destruct H| |destruct H]. destruct H as [H|[]]. injection H as -> ->. exists []. reflexivity.
      + intros ([|s' l] & E); injection E as -> ->; [left; left; reflexivity|right; eauto].
  Qed.
  Lemma in_all_tails h u r : In (h, (u, r)) (all_tails g) <-> exists l, rule g h (l ++ Var u :: r).
  Proof.
    unfold all_tails. rewrite in_flat_map. split.
    - intros ([h' bd] & Hy & Hx). cbn [fst snd] in Hx. apply in_map_iff in Hx. destruct Hx as ([u' r'] & [= -> -> ->] & Hx). apply in_tails in Hx. destruct Hx as (l & ->).
      exists l. apply in_rules. exact Hy.
    - intros (l & Hr). exists (h, l ++ Var u :: r). split; [apply in_rules; exact Hr|]. cbn [fst snd]. apply in_map, in_tails. eauto.
  Qed.
  Lemma tail_var h u r : In (h, (u, r)) (all_tails g) -> In u (body_vars g).
  Proof. intros H. apply in_all_tails in H. destruct H as (l & H). eapply in_body_vars; [exact H|]. apply in_or_app. right. left. reflexivity. Qed.

  Lemma follows_ok v t : In (v, t) (follows g) <-> followb g v t.
  Proof.
    assert (Hu : forall l, incl l (list_prod (body_vars g) (all_ters g)) ->
      incl (flat_map (fun x : V * (V * list sym) => let '(h, (u, r)) := x in
        map (pair u) (begins g (firsts g) r) ++ (if emptyb g r then flat_map (fun y => if eqb (fst y) h then [(u, snd y)] else []) l else [])) (all_tails g)) (list_prod (body_vars g) (all_ters g))).
    { intros l Hl x Hx. apply in_flat_map in Hx. destruct Hx as ([h [u r]] & Hy & Hx). pose proof (tail_var _ _ _ Hy) as Hv. apply in_app_or in Hx. destruct Hx as [Hx|Hx].
      - apply in_map_iff in Hx. destruct Hx as (t' & <- & Ht). apply in_prod; [exact Hv|]. apply begins_ters in Ht. destruct Ht as [(u' & Ht)|Ht]; [eapply firsts_spec; eauto|].
        apply in_all_tails in Hy. destruct Hy as (l' & Hy). eapply in_ters; [exact Hy|]. unfold ters_of in *. rewrite flat_map_app. apply in_or_app. right. exact Ht.
      - destruct (emptyb g r); [|destruct Hx]. apply in_flat_map in Hx. destruct Hx as ([h' t'] & Hz & Hx). cbn [fst snd] in Hx. destruct (eqb h' h); [|destruct Hx].
        destruct Hx as [<-|[]]. apply in_prod; [exact Hv|]. apply Hl, in_prod_iff in Hz. apply Hz. }
    destruct (saturated_pairs _ (body_vars g) (all_ters g) Hu) as (H2 & H3). fold (follows g) in H2, H3. split.
    - revert v t. apply H3. intros l Hl v t Hx. apply in_flat_map in Hx. destruct Hx as ([h [u r]] & Hy & Hx). apply in_all_tails in Hy. destruct Hy as (l' & Hy).
      apply in_app_or in Hx. destruct Hx as [Hx|Hx].
      + apply in_map_iff in Hx. destruct Hx as (t' & [= -> ->] & Ht). apply begins_ok in Ht. eapply follow_direct; eauto.
      + destruct (emptyb g r) eqn:E; [|destruct Hx]. apply emptyb_null in E. apply in_flat_map in Hx. destruct Hx as ([h' t'] & Hz & Hx). cbn [fst snd] in Hx.
        destruct (eqb h' h) eqn:E'; [|destruct Hx]. apply (eqb_eq h' h) in E'. subst h'. destruct Hx as [[= -> ->]|[]]. eapply follow_up; eauto.
    - induction 1 as [h l v r t Hr Hs|h l v r t Hr Hn _ IH]; apply H2, in_flat_map; exists (h, (v, r)); (split; [apply in_all_tails; eauto|]); apply in_or_app.
      + left. apply in_map, begins_ok, Hs.
      + right. rewrite (proj2 (emptyb_null r) Hn). apply in_flat_map. exists (h, t). split; [exact IH|]. cbn [fst snd]. rewrite (proj2 (eqb_eq h h) eq_refl). left. reflexivity.
  Qed.
  Lemma follow_ok v t : In t (follow g v) <-> followed_by g v t.
  Proof. unfold follow. rewrite in_pick, follows_ok. apply follow_steps. Qed.

  (** ** Entries *)
  Lemma filled_ok (r : list sym) : filled r = true <-> r <> [].
  Proof. destruct r; cbn; split; congruence. Qed.
  Lemma directb_ok v : directb g v = true <-> exists h l r, rule g h (l ++ Var v :: r) /\ r <> [].
  Proof.
    unfold directb. rewrite existsb_exists. split.
    - intros ([h [u r]] & Hx & E). cbn [fst snd] in E. apply andb_true_iff in E. destruct E as (E & F). apply (eqb_eq u v) in E. subst u. apply filled_ok in F.
      apply in_all_tails in Hx. destruct Hx as (l & Hx). eauto.
    - intros (h & l & r & Hr & Hn). exists (h, (v, r)). split; [apply in_all_tails; eauto|]. cbn [fst snd]. rewrite (proj2 (eqb_eq v v) eq_refl). apply filled_ok. exact Hn.
  Qed.
  Lemma sureb_ok v : sureb g v = true <-> entry_sure g v.
  Proof.
    unfold sureb, entry_sure. rewrite !orb_true_iff, directb_ok, filled_ok, existsb_exists. split.
    - intros [[H|H]|([h [u r]] & Hx & E)].
      + left. exact H.
      + right. left. destruct (follow g v) as [|t l] eqn:E; [destruct H; reflexivity|]. exists t. apply follow_ok. rewrite E. left. reflexivity.
      + right. right. cbn [fst snd] in E. rewrite !andb_true_iff, negb_true_iff in E. destruct E as ((E1 & E2) & E3). apply (eqb_eq u v) in E1. subst u.
        destruct r as [|s r]; [|discriminate]. apply directb_ok in E3. destruct E3 as (h' & l' & r' & Hr' & Hn). apply in_all_tails in Hx. destruct Hx as (l & Hx). exists h, l, h', l', r'. auto.
    - intros [H|[(t & H)|(h & l & h' & l' & r' & H1 & H2 & H3)]].
      + left. left. exact H.
      + left. right. apply follow_ok in H. destruct (follow g v); [destruct H|discriminate].
      + right. exists (h, (v, [])). split; [apply in_all_tails; eauto|]. cbn [fst snd filled negb]. rewrite (proj2 (eqb_eq v v) eq_refl). cbn [andb]. apply directb_ok. eauto.
  Qed.
  Lemma maybeb_ok v : maybeb g v = true <-> entry_possible g v.
  Proof.
    destruct (saturated (fun l => flat_map (fun x : V * (V * list sym) => let '(h, (u, r)) := x in if filled r || (emptyb g r && memb h l) then [u] else []) (all_tails g))
      (body_vars g) [] (bits (length (body_vars g)))) as (_ & H2 & H3).
    - constructor.
    - intros x [].
    - intros l _ x Hx. apply in_flat_map in Hx. destruct Hx as ([h [u r]] & Hy & Hx). destruct (filled r || _); [|destruct Hx]. destruct Hx as [<-|[]]. eapply tail_var; eauto.
    - apply bits_more.
    - fold (entries g) in H2, H3. unfold maybeb. rewrite memb_in. split.
      + revert v. apply H3; [intros x []|]. intros l Hl x Hx. apply in_flat_map in Hx. destruct Hx as ([h [u r]] & Hy & Hx). destruct (filled r || _) eqn:E; [|destruct Hx].
        destruct Hx as [<-|[]]. apply in_all_tails in Hy. destruct Hy as (l' & Hy). apply orb_true_iff in E. destruct E as [E|E].
        * eapply entry_direct; [exact Hy|]. apply filled_ok. exact E.
        * apply andb_true_iff in E. destruct E as (E1 & E2). apply memb_in in E2. eapply entry_up; [exact Hy|apply emptyb_ok; exact E1|auto].
      + induction 1 as [h l v r Hr Hn|h l v r Hr He _ IH]; apply H2, in_flat_map; exists (h, (v, r)); (split; [apply in_all_tails; eauto|]).
        * rewrite (proj2 (filled_ok r) Hn). left. reflexivity.
        * rewrite (proj2 (emptyb_ok r) He), (proj2 (memb_in h (entries g)) IH). cbn [andb]. rewrite orb_true_r. left. reflexivity.
  Qed.

  (** ** Items that are in one state *)
  Lemma skip_ok (b : list sym) : forall a a' b', skip_eps (a, b) (a', b') <-> skip a b = (a', b').
  Proof.
    induction b as [|s b IH]; intros a a' b'; cbn [skip].
    - split; [intros H; inversion H; reflexivity|intros [= <- <-]; constructor; discriminate].
    - destruct s as [t|u|].
      1,2: split; [intros H; inversion H; reflexivity|intros [= <- <-]; constructor; discriminate].
      rewrite <- IH. split; [intros H; inversion H as [? ? Hn|]; subst; [destruct (Hn _ eq_refl)|assumption]|intros H; constructor; exact H].
  Qed.
  Lemma in_initials v h a b : In (h, a, b) (initials g v) <-> h = v /\ exists bd, rule g v bd /\ skip_eps ([], bd) (a, b).
  Proof.
    unfold initials. rewrite in_flat_map. split.
    - intros ([v' bd] & Hy & Hx). cbn [fst snd] in Hx. destruct (eqb v' v) eqn:E; [|destruct Hx]. apply (eqb_eq v' v) in E. subst v'. destruct Hx as [Hx|[]]. unfold dot in Hx.
      destruct (skip [] bd) as [a' b'] eqn:Es. injection Hx as -> -> ->. split; [reflexivity|]. exists bd. split; [apply in_rules; exact Hy|apply skip_ok; exact Es].
    - intros (-> & bd & Hr & Hs). exists (v, bd). split; [apply in_rules; exact Hr|]. cbn [fst snd]. rewrite (proj2 (eqb_eq v v) eq_refl). apply skip_ok in Hs. unfold dot. rewrite Hs. left. reflexivity.
  Qed.
  Lemma in_splits (b : list sym) : forall a x y, In (x, y) (splits a b) <-> exists c, x = a ++ c /\ b = c ++ y.
  Proof.
    induction b as [|s b IH]; intros a x y; cbn [splits].
    - split; [intros [[= <- <-]|[]]; exists []; rewrite app_nil_r; auto|]. intros ([|? ?] & -> & E); [|discriminate]. left. rewrite app_nil_r. cbn in E. rewrite E. reflexivity.
    - split.
      + intros [[= <- <-]|H]; [exists []; rewrite app_nil_r; auto|]. apply IH in H. destruct H as (c & -> & ->). exists (s :: c). rewrite <- app_assoc. auto.
      + intros ([|s' c] & -> & E); [left; rewrite app_nil_r; cbn in E; rewrite E; reflexivity|]. injection E as <- ->. right. apply IH. exists c. rewrite <- app_assoc. auto.
  Qed.
  Lemma in_dots h a b : In (h, a, b) (all_dots g) <-> rule g h (a ++ b).
  Proof.
    unfold all_dots. rewrite in_flat_map. split.
    - intros ([v bd] & Hy & Hx). cbn [fst snd] in Hx. apply in_map_iff in Hx. destruct Hx as ([x y] & Hd & Hx). injection Hd as -> -> ->. apply in_splits in Hx.
      destruct Hx as (c & -> & ->). apply in_rules. exact Hy.
    - intros Hr. exists (h, a ++ b). split; [apply in_rules; exact Hr|]. cbn [fst snd]. apply in_map_iff. exists (a, b). split; [reflexivity|]. apply in_splits. exists a. auto.
  Qed.
  Lemma in_closes d h a b : In (h, a, b) (closes g d) <-> exists h' a' r bd, d = (h', a', Var h :: r) /\ rule g h bd /\ skip_eps ([], bd) (a, b).
  Proof.
    destruct d as [[h' a'] [|[t|v|] r]]; cbn [closes].
    1,2,4: split; [intros []|intros (? & ? & ? & ? & E & _); discriminate].
    rewrite in_initials. split.
    - intros (-> & bd & H1 & H2). exists h', a', r, bd. auto.
    - intros (? & ? & ? & bd & [= -> -> -> ->] & H1 & H2). eauto.
  Qed.
  Lemma in_both (d d' : dotted) h a b h' a' b' : In ((h, a, b), (h', a', b')) (both d d') <->
    exists x r x' r' s, d = (h, x, s :: r) /\ d' = (h', x', s :: r') /\ skip_eps (x ++ [s], r) (a, b) /\ skip_eps (x' ++ [s], r') (a', b').
  Proof.
    destruct d as [[h1 x] [|s r]]; [split; [intros []|intros (? & ? & ? & ? & ? & E & _); discriminate]|].
    destruct d' as [[h1' x'] [|s' r']]; [split; [intros []|intros (? & ? & ? & ? & ? & _ & E & _); discriminate]|].
    cbn [both]. destruct (eqb s s') eqn:E.
    - apply (eqb_eq s s') in E. subst s'. unfold dot. split.
      + intros [H|[]]. destruct (skip (x ++ [s]) r) as [a1 b1] eqn:E1, (skip (x' ++ [s]) r') as [a2 b2] eqn:E2. injection H as -> -> -> -> -> ->.
        exists x, r, x', r', s. split; [reflexivity|]. split; [reflexivity|]. split; apply skip_ok; assumption.
      + intros (y & z & y' & z' & c & E & E' & H1 & H2). injection E; injection E'; intros; subst. apply skip_ok in H1. apply skip_ok in H2. rewrite H1, H2. left. reflexivity.
    - split; [intros []|]. intros (y & z & y' & z' & c & E1 & E2 & _). injection E1; injection E2; intros; subst. rewrite (proj2 (eqb_eq c c) eq_refl) in E. discriminate.
  Qed.

  Lemma lr0_rule w d : lr0 g w d -> let '(h, a, b) := d in rule g h (a ++ b).
  Proof.
    induction 1 as [bd a b Hr Hs|w h a v r bd a' b' _ _ Hr Hs|w h a s r a' b' _ IH Hs]; apply ItemProofs.skip_eps_app in Hs; rewrite Hs; [exact Hr|exact Hr|].
    rewrite <- app_assoc. exact IH.
  Qed.
  Definition grow (l : list (dotted * dotted)) : list (dotted * dotted) :=
    list_prod (initials g (g_start g)) (initials g (g_start g)) ++
    flat_map (fun x : dotted * dotted => map (fun d => (d, snd x)) (closes g (fst x)) ++ map (pair (fst x)) (closes g (snd x)) ++ both (fst x) (snd x)) l.
  Lemma grow_sound l (Hl : forall d d', In (d, d') l -> exists w, lr0 g w d /\ lr0 g w d') d d' : In (d, d') (grow l) -> exists w, lr0 g w d /\ lr0 g w d'.
  Proof.
    intros H. destruct d as [[h a] b], d' as [[h' a'] b']. apply in_app_or in H. destruct H as [H|H].
    - apply in_prod_iff in H. destruct H as (H1 & H2). apply in_initials in H1. apply in_initials in H2. destruct H1 as (-> & bd & R1 & S1), H2 as (-> & bd' & R2 & S2).
      exists []. split; [exact (lr0_start g bd a b R1 S1)|exact (lr0_start g bd' a' b' R2 S2)].
    - apply in_flat_map in H. destruct H as ([e e'] & He & H). cbn [fst snd] in H. destruct (Hl _ _ He) as (w & L & L'). rewrite !in_app_iff, !in_map_iff in H.
      destruct H as [(x & [= -> <-] & H)|[(x & [= <- ->] & H)|H]].
      + apply in_closes in H. destruct H as (? & ? & ? & bd & -> & R & S). exists w. split; [eapply lr0_close; eauto|exact L'].
      + apply in_closes in H. destruct H as (? & ? & ? & bd & -> & R & S). exists w. split; [exact L|eapply lr0_close; eauto].
      + apply in_both in H. destruct H as (x & r & x' & r' & s & -> & -> & S1 & S2). exists (w ++ [s]). split; eapply lr0_goto; eauto.
  Qed.
  Lemma twins_spec : (forall d d', In (d, d') (grow (twins g)) -> In (d, d') (twins g)) /\ (forall d d', In (d, d') (twins g) -> exists w, lr0 g w d /\ lr0 g w d').
  Proof.
    assert (Hd : forall v d, In d (initials g v) -> In d (all_dots g)).
    { intros v [[h a] b] H. apply in_initials in H. destruct H as (-> & bd & Hr & Hs). apply in_dots. apply ItemProofs.skip_eps_app in Hs. rewrite Hs. exact Hr. }
    assert (Hc : forall e d, In d (closes g e) -> In d (all_dots g)).
    { intros [[h a] [|[t|v|] r]] d H; try destruct H. exact (Hd v d H). }
    assert (Hu : forall l, incl l (list_prod (all_dots g) (all_dots g)) -> incl (grow l) (list_prod (all_dots g) (all_dots g))).
    { intros l Hl [[[h a] b] [[h' a'] b']] H. apply in_app_or in H. destruct H as [H|H].
      - apply in_prod_iff in H. apply in_prod; eapply Hd; apply H.
      - apply in_flat_map in H. destruct H as ([e e'] & He & H). cbn [fst snd] in H. apply Hl, in_prod_iff in He. destruct He as (He & He'). rewrite !in_app_iff, !in_map_iff in H.
        destruct H as [(x & [= -> <-] & H)|[(x & [= <- ->] & H)|H]].
        + apply in_prod; [exact (Hc _ _ H)|exact He'].
        + apply in_prod; [exact He|exact (Hc _ _ H)].
        + apply in_both in H. destruct H as (x & r & x' & r' & s & -> & -> & S1 & S2). apply in_dots in He. apply in_dots in He'.
          apply ItemProofs.skip_eps_app in S1. apply ItemProofs.skip_eps_app in S2. apply in_prod; apply in_dots; rewrite ?S1, ?S2, <- app_assoc; assumption. }
    destruct (saturated_pairs grow (all_dots g) (all_dots g) Hu) as (H2 & H3). fold (twins g) in H2, H3. split; [exact H2|]. apply H3. exact grow_sound.
  Qed.

  (** The items of a state that others are closed from. *)
  Inductive core : list sym -> dotted -> Prop :=
  | core_start : forall bd a b, rule g (g_start g) bd -> skip_eps ([], bd) (a, b) -> core [] (g_start g, a, b)
  | core_goto : forall w h a s r a' b', lr0 g w (h, a, s :: r) -> skip_eps (a ++ [s], r) (a', b') -> core (w ++ [s]) (h, a', b').
  Lemma twins_all w : forall d d', lr0 g w d -> lr0 g w d' -> In (d, d') (twins g).
  Proof.
    destruct twins_spec as (C & _). induction w as [w IH] using (induction_ltof1 _ (@length sym)). unfold ltof in IH.
    assert (K : forall d d', core w d -> core w d' -> In (d, d') (twins g)).
    { intros d d' H H'. inversion H as [bd a b R S|w0 h a s r a' b' L S]; subst; inversion H' as [bd1 a1 b1 R1 S1 E|w1 h1 a1 s1 r1 a1' b1' L1 S1 E]; subst.
      - apply C, in_or_app. left. apply in_prod; apply in_initials; eauto.
      - destruct w1; discriminate.
      - destruct w0; discriminate.
      - apply app_inj_tail in E. destruct E as (-> & ->). apply C, in_or_app. right. apply in_flat_map. exists ((h, a, s :: r), (h1, a1, s :: r1)). split.
        + apply (IH w0); [rewrite app_length; cbn; lia|exact L|exact L1].
        + cbn [fst snd]. apply in_or_app. right. apply in_or_app. right. apply in_both. exists a, r, a1, r1, s. auto. }
    clear IH.
    assert (K1 : forall w' d, lr0 g w' d -> w' = w -> forall d', core w d' -> In (d, d') (twins g)).
    { induction 1 as [bd a b R S|w' h a v r bd a' b' L IHL R S|w' h a s r a' b' L _ S]; intros E d' H'.
      - subst w. apply K; [econstructor; eauto|exact H'].
      - apply C, in_or_app. right. apply in_flat_map. exists ((h, a, Var v :: r), d'). split; [apply IHL; auto|]. cbn [fst snd]. apply in_or_app. left.
        apply (in_map (fun d => (d, d'))). apply in_closes. exists h, a, r, bd. auto.
      - subst w. apply K; [econstructor; eauto|exact H']. }
    assert (K2 : forall w' d', lr0 g w' d' -> w' = w -> forall d, lr0 g w d -> In (d, d') (twins g)).
    { induction 1 as [bd a b R S|w' h a v r bd a' b' L IHL R S|w' h a s r a' b' L _ S]; intros E d H.
      - subst w. eapply K1; eauto. econstructor; eauto.
      - apply C, in_or_app. right. apply in_flat_map. exists (d, (h, a, Var v :: r)). split; [apply IHL; auto|]. cbn [fst snd]. apply in_or_app. right. apply in_or_app. left.
        apply in_map. apply in_closes. exists h, a, r, bd. auto.
      - subst w. eapply K1; eauto. econstructor; eauto. }
    intros d d' H H'. exact (K2 w d' H' eq_refl d H).
  Qed.
  Lemma twins_ok d d' : In (d, d') (twins g) <-> exists w, lr0 g w d /\ lr0 g w d'.
  Proof. split; [apply twins_spec|]. intros (w & H & H'). eapply twins_all; eauto. Qed.

  (** ** Clashes *)
  Lemma asks_ok e (E : Prop) w d k : (e = true <-> E) -> lr0 g w d -> In k (asks g e d) <-> wants g E w d k.
  Proof.
    intros He L. unfold wants. destruct d as [[h a] [|[t|v|] r]]; cbn [asks].
    - rewrite in_app_iff. split.
      + intros [H|H]; (split; [exact L|]).
        * apply in_map_iff in H. destruct H as (t & <- & H). apply follow_ok. exact H.
        * destruct (eqb h (g_start g) && e) eqn:X; [|destruct H]. destruct H as [<-|[]]. apply andb_true_iff in X. destruct X as (X & Y). apply (eqb_eq h (g_start g)) in X. tauto.
      + intros (_ & H). destruct k as [t|]; [left; apply in_map, follow_ok, H|right]. destruct H as (-> & H). rewrite (proj2 (eqb_eq _ _) eq_refl), (proj2 He H). left. reflexivity.
    - split; [intros [<-|[]]; auto|]. intros (_ & H). destruct k as [t'|]; [subst; left; reflexivity|destruct H].
    - split; [intros []|]. intros (_ & H). destruct k; destruct H.
    - split; [intros []|]. intros (_ & H). destruct k; destruct H.
  Qed.
  Lemma same_keyb_ok teq (k k' : option T) : same_keyb teq k k' = true <-> same_key teq k k'.
  Proof. destruct k, k'; cbn; split; auto; try discriminate; intros []. Qed.
  Lemma clashb_ok teq e (E : Prop) : (e = true <-> E) -> clashb g teq e = true <-> clash g teq E.
  Proof.
    intros He. unfold clashb. rewrite existsb_exists. split.
    - intros ([d d'] & Hx & H). cbn [fst snd] in H. apply existsb_exists in H. destruct H as (k & Hk & H). apply existsb_exists in H. destruct H as (k' & Hk' & H).
      apply andb_true_iff in H. destruct H as (H1 & H2). apply negb_true_iff in H2. apply twins_ok in Hx. destruct Hx as (w & L & L'). exists w, d, k, d', k'.
      split; [apply (asks_ok e E); auto|]. split; [apply (asks_ok e E); auto|]. split; [|apply same_keyb_ok; exact H1].
      intros Q. rewrite Q, (proj2 (eqb_eq _ _) eq_refl) in H2. discriminate.
    - intros (w & d & k & d' & k' & W & W' & Hn & Hk). exists (d, d'). split; [apply twins_ok; exists w; split; [apply W|apply W']|]. cbn [fst snd].
      apply existsb_exists. exists k. split; [apply (asks_ok e E w d k He); [apply W|exact W]|]. apply existsb_exists. exists k'. split; [apply (asks_ok e E w d' k' He); [apply W'|exact W']|].
      apply andb_true_iff. split; [apply same_keyb_ok; exact Hk|]. apply negb_true_iff. destruct (eqb (d, k) (d', k')) eqn:Q; [|reflexivity]. apply (eqb_eq (d, k) (d', k')) in Q. destruct (Hn Q).
  Qed.

  (** ** The decisions *)
  Hypothesis Hb : built g.
  Variable teq : T -> T -> bool.
  Hypothesis Hteq : lawful teq.
  Lemma always_clash : always_built g teq = true <-> ~ clash g teq (entry_possible g (g_start g)).
  Proof. unfold always_built. rewrite negb_true_iff, <- (clashb_ok teq _ _ (maybeb_ok (g_start g))). destruct (clashb _ _ _); split; congruence. Qed.
  Lemma sometimes_clash : sometimes_built g teq = true <-> ~ clash g teq (entry_sure g (g_start g)).
  Proof. unfold sometimes_built. rewrite negb_true_iff, <- (clashb_ok teq _ _ (sureb_ok (g_start g))). destruct (clashb _ _ _); split; congruence. Qed.
  Lemma slr_both (ho : HashOrder) p : exists n r, (forall fuel, n <= fuel -> slr_new teq fuel p g = r) /\ (r = Panic \/ exists tb, r = Val tb).
  Proof. destruct (slr_new_total teq Hteq g Hb p) as (n & r & Hr & [(-> & _)|(tb & -> & _)]); exists n; eauto. Qed.
  Lemma panics_some : (exists (ho : HashOrder) p n, forall fuel, n <= fuel -> slr_new teq fuel p g = Panic) <-> always_built g teq = false.
  Proof.
    rewrite (proj1 (some_order g Hb teq Hteq)). unfold always_built. rewrite negb_false_iff. symmetry. apply clashb_ok, maybeb_ok.
  Qed.
  Lemma built_always : (forall (ho : HashOrder) p, exists n tb, forall fuel, n <= fuel -> slr_new teq fuel p g = Val tb) <-> always_built g teq = true.
  Proof.
    split.
    - intros H. destruct (always_built g teq) eqn:E; [reflexivity|exfalso]. apply panics_some in E. destruct E as (ho & p & n & E). destruct (H ho p) as (n' & tb & H').
      specialize (E (n + n') ltac:(lia)). rewrite (H' (n + n') ltac:(lia)) in E. discriminate.
    - intros H ho p. destruct (slr_both ho p) as (n & r & Hr & [->|(tb & ->)]); [exfalso|eauto].
      assert (E : always_built g teq = false) by (apply panics_some; eauto). congruence.
  Qed.
  Lemma built_sometimes : (exists (ho : HashOrder) p n tb, forall fuel, n <= fuel -> slr_new teq fuel p g = Val tb) <-> sometimes_built g teq = true.
  Proof. rewrite (proj2 (some_order g Hb teq Hteq)). symmetry. apply sometimes_clash. Qed.

  Definition exactly_always : Prop := forall (ho : HashOrder) p, exists n tb, (forall fuel, n <= fuel -> slr_new teq fuel p g = Val tb) /\
    forall ts x, (exists n, forall fuel, n <= fuel -> parse teq fuel tb ts = Val (Some (to_node x))) <-> parses g teq ts x.
  Lemma exact_free : epsilon_free g -> exactly_always <-> always_exact g teq = true.
  Proof.
    intros He. unfold exactly_always. rewrite (useless_all g Hb teq Hteq He), <- always_clash. unfold always_exact. rewrite (proj2 (freeb_ok g) He). cbn [andb].
    rewrite andb_true_iff, orb_true_iff, negb_true_iff, !andb_true_iff, (frontb_ok g He), endsb_ok, sureb_ok. destruct (productiveb g (g_start g)) eqn:E.
    - apply productiveb_ok in E. split.
      + intros (H & H'). split; [exact H|right]. destruct (H' E) as (H1 & H2 & H3). auto.
      + intros (H & [H'|((H1 & H2) & H3)]); [discriminate|]. auto.
    - split; [intros (H & _); auto|]. intros (H & _). split; [exact H|]. intros H'. apply productiveb_ok in H'. congruence.
  Qed.
  Lemma exact_always : epsilon_free g \/ (forall v, reachable g v -> productive g v) -> exactly_always <-> always_exact g teq = true.
  Proof.
    intros [He|Hp]; [apply exact_free, He|]. split; intros H.
    - apply exact_free; [|exact H]. apply (proj1 (any_exact g Hb teq Hteq Hp) H).
    - apply exact_free; [|exact H]. apply freeb_ok. unfold always_exact in H. rewrite !andb_true_iff in H. apply H.
  Qed.
End Sets.
