(** Proofs about the iterator wrappers. *)
From Verif Require Import Base Iter SpecIter.

Section IterProofs.
  Context {S A : Type} (it_next : S -> option A * S).

  (** The wrapper [c] stands for the plain iterator [s] with last item
      [last]. *)
  Definition stands (c : cached S A) (st : S * option A) : Prop :=
    (match pk_peeked (cp_iter c) with
     | None => pk_iter (cp_iter c) = fst st
     | Some v => it_next (fst st) = (v, pk_iter (cp_iter c))
     end) /\ cp_cur c = snd st.

  Lemma stands_new s : stands (cp_new s) (s, None).
  Proof. split; reflexivity. Qed.

  Lemma step_stands c st o :
    stands c st ->
    fst (cp_step it_next c o) = fst (spec_step it_next st o) /\
    stands (snd (cp_step it_next c o)) (snd (spec_step it_next st o)).
  Proof.
    destruct st as [s last], c as [[it pk] cur]. unfold stands; cbn. intros [H1 H2].
    destruct o; cbn; unfold cp_next, cp_peek, cp_next_if, pk_next_if, pk_next, pk_peek; cbn.
    - destruct pk as [v|]; cbn.
      + rewrite H1; cbn. auto.
      + subst it. destruct (it_next s) as [v s'] eqn:E; cbn. auto.
    - destruct pk as [v|]; cbn.
      + rewrite H1; cbn. auto.
      + subst it. destruct (it_next s) as [v s'] eqn:E; cbn. auto.
    - destruct pk as [v|]; cbn.
      + rewrite H1; cbn. destruct v as [a|]; [destruct (f a)|]; cbn; auto.
      + subst it. destruct (it_next s) as [v s'] eqn:E; cbn.
        destruct v as [a|]; [destruct (f a)|]; cbn; auto.
    - destruct (it_next s) as [v s'] eqn:E; cbn. destruct pk; split; auto; split; congruence.
  Qed.

  Lemma run_stands os : forall c st, stands c st -> cp_run it_next c os = spec_run it_next st os.
  Proof.
    induction os as [|o os IH]; intros c st H; cbn; [reflexivity|].
    destruct (step_stands c st o H) as [H1 H2].
    destruct (cp_step it_next c o) as [v c'], (spec_step it_next st o) as [v' st']; cbn in *.
    subst; f_equal; auto.
  Qed.

  Lemma exec_stands os : forall c st, stands c st ->
    stands (cp_exec it_next c os) (spec_exec it_next st os).
  Proof.
    induction os as [|o os IH]; intros c st H; cbn; [assumption|].
    apply IH. apply step_stands; assumption.
  Qed.

  Lemma cached_refines s os : cp_run it_next (cp_new s) os = spec_run it_next (s, None) os.
  Proof. apply run_stands, stands_new. Qed.

  (** One step of the mapping adapter. *)
  Lemma cmw_step {B} (f : A -> option B) c s last :
    stands c (s, last) ->
    match fst (it_next s) with
    | Some a => match f a with
                | Some b => fst (cmw_next it_next f c) = Some b /\
                            stands (snd (cmw_next it_next f c)) (snd (it_next s), Some a)
                | None => fst (cmw_next it_next f c) = None /\
                          stands (snd (cmw_next it_next f c)) (s, last)
                end
    | None => fst (cmw_next it_next f c) = None /\ stands (snd (cmw_next it_next f c)) (s, last)
    end.
  Proof.
    intros H. unfold cmw_next.
    destruct (step_stands c (s, last) OpPeek H) as [P1 P2]. cbn in P1, P2.
    destruct (it_next s) as [v s'] eqn:E; cbn in *.
    destruct (cp_peek it_next c) as [v1 c1]; cbn in *. subst v1.
    destruct v as [a|]; [|auto].
    destruct (f a) as [b|]; [|auto].
    destruct (step_stands c1 (s, last) OpNext P2) as [N1 N2]. cbn in N1, N2. rewrite E in N1, N2.
    destruct (cp_next it_next c1) as [v2 c2]; cbn in *. auto.
  Qed.

  Lemma cmw_drain_spec {B} (f : A -> option B) : forall l s s' fuel c last,
    stands c (s, last) ->
    delivers it_next s l s' ->
    (forall a, In a l -> f a <> None) ->
    stops_at it_next (fun a => match f a with Some _ => true | None => false end) s' ->
    length l < fuel ->
    exists bs c' last', cmw_drain it_next fuel f c = Some (bs, c') /\
      map Some bs = map f l /\ stands c' (s', last').
  Proof.
    induction l as [|a l IH]; intros s s' fuel c last Hc Hd Hall Hstop Hfuel;
      (destruct fuel as [|fuel]; [cbn in Hfuel; lia|]); cbn [cmw_drain];
      pose proof (cmw_step f c s last Hc) as Hs.
    - inversion Hd; subst. unfold stops_at in Hstop.
      destruct (fst (it_next s')) as [a|] eqn:E.
      + destruct (f a) as [b|] eqn:F; [discriminate|].
        destruct Hs as [Hs1 Hs2]. destruct (cmw_next it_next f c) as [v c1]; cbn in *. subst v.
        exists [], c1, last. auto.
      + destruct Hs as [Hs1 Hs2]. destruct (cmw_next it_next f c) as [v c1]; cbn in *. subst v.
        exists [], c1, last. auto.
    - inversion Hd as [|? ? s1 ? ? En Hd']; subst. rewrite En in Hs; cbn in Hs.
      destruct (f a) as [b|] eqn:F; [|exfalso; apply (Hall a); [left; reflexivity|assumption]].
      destruct Hs as [Hs1 Hs2]. destruct (cmw_next it_next f c) as [v c1]; cbn in *. subst v.
      destruct (IH s1 s' fuel c1 (Some a) Hs2 Hd') as (bs & c' & last' & R1 & R2 & R3).
      + intros x Hx. apply Hall. right; assumption.
      + assumption.
      + lia.
      + rewrite R1. exists (b :: bs), c', last'. cbn. rewrite F, R2. auto.
  Qed.

  (** Whatever a finished drain yields is such a prefix. *)
  Lemma cmw_drain_inv {B} (f : A -> option B) : forall fuel c s last bs c',
    stands c (s, last) ->
    cmw_drain it_next fuel f c = Some (bs, c') ->
    exists l s' last', delivers it_next s l s' /\ map Some bs = map f l /\
      stops_at it_next (fun a => match f a with Some _ => true | None => false end) s' /\
      stands c' (s', last').
  Proof.
    induction fuel as [|fuel IH]; intros c s last bs c' Hc Hd; cbn in Hd; [discriminate|].
    pose proof (cmw_step f c s last Hc) as Hs.
    destruct (it_next s) as [v s1] eqn:En; cbn in Hs.
    destruct v as [a|].
    - destruct (f a) as [b|] eqn:F; destruct Hs as [Hs1 Hs2];
        destruct (cmw_next it_next f c) as [v c1]; cbn in *; subst v.
      + destruct (cmw_drain it_next fuel f c1) as [[bs' c2]|] eqn:D; [|discriminate].
        injection Hd as <- <-.
        destruct (IH c1 s1 (Some a) bs' c2 Hs2 D) as (l & s' & last' & L1 & L2 & L3 & L4).
        exists (a :: l), s', last'. repeat split; auto; try apply L4.
        * econstructor; eauto.
        * cbn. rewrite F, L2. reflexivity.
      + injection Hd as <- <-. exists [], s, last. repeat split; auto; try apply Hs2.
        * constructor.
        * unfold stops_at. rewrite En; cbn. rewrite F. reflexivity.
    - destruct Hs as [Hs1 Hs2].
      destruct (cmw_next it_next f c) as [v c1]; cbn in *; subst v.
      injection Hd as <- <-. exists [], s, last. repeat split; auto; try apply Hs2.
      + constructor.
      + unfold stops_at. rewrite En; cbn. exact I.
  Qed.

  (** The taking adapter is the mapping adapter for "keep it if it satisfies
      the predicate". *)
  Lemma ctw_cmw_next (p : A -> bool) c s last :
    stands c (s, last) ->
    ctw_next it_next p c = cmw_next it_next (fun a => if p a then Some a else None) c.
  Proof.
    intros H. unfold ctw_next, cmw_next.
    destruct (step_stands c (s, last) OpPeek H) as [P1 P2]. cbn in P1, P2.
    destruct (it_next s) as [v s'] eqn:E; cbn in *.
    destruct (cp_peek it_next c) as [v1 c1]; cbn in *. subst v1.
    destruct v as [a|]; [|reflexivity].
    destruct (p a); [|reflexivity].
    destruct (step_stands c1 (s, last) OpNext P2) as [N1 N2]. cbn in N1, N2. rewrite E in N1, N2.
    destruct (cp_next it_next c1) as [v2 c2]; cbn in *. subst v2. reflexivity.
  Qed.

  Lemma ctw_cmw_drain (p : A -> bool) : forall fuel c s last,
    stands c (s, last) ->
    ctw_drain it_next fuel p c = cmw_drain it_next fuel (fun a => if p a then Some a else None) c.
  Proof.
    induction fuel as [|fuel IH]; intros c s last H; cbn; [reflexivity|].
    rewrite (ctw_cmw_next p c s last H).
    pose proof (cmw_step (fun a => if p a then Some a else None) c s last H) as Hs.
    destruct (fst (it_next s)) as [a|].
    - destruct (p a); destruct Hs as [Hs1 Hs2];
        destruct (cmw_next it_next (fun a => if p a then Some a else None) c) as [v c1]; cbn in *;
        subst v; [|reflexivity].
      rewrite (IH c1 _ _ Hs2). reflexivity.
    - destruct Hs as [Hs1 Hs2].
      destruct (cmw_next it_next (fun a => if p a then Some a else None) c) as [v c1]; cbn in *;
        subst v; reflexivity.
  Qed.

  Lemma cautious_map_while_spec {B} (f : A -> option B) s pre :
    let c := cp_exec it_next (cp_new s) pre in
    let s0 := fst (spec_exec it_next (s, None) pre) in
    (forall l s', delivers it_next s0 l s' -> (forall a, In a l -> f a <> None) ->
       stops_at it_next (fun a => match f a with Some _ => true | None => false end) s' ->
       forall fuel, length l < fuel ->
       exists bs c', cmw_drain it_next fuel f c = Some (bs, c') /\ map Some bs = map f l /\
         exists last, forall os, cp_run it_next c' os = spec_run it_next (s', last) os) /\
    (forall fuel bs c', cmw_drain it_next fuel f c = Some (bs, c') ->
       exists l s', delivers it_next s0 l s' /\ map Some bs = map f l /\
         stops_at it_next (fun a => match f a with Some _ => true | None => false end) s' /\
         exists last, forall os, cp_run it_next c' os = spec_run it_next (s', last) os).
  Proof.
    intros c s0. pose proof (exec_stands pre _ _ (stands_new s)) as H.
    destruct (spec_exec it_next (s, None) pre) as [s1 last1] eqn:E. cbn in s0; subst s0.
    fold c in H. split.
    - intros l s' Hd Hall Hstop fuel Hf.
      destruct (cmw_drain_spec f l s1 s' fuel c last1 H Hd Hall Hstop Hf) as (bs & c' & la & R1 & R2 & R3).
      exists bs, c'. repeat split; auto. exists la. intros os. apply run_stands; assumption.
    - intros fuel bs c' Hd.
      destruct (cmw_drain_inv f fuel c s1 last1 bs c' H Hd) as (l & s' & la & R1 & R2 & R3 & R4).
      exists l, s'. repeat split; auto. exists la. intros os. apply run_stands; assumption.
  Qed.

  Lemma cautious_take_while_spec (p : A -> bool) s pre :
    let c := cp_exec it_next (cp_new s) pre in
    let s0 := fst (spec_exec it_next (s, None) pre) in
    (forall l s', delivers it_next s0 l s' -> (forall a, In a l -> p a = true) ->
       stops_at it_next p s' ->
       forall fuel, length l < fuel ->
       exists c', ctw_drain it_next fuel p c = Some (l, c') /\
         exists last, forall os, cp_run it_next c' os = spec_run it_next (s', last) os) /\
    (forall fuel l c', ctw_drain it_next fuel p c = Some (l, c') ->
       exists s', delivers it_next s0 l s' /\ (forall a, In a l -> p a = true) /\
         stops_at it_next p s' /\
         exists last, forall os, cp_run it_next c' os = spec_run it_next (s', last) os).
  Proof.
    intros c s0. pose proof (exec_stands pre _ _ (stands_new s)) as H.
    destruct (spec_exec it_next (s, None) pre) as [s1 last1] eqn:E. cbn in s0; subst s0.
    fold c in H.
    set (f := fun a => if p a then Some a else None).
    assert (Hst : forall s', stops_at it_next (fun a => match f a with Some _ => true | None => false end) s'
                             <-> stops_at it_next p s').
    { intros s'. unfold stops_at, f. destruct (fst (it_next s')) as [a|]; [|tauto].
      destruct (p a); tauto. }
    assert (Hmap : forall l, (forall a, In a l -> p a = true) -> map f l = map Some l).
    { intros l Hl. apply map_ext_in. intros a Ha. unfold f. rewrite (Hl a Ha). reflexivity. }
    assert (Hinj : forall l1 l2 : list A, map Some l1 = map Some l2 -> l1 = l2).
    { induction l1 as [|x l1 IH]; intros [|y l2]; cbn; intros Heq; try congruence.
      injection Heq as -> Heq. f_equal; auto. }
    split.
    - intros l s' Hd Hall Hstop fuel Hf.
      destruct (cmw_drain_spec f l s1 s' fuel c last1 H Hd) as (bs & c' & la & R1 & R2 & R3); auto.
      + intros a Ha. unfold f. rewrite (Hall a Ha). discriminate.
      + apply Hst; assumption.
      + rewrite (Hmap l Hall) in R2. apply Hinj in R2. subst bs.
        exists c'. rewrite (ctw_cmw_drain p fuel c s1 last1 H). split; [assumption|].
        exists la. intros os. apply run_stands; assumption.
    - intros fuel l c' Hd. rewrite (ctw_cmw_drain p fuel c s1 last1 H) in Hd. fold f in Hd.
      destruct (cmw_drain_inv f fuel c s1 last1 l c' H Hd) as (l' & s' & la & R1 & R2 & R3 & R4).
      assert (Hp : forall l1 l2, map Some l1 = map f l2 -> l1 = l2 /\ forall a, In a l2 -> p a = true).
      { clear. subst f. induction l1 as [|x l1 IH]; intros [|y l2]; cbn; intros Heq; try congruence.
        - split; [reflexivity|intros ? []].
        - destruct (p y) eqn:Py; [|discriminate]. injection Heq as -> Heq.
          destruct (IH l2 Heq) as [-> Hall]. split; [reflexivity|].
          intros a [<-|Ha]; auto. }
      destruct (Hp _ _ R2) as [-> Hall].
      exists s'. repeat split; auto.
      + apply Hst; assumption.
      + exists la. intros os. apply run_stands; assumption.
  Qed.
End IterProofs.

(** ** With [peek_mut] *)
Section AnyProofs.
  Context {S A : Type} (it_next : S -> option A * S).

  Definition holds (c : cached S A) (st : (option A * S) * option A) : Prop :=
    (match pk_peeked (cp_iter c) with
     | None => fst st = (None, pk_iter (cp_iter c))
     | Some v => front_next it_next (fst st) = (v, (None, pk_iter (cp_iter c)))
     end) /\ cp_cur c = snd st.

  Lemma any_step_holds c st o : holds c st ->
    fst (cp_any_step it_next c o) = fst (any_step it_next st o) /\ holds (snd (cp_any_step it_next c o)) (snd (any_step it_next st o)).
  Proof.
    destruct st as [fs last], c as [[it pk] cur]. unfold holds. cbn [cp_iter pk_peeked pk_iter fst snd]. intros [H1 H2].
    assert (Hn : fst (pk_next it_next {| pk_iter := it; pk_peeked := pk |}) = fst (front_next it_next fs) /\
                 snd (front_next it_next fs) = (None, pk_iter (snd (pk_next it_next {| pk_iter := it; pk_peeked := pk |})))).
    { unfold pk_next. cbn. destruct pk as [v|]; [rewrite H1; auto|]. subst fs. unfold front_next. cbn. destruct (it_next it); auto. }
    destruct (front_next it_next fs) as [v [x s']] eqn:E. cbn [fst snd] in Hn. destruct Hn as [Hn1 Hn2]. injection Hn2 as -> Hs.
    destruct o as [o|f]; [destruct o as [| |f|]|].
    all: cbn [cp_any_step any_step spec_step spec_mut cp_step fst snd]; unfold spec_mut; rewrite ?E; cbn [fst snd].
    - unfold cp_next. cbn [cp_iter]. destruct pk as [w|]; unfold pk_next in *; cbn in *.
      + subst w s'. auto.
      + destruct (it_next it) as [w s1]. cbn in *. subst w s1. auto.
    - unfold cp_peek, pk_peek. cbn [cp_iter]. destruct pk as [w|]; unfold pk_next in *; cbn in *.
      + subst w s'. auto.
      + subst fs. destruct (it_next it) as [w s1] eqn:E1. cbn in *. subst w s1. rewrite E. auto.
    - unfold cp_next_if, pk_next_if. cbn [cp_iter]. destruct pk as [w|]; unfold pk_next in *; cbn in *.
      + subst w s'. destruct v as [a|]; [destruct (f a)|]; cbn; auto.
      + subst fs. destruct (it_next it) as [w s1] eqn:E1. cbn in *. subst w s1. destruct v as [a|]; [destruct (f a)|]; cbn; rewrite ?E; auto.
    - split; [exact H2|]. split; [|exact H2]. cbn [cp_iter pk_peeked pk_iter fst snd]. destruct pk; congruence.
    - unfold cp_peek_mut, pk_peek_mut, pk_peek. cbn [cp_iter]. destruct pk as [w|]; unfold pk_next in *; cbn in *.
      + subst w s'. rewrite E. destruct v as [a|]; cbn; auto.
      + subst fs. rewrite E. destruct (it_next it) as [w s1] eqn:E1. cbn in *. subst w s1. destruct v as [a|]; cbn; auto.
  Qed.

  Lemma any_refines os : forall c st, holds c st -> cp_any_run it_next c os = any_run it_next st os.
  Proof.
    induction os as [|o os IH]; intros c st H; cbn; [reflexivity|]. destruct (any_step_holds c st o H) as [H1 H2].
    destruct (cp_any_step it_next c o) as [v c'], (any_step it_next st o) as [v' st']. cbn in *. subst. f_equal. auto.
  Qed.

  Lemma cached_any s os : cp_any_run it_next (cp_new s) os = any_run it_next ((None, s), None) os.
  Proof. apply any_refines. split; reflexivity. Qed.
End AnyProofs.
