(** More fuel does not change an answer; FIRST and FOLLOW in the words of the
    specification. *)
From Verif Require Import Base GrammarModel CfsmModel SlrModel SpecCfg GrammarProofs FirstProofs FollowProofs.

Section Total.
  Context {V T : Type} {dv : DecEq V} {dt : DecEq T} {ho : HashOrder}.
  Notation sym := (symbol V T).
  Variable g : grammar V T.

  Lemma bind_val {A B} (x : res A) (f : A -> res B) b : bind x f = Val b -> exists a, x = Val a /\ f a = Val b.
  Proof. destruct x; cbn; try discriminate. eauto. Qed.

  Lemma first_bodies_more p o bs n k l :
    first_bodies n p g o bs = Val l -> first_bodies (n + k) p g o bs = Val l.
  Proof.
    unfold first_bodies. intros H. apply bind_val in H. destruct H as (st & H1 & H2).
    rewrite (first_loop_more g p n _ _ k H1). exact H2.
  Qed.

  Lemma first_more p v n k l : first n p g v = Val l -> first (n + k) p g v = Val l.
  Proof.
    unfold first. intros H. apply bind_val in H. destruct H as (bs & H1 & H2). rewrite H1. cbn [bind].
    apply first_bodies_more. auto.
  Qed.

  Lemma follow_scan_more p h rest : forall n k st st',
    follow_scan n p g h rest st = Val st' -> follow_scan (n + k) p g h rest st = Val st'.
  Proof.
    induction rest as [|s tl IH]; intros n k st st' H; cbn [follow_scan] in *; auto.
    destruct s as [t|v|]; auto. destruct tl as [|a tl]; auto.
    apply bind_val in H. destruct H as (f & H1 & H2).
    unfold first_body in *. rewrite (first_bodies_more _ _ _ _ k _ H1). cbn [bind]. auto.
  Qed.

  Lemma follow_rules_more p rs : forall n k st st',
    follow_rules n p g rs st = Val st' -> follow_rules (n + k) p g rs st = Val st'.
  Proof.
    induction rs as [|(i & h & b) rs IH]; intros n k st st' H; cbn [follow_rules] in *; auto.
    apply bind_val in H. destruct H as (f & H1 & H2).
    rewrite (follow_scan_more _ _ _ _ k _ _ H1). cbn [bind]. auto.
  Qed.

  Lemma follow_loop_more p deps n : forall k q m (m' : list (V * list sym)),
    follow_loop n p deps q m = Val m' -> follow_loop (n + k) p deps q m = Val m'.
  Proof.
    induction n as [|n IH]; intros k q m m' H; cbn [follow_loop] in H.
    - destruct q as [|[a b] q]; [|discriminate]. destruct k; exact H.
    - cbn [Nat.add follow_loop]. destruct q as [|[a b] q]; auto. destruct (mget b m); auto.
  Qed.

  Lemma follow_set_more p n k fs : follow_set n p g = Val fs -> follow_set (n + k) p g = Val fs.
  Proof.
    unfold follow_set. intros H. apply bind_val in H. destruct H as (st & H1 & H2).
    rewrite (follow_rules_more _ _ _ k _ _ H1). cbn [bind]. apply follow_loop_more. auto.
  Qed.

  (** An answer that exists from some fuel on is the only answer. *)
  Lemma stable_answer {A} (f : nat -> res A) n l :
    (forall fuel k x, f fuel = Val x -> f (fuel + k) = Val x) ->
    (forall fuel, n <= fuel -> f fuel = Val l) -> forall fuel x, f fuel = Val x -> x = l.
  Proof.
    intros Hm Hn fuel x H. pose proof (Hn (fuel + n) ltac:(lia)) as H1. rewrite (Hm _ n _ H) in H1. congruence.
  Qed.

  Hypothesis Hb : built g.
  Let Hgood : good g := built_good g Hb.

  Lemma follow_set_answer fuel p fs : follow_set fuel p g = Val fs -> exact_follow g fs.
  Proof.
    intros H. destruct (follow_set_exact g Hgood p) as (n & fs' & E & Hx).
    rewrite (stable_answer (fun f => follow_set f p g) n fs' (fun a k x => follow_set_more p a k x) E fuel fs H). auto.
  Qed.

  Lemma null_var_rule v : nullb g [Var v] <-> exists b, rule g v b /\ nullb g b.
  Proof.
    split.
    - intros H. inversion H; subst. eauto.
    - intros (b & H1 & H2). econstructor; eauto. constructor.
  Qed.

  Lemma start_var_rule v t : startb g [Var v] t <-> exists b, rule g v b /\ startb g b t.
  Proof.
    split.
    - intros H. inversion H as [| |? ? b ? Hr H'|? ? b ? Hr Hn H']; subst; [eauto|inversion H'].
    - intros (b & H1 & H2). eapply start_in; eauto.
  Qed.

  Lemma first_body_total p bd : bd <> [] -> (forall x, In (Var x) bd -> exists b, rule g x b) ->
    exists n l, forall fuel, n <= fuel -> first_body fuel p g bd = Val l.
  Proof.
    intros H1 H2. destruct (first_body_exact g Hgood p bd H1 H2) as (n & l & H & _). eauto.
  Qed.

  Lemma first_total p v : (exists bd, rule g v bd) ->
    exists n l, forall fuel, n <= fuel -> first fuel p g v = Val l.
  Proof. intros H1. destruct (first_exact g Hgood p v H1) as (n & l & H & _). eauto. Qed.

  Lemma follow_set_total p : exists n fs, forall fuel, n <= fuel -> follow_set fuel p g = Val fs.
  Proof. destruct (follow_set_exact g Hgood p) as (n & fs & H & _). eauto. Qed.

  Lemma first_body_correct fuel p bd l :
    bd <> [] -> (forall x, In (Var x) bd -> exists b, rule g x b) -> first_body fuel p g bd = Val l ->
    (forall t, In (Ter t) l <-> starts_with g bd t) /\ (In Eps l <-> derives_empty g bd) /\ (forall v, ~ In (Var v) l).
  Proof.
    intros H1 H2 H. destruct (first_body_exact g Hgood p bd H1 H2) as (n & l' & E & Ht & He & Hv).
    rewrite (stable_answer (fun f => first_body f p g bd) n l' (fun a k x => first_bodies_more p _ _ a k x) E fuel l H).
    split; [|split; auto].
    - intros t. rewrite Ht, <- start_steps. split; [intros (b & <- & Hb'); auto|eauto].
    - rewrite He, <- null_steps. split; [intros (b & <- & Hb'); auto|eauto].
  Qed.

  Lemma first_correct fuel p v l : first fuel p g v = Val l ->
    (forall t, In (Ter t) l <-> starts_with g [Var v] t) /\ (In Eps l <-> derives_empty g [Var v]) /\
    (forall v, ~ In (Var v) l).
  Proof.
    intros H. assert (Hv : exists b, rule g v b).
    { unfold first in H. apply bind_val in H. destruct H as (bs & H & _).
      destruct (get_rule_bodies g v) as [bds|] eqn:E; [|discriminate].
      apply mget_in in E. destruct (good_ok g Hgood) as [_ Hg]. destruct (Hg _ _ E) as (_ & Hne & _).
      destruct bds as [|b bds]; [congruence|]. exists b, (b :: bds). split; auto. left; auto. }
    destruct (first_exact g Hgood p v Hv) as (n & l' & E & Ht & He & Hv').
    rewrite (stable_answer (fun f => first f p g v) n l' (fun a k x => first_more p _ a k x) E fuel l H).
    split; [|split; auto].
    - intros t. rewrite Ht, <- start_steps, start_var_rule. reflexivity.
    - rewrite He, <- null_steps, null_var_rule. reflexivity.
  Qed.

  Lemma follow_set_correct fuel p fs : follow_set fuel p g = Val fs ->
    NoDup (map fst fs) /\
    (forall v l x, In (v, l) fs -> In x l -> exists t, x = Ter t) /\
    (forall v t, (exists l, In (v, l) fs /\ In (Ter t) l) <-> followed_by g v t).
  Proof.
    intros H. apply follow_set_answer in H. destruct H. split; [auto|]. split.
    - intros v l x H Hx. apply (in_mget v l fs ef_keys) in H. destruct (ef_sound v l x H Hx) as (t & -> & _). eauto.
    - intros v t. rewrite <- follow_steps. split.
      + intros (l & H & Hx). apply (in_mget v l fs ef_keys) in H. destruct (ef_sound v l _ H Hx) as (t' & E & Ht).
        injection E as <-. auto.
      + intros Ht. destruct (ef_complete v t Ht) as (l & E & Hx). exists l. split; auto. apply mget_in; auto.
  Qed.
End Total.
