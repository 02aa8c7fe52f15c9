(** Programs that ask for orders: no name is asked for twice, so the orders can
    be collected in one [HashOrder]. *)
From Verif Require Import Base GrammarModel CfsmModel SlrModel OrderModel.

(** The program with the orders of [ho]. *)
Fixpoint run (ho : HashOrder) {A} (c : prog A) : res A :=
  match c with
  | Over r => r
  | Ask k l f => run ho (f (hash_at k l))
  end.

Lemma run_bind ho {A B} (c : prog A) (f : A -> prog B) : run ho (pbind c f) = bind (run ho c) (fun a => run ho (f a)).
Proof. induction c as [[a| |]|k X l h IH]; cbn; auto. Qed.

Lemma run_outcome ho {A} (c : prog A) : outcome c (run ho c).
Proof. induction c as [r|k X l f IH]; cbn; [constructor|]. eapply outcome_ask; [apply hash_at_perm|apply IH]. Qed.

(** ** Names *)

Definition names := list nat -> Prop.

(** With the names in [S] left, no name is asked for twice; with a value come
    the names [R] that are still left. *)
Fixpoint frugal {A} (S : names) (Q : A -> Prop) (R : A -> names) (c : prog A) : Prop :=
  match c with
  | Over (Val a) => Q a /\ forall k, R a k -> S k
  | Over _ => True
  | Ask k l f => S k /\ forall l', Permutation l' l -> frugal (fun k' => S k' /\ k' <> k) Q R (f l')
  end.

Lemma frugal_mono {A} (c : prog A) : forall (S S' : names) (Q Q' : A -> Prop) (R R' : A -> names), frugal S Q R c ->
  (forall k, S k -> S' k) -> (forall a, Q a -> Q' a) -> (forall a k, Q a -> R' a k -> R a k) -> frugal S' Q' R' c.
Proof.
  induction c as [[a| |]|k X l f IH]; intros S S' Q Q' R R' H HS HQ HR; cbn in *; [|exact I..|].
  - destruct H as [H1 H2]. split; [auto|]. intros k Hk. apply HS, H2. eapply HR; eassumption.
  - destruct H as [H1 H2]. split; [auto|]. intros l' Hl. eapply IH; [exact (H2 l' Hl)| |assumption|assumption].
    cbn. intros k' [Hk' Hn]. split; auto.
Qed.

Lemma frugal_bind {A B} (c : prog A) (f : A -> prog B) : forall (S : names) (Q : A -> Prop) (R : A -> names) (Q' : B -> Prop) (R' : B -> names),
  frugal S Q R c -> (forall a, Q a -> frugal (R a) Q' R' (f a)) -> frugal S Q' R' (pbind c f).
Proof.
  induction c as [[a| |]|k X l h IH]; intros S Q R Q' R' H Hf; cbn in *; [|exact I..|].
  - destruct H as [H1 H2]. eapply frugal_mono; [exact (Hf a H1)|assumption|auto|auto].
  - destruct H as [H1 H2]. split; [assumption|]. intros l' Hl. eapply IH; [exact (H2 l' Hl)|assumption].
Qed.

Lemma frugal_frame {A} (c : prog A) : forall (S F : names) (Q : A -> Prop) (R : A -> names), frugal S Q R c ->
  (forall k, S k -> F k -> False) -> frugal (fun k => S k \/ F k) Q (fun a k => R a k \/ F k) c.
Proof.
  induction c as [[a| |]|k X l f IH]; intros S F Q R H HF; cbn in *; [|exact I..|].
  - destruct H as [H1 H2]. split; [assumption|]. intros k [Hk|Hk]; auto.
  - destruct H as [H1 H2]. split; [auto|]. intros l' Hl. eapply frugal_mono.
    + apply (IH l' _ F Q R (H2 l' Hl)). cbn. intros k' [Hs _]. apply HF. assumption.
    + cbn. intros k' [[Hs Hn]|Hk]; [auto|]. split; [auto|]. intros ->. eapply HF; eassumption.
    + auto.
    + auto.
Qed.

Lemma frugal_ask {X} k (l : list X) (S : names) : S k -> frugal S (fun l' => Permutation l' l) (fun _ k' => S k' /\ k' <> k) (ask k l).
Proof. intros H. cbn. split; [assumption|]. intros l' Hl. split; [assumption|auto]. Qed.

(** ** Collecting the orders *)

Definition fitting (s : list nat) (n : nat) : bool := (length s =? n) && forallb (fun i => memb i s) (seq 0 n).
Definition shuffle (s : list nat) {A} (l : list A) : list A :=
  if fitting s (length l) then flat_map (fun i => match nth_error l i with Some x => [x] | None => [] end) s else l.

Lemma in_order {A} (l : list A) : flat_map (fun i => match nth_error l i with Some x => [x] | None => [] end) (seq 0 (length l)) = l.
Proof.
  enough (H : forall q, flat_map (fun i => match nth_error (q ++ l) i with Some x => [x] | None => [] end) (seq (length q) (length l)) = l) by exact (H []).
  induction l as [|x l IH]; intros q; [reflexivity|]. cbn [length seq flat_map].
  rewrite nth_error_app2, Nat.sub_diag by lia. cbn [nth_error app]. f_equal.
  specialize (IH (q ++ [x])). rewrite app_length, Nat.add_1_r in IH. rewrite <- app_assoc in IH. exact IH.
Qed.

Lemma shuffle_perm s A (l : list A) : Permutation (shuffle s l) l.
Proof.
  unfold shuffle. destruct (fitting s (length l)) eqn:E; [|reflexivity]. unfold fitting in E.
  apply andb_prop in E as [E1 E2]. apply Nat.eqb_eq in E1. rewrite forallb_forall in E2.
  pose proof (in_order l) as Eo. remember (fun i => match nth_error l i with Some x => [x] | None => [] end) as f eqn:Ef.
  apply (@Permutation_trans _ _ (flat_map f (seq 0 (length l)))); [|rewrite Eo; apply Permutation_refl]. apply Permutation_flat_map. symmetry. apply NoDup_Permutation_bis.
  - apply seq_NoDup.
  - rewrite seq_length. lia.
  - intros i Hi. apply memb_in. auto.
Qed.

Lemma by_index {A} (d : A) l : l = map (fun i => nth i l d) (seq 0 (length l)).
Proof.
  enough (H : forall q, map (fun i => nth i (q ++ l) d) (seq (length q) (length l)) = l) by exact (eq_sym (H [])).
  induction l as [|x l IH]; intros q; [reflexivity|]. cbn [length seq map].
  rewrite app_nth2, Nat.sub_diag by lia. cbn [nth]. f_equal.
  specialize (IH (q ++ [x])). rewrite app_length, Nat.add_1_r in IH. rewrite <- app_assoc in IH. exact IH.
Qed.

Lemma shuffle_exists {A} (l l' : list A) : Permutation l' l -> exists s, shuffle s l = l'.
Proof.
  intros H. destruct l as [|d l0].
  { apply Permutation_sym, Permutation_nil in H as ->. exists []. reflexivity. }
  set (l := d :: l0) in *.
  assert (El : l = map (fun i => nth i l d) (seq 0 (length l))).
  { apply by_index. }
  rewrite El in H. apply Permutation_map_inv in H as (s & -> & Hs). exists s. unfold shuffle.
  assert (Hin : forall i, In i s -> i < length l) by (intros i Hi; apply (Permutation_in i (Permutation_sym Hs)), in_seq in Hi; lia).
  assert (E : fitting s (length l) = true).
  { unfold fitting. apply andb_true_intro. split.
    - apply Nat.eqb_eq. rewrite <- (Permutation_length Hs). apply seq_length.
    - apply forallb_forall. intros i Hi. apply memb_in. apply (Permutation_in i Hs). assumption. }
  rewrite E. clear E Hs. induction s as [|i s IH]; [reflexivity|]. cbn [flat_map map].
  rewrite (nth_error_nth' l d) by (apply Hin; left; reflexivity). cbn. f_equal. apply IH. intros j Hj. apply Hin. right. assumption.
Qed.

Definition order_with (ho : HashOrder) (k : list nat) (s : list nat) : HashOrder :=
  {| hash_at := fun k' A l => if list_eq_dec Nat.eq_dec k' k then shuffle s l else @hash_at ho k' A l;
     hash_at_perm := fun k' A l =>
       match list_eq_dec Nat.eq_dec k' k as d return Permutation (if d then shuffle s l else @hash_at ho k' A l) l with
       | left _ => shuffle_perm s A l
       | right _ => @hash_at_perm ho k' A l
       end |}.

Lemma run_same {A} (ho ho' : HashOrder) (c : prog A) : forall (S : names) Q R, frugal S Q R c ->
  (forall k X (l : list X), S k -> @hash_at ho k X l = @hash_at ho' k X l) -> run ho c = run ho' c.
Proof.
  induction c as [r|k X l f IH]; intros S Q R H HS; cbn in *; [reflexivity|]. destruct H as [H1 H2].
  rewrite (HS k X l H1). eapply IH; [apply H2, hash_at_perm|]. cbn. intros k' Y l' [Hk _]. auto.
Qed.

Lemma outcome_run {A} (c : prog A) r : outcome c r -> forall (S : names) Q R, frugal S Q R c -> exists ho, run ho c = r.
Proof.
  induction 1 as [r|k X l l' f r Hp Ho IH]; intros S Q R H.
  - exists id_order. reflexivity.
  - cbn in H. destruct H as [H1 H2]. specialize (H2 l' Hp). destruct (IH _ _ _ H2) as (ho & E).
    destruct (shuffle_exists l l' Hp) as (s & Es). exists (order_with ho k s). cbn [run]. unfold order_with at 2. cbn [hash_at].
    destruct (list_eq_dec Nat.eq_dec k k) as [_|n]; [|destruct (n eq_refl)]. rewrite Es, <- E.
    eapply run_same; [exact H2|]. cbn. intros k' Y l1 [_ Hn]. destruct (list_eq_dec Nat.eq_dec k' k); [contradiction|reflexivity].
Qed.
