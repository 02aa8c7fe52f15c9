(** Shared vocabulary of the model: characters, outcomes, build environment
    and hash iteration order. *)
From Coq Require Export Ascii String.
From Coq Require Export List Arith NArith Lia Bool Permutation.
Export ListNotations.
Open Scope list_scope.

(** Rust [char]: a code point.  A [&str] is the list of its [chars()]; the
    modelled code never looks at bytes. *)
Notation char := N (only parsing).

Definition chr (a : Ascii.ascii) : char := Ascii.N_of_ascii a.
Fixpoint str (s : String.string) : list char :=
  match s with
  | String.EmptyString => []
  | String.String a r => chr a :: str r
  end.
Notation "'$' a" := (chr a%char) (at level 0, a at level 0, only parsing).

(** Outcome of a Rust computation: a value, a panic, or (for loops driven by
    explicit fuel) not finished within the fuel. *)
Inductive res (A : Type) : Type :=
| Val (a : A)
| Panic
| Diverge.
Arguments Val {A} a.
Arguments Panic {A}.
Arguments Diverge {A}.

Definition bind {A B} (x : res A) (f : A -> res B) : res B :=
  match x with
  | Val a => f a
  | Panic => Panic
  | Diverge => Diverge
  end.
Notation "'let!' x := e 'in' k" := (bind e (fun x => k))
  (at level 200, x pattern, e at level 200, k at level 200, right associativity).

Definition of_option {A} (o : option A) : res A :=
  match o with Some a => Val a | None => Panic end.

(** What the code takes from its environment: the Unicode table behind
    [char::is_alphabetic] (arbitrary) and whether the build checks integer
    overflow (debug) or wraps (release). *)
Class Env := {
  is_alphabetic : char -> bool;
  overflow_checks : bool
}.

(** Iteration order of [HashMap]/[HashSet]: any permutation, possibly a
    different one at each point [k] of the execution. *)
Class HashOrder := {
  hash_at : list nat -> forall A : Type, list A -> list A;
  hash_at_perm : forall k A (l : list A), Permutation (hash_at k A l) l
}.
Arguments hash_at {HashOrder} k {A} l.

Definition hash_iter {H : HashOrder} (k : nat) {A} (l : list A) : list A := hash_at [k] l.

Lemma hash_iter_perm {H : HashOrder} k A (l : list A) : Permutation (hash_iter k l) l.
Proof. apply hash_at_perm. Qed.

Lemma in_hash_at {H : HashOrder} k A (l : list A) x : In x (hash_at k l) <-> In x l.
Proof.
  split; intros Hx; eapply Permutation_in; try exact Hx.
  - apply hash_at_perm.
  - symmetry; apply hash_at_perm.
Qed.

Lemma in_hash_iter {H : HashOrder} k A (l : list A) x : In x (hash_iter k l) <-> In x l.
Proof.
  split; intros Hx; eapply Permutation_in; try exact Hx.
  - apply hash_iter_perm.
  - symmetry; apply hash_iter_perm.
Qed.

Lemma hash_iter_length {H : HashOrder} k A (l : list A) : length (hash_iter k l) = length l.
Proof. apply Permutation_length, hash_iter_perm. Qed.

(** Two concrete orders, used by examples and witnesses. *)
Definition id_order : HashOrder :=
  {| hash_at := fun _ A l => l;
     hash_at_perm := fun _ A l => Permutation_refl l |}.
Definition rev_order : HashOrder :=
  {| hash_at := fun _ A l => rev l;
     hash_at_perm := fun _ A l => Permutation_sym (Permutation_rev l) |}.

(** Lawful [Eq] of a user type. *)
Class DecEq (A : Type) := {
  eqb : A -> A -> bool;
  eqb_eq : forall x y, eqb x y = true <-> x = y
}.

Lemma eqb_refl {A} `{DecEq A} (x : A) : eqb x x = true.
Proof. apply eqb_eq; reflexivity. Qed.

Lemma eqb_neq {A} `{DecEq A} (x y : A) : eqb x y = false <-> x <> y.
Proof.
  destruct (eqb x y) eqn:E; split; intros; try congruence.
  - apply eqb_eq in E; congruence.
  - intros ->. rewrite eqb_refl in E; congruence.
Qed.

Lemma eqb_spec {A} `{DecEq A} (x y : A) : reflect (x = y) (eqb x y).
Proof. apply iff_reflect. symmetry. apply eqb_eq. Qed.

Definition dec_of {A} `{DecEq A} (x y : A) : {x = y} + {x <> y}.
Proof. destruct (eqb_spec x y); auto. Defined.

#[global] Instance nat_deceq : DecEq nat := {| eqb := Nat.eqb; eqb_eq := Nat.eqb_eq |}.
#[global] Instance N_deceq : DecEq N := {| eqb := N.eqb; eqb_eq := N.eqb_eq |}.

Definition memb {A} `{DecEq A} (x : A) (l : list A) : bool := existsb (eqb x) l.

Lemma memb_in {A} `{DecEq A} (x : A) l : memb x l = true <-> In x l.
Proof.
  unfold memb. rewrite existsb_exists. split.
  - intros (y & Hy & E). apply eqb_eq in E; subst; assumption.
  - intros Hx. exists x. split; [assumption|apply eqb_refl].
Qed.

Lemma memb_not_in {A} `{DecEq A} (x : A) l : memb x l = false <-> ~ In x l.
Proof.
  rewrite <- memb_in. destruct (memb x l); split; intros; try congruence.
Qed.

Lemma forall2_length {A B} (R : A -> B -> Prop) l l' : Forall2 R l l' -> length l = length l'.
Proof. induction 1; cbn; auto. Qed.
