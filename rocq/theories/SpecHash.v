(** What is asked of hashes and of searches in a hash table, and what a map is
    without either. *)
From Verif Require Import Base.

(** Equal keys have equal hashes: the contract of [Hash] and [Eq]. *)
Definition agrees {K W} (keq : K -> K -> bool) (w : K -> W) : Prop :=
  forall x y, keq x y = true -> w x = w y.

(** An equivalence. *)
Definition equivalence {K} (keq : K -> K -> bool) : Prop :=
  (forall x, keq x x = true) /\ (forall x y, keq x y = true -> keq y x = true) /\
  (forall x y z, keq x y = true -> keq y z = true -> keq x z = true).

(** A search looks at every entry that has the hash searched for. *)
Definition finds (probe : list N -> N -> list nat) : Prop :=
  forall hs h i, nth_error hs i = Some h -> In i (probe hs h).

(** It looks at no other. *)
Definition finds_only (probe : list N -> N -> list nat) : Prop :=
  forall hs h h' i, In i (probe hs h) -> nth_error hs i = Some h' -> h' = h.

(** A map as a function of its keys, and its uses: the answers to a sequence of
    uses, where [None] is a search, [Some None] a removal and [Some (Some b)] an
    insertion. *)
Fixpoint map_run {K B} (keq : K -> K -> bool) (f : K -> option B) (ops : list (K * option (option B))) : list (option B) :=
  match ops with
  | [] => []
  | (k, None) :: r => f k :: map_run keq f r
  | (k, Some o) :: r => f k :: map_run keq (fun x => if keq k x then o else f x) r
  end.
