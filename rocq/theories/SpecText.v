(** Results that do not depend on the fuel. *)
From Verif Require Import Base.

(** With enough fuel [f] does [r]: returns a value, panics or runs on. *)
Definition eventually {A : Type} (f : nat -> res A) (r : res A) : Prop := exists n, forall fuel, n <= fuel -> f fuel = r.
