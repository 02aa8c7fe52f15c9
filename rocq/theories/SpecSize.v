(** The size of trees. *)
From Verif Require Import Base GrammarModel CfsmModel SlrModel.

Section Size.
  Context {V T : Type}.
  Notation nd := (node V T).

  (** The nodes, and the nodes on the longest way down. *)
  Fixpoint nodes (n : nd) : nat := let 'Node _ cs := n in S (list_sum (map nodes cs)).
  Fixpoint height (n : nd) : nat := let 'Node _ cs := n in S (fold_right Nat.max 0 (map height cs)).
End Size.

(** The tree of [n + 1] letters for [0 -> 0 a | a]. *)
Fixpoint comb (n : nat) : node nat nat :=
  match n with
  | 0 => Node (Var 0) [Node (Ter 0) []]
  | S n => Node (Var 0) [Node (Ter 0) []; comb n]
  end.
