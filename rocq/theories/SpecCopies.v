(** Specification of the size of the automaton: words that lead to the same LR(0)
    items, and the shortest of them. *)
From Verif Require Import Base GrammarModel CfsmModel SpecCfg.

Section Copies.
  Context {V T : Type}.
  Notation sym := (symbol V T).
  Variable g : grammar V T.

  (** Some item is valid after [w]. *)
  Definition viable (w : list sym) : Prop := exists d, lr0 g w d.
  Definition same_state (w w' : list sym) : Prop := forall d, lr0 g w d <-> lr0 g w' d.
  Definition shortest (w : list sym) : Prop := viable w /\ forall w', same_state w w' -> length w <= length w'.
  (** At most one symbol longer than a shortest word. *)
  Definition nearly_shortest (w : list sym) : Prop := viable w /\ forall w', same_state w w' -> length w <= S (length w').
End Copies.
