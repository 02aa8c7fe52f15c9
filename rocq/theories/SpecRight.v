(** Specification of rightmost derivations and of the items that are valid after a
    sequence of symbols. *)
From Verif Require Import Base GrammarModel SpecCfg.

Section Right.
  Context {V T : Type}.
  Notation sym := (symbol V T).
  Variable g : grammar V T.

  (** The last variable is replaced. *)
  Inductive rstep : list sym -> list sym -> Prop :=
  | rstep_rule : forall l v bd (w : list T), rule g v bd -> rstep (l ++ Var v :: map Ter w) (l ++ bd ++ map Ter w).

  (** That many times. *)
  Inductive rsteps : nat -> list sym -> list sym -> Prop :=
  | rsteps_none : forall x, rsteps 0 x x
  | rsteps_one : forall n x y z, rstep x y -> rsteps n y z -> rsteps (S n) x z.

  (** In some rightmost derivation the rule [h -> a b] is used when [u] is all before
      [b]. *)
  Definition valid (u : list sym) (d : dotted V T) : Prop :=
    let '(h, a, b) := d in
    rule g h (a ++ b) /\ exists l n w, u = l ++ a /\ rsteps n [Var (g_start g)] (l ++ Var h :: map Ter w).

  (** Something is valid after [u]. *)
  Definition viable (u : list sym) : Prop := exists d, valid u d.
End Right.
