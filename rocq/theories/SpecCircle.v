(** Specification of the parses that never end: the machine of SpecMachine.v comes
    back to the same symbols on its stack with the same tokens to read. *)
From Verif Require Import Base GrammarModel CfsmModel SlrModel SpecCfg SpecMachine.

Section Circle.
  Context {V T : Type}.
  Variable teq : T -> T -> bool.
  Variable g : grammar V T.

  (** The symbols on the stack and the tokens to read. *)
  Definition shape (m : config V T) : list (symbol V T) * list T := (map fst (fst m), snd m).

  Definition circles (m : config V T) : Prop :=
    exists i m1 j m2, mmoves teq g i m m1 /\ mmoves teq g (S j) m1 m2 /\ shape m2 = shape m1.
End Circle.
