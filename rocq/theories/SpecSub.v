(** Specification of grammars with fewer rules. *)
From Verif Require Import Base GrammarModel CfsmModel SlrModel SpecCfg.

Section Sub.
  Context {V T : Type}.

  (** The second grammar has the rules of the first, and maybe more. *)
  Definition fewer_rules (g g' : grammar V T) : Prop :=
    g_start g = g_start g' /\ forall v bd, rule g v bd -> rule g' v bd.

  (** What it has more can never be used. *)
  Definition same_reachable (g g' : grammar V T) : Prop :=
    fewer_rules g g' /\ forall v bd, reachable g' v -> rule g' v bd -> rule g v bd.
End Sub.
