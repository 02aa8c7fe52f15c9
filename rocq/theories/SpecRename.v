(** Specification of renaming: two grammars with the same rules up to names and
    the order in which they were added. *)
From Verif Require Import Base GrammarModel CfsmModel SlrModel SpecCfg.

Section Rename.
  Context {V T V' T' : Type}.
  Variable f : V -> V'.
  Variable h : T -> T'.

  Definition injective {A B} (k : A -> B) : Prop := forall x y, k x = k y -> x = y.

  Definition rename_symbol (s : symbol V T) : symbol V' T' :=
    match s with Ter t => Ter (h t) | Var v => Var (f v) | Eps => Eps end.
  Definition rename_body (bd : list (symbol V T)) : list (symbol V' T') := map rename_symbol bd.

  Fixpoint rename_node (n : node V T) : node V' T' :=
    match n with Node s cs => Node (rename_symbol s) (map rename_node cs) end.

  (** The second grammar has the renamed rules of the first and no others. *)
  Definition renamed (g : grammar V T) (g' : grammar V' T') : Prop :=
    g_start g' = f (g_start g) /\
    forall v' bd', rule g' v' bd' <-> exists v bd, v' = f v /\ bd' = rename_body bd /\ rule g v bd.

  (** The same for sequences of calls of the builder. *)
  Definition renamed_calls (cs : list (call V T)) (cs' : list (call V' T')) : Prop :=
    last_start cs' = option_map f (last_start cs) /\
    forall v' bd', added cs' v' bd' <-> exists v bd, v' = f v /\ bd' = rename_body bd /\ added cs v bd.

  Definition rename_result (r : res (option (node V T))) : res (option (node V' T')) :=
    match r with
    | Val (Some n) => Val (Some (rename_node n))
    | Val None => Val None
    | Panic => Panic
    | Diverge => Diverge
    end.
End Rename.
