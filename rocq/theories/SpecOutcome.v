(** Specification of the four outcomes of a parse for grammars without epsilon, by
    the derivation trees of a first part of the input. *)
From Coq Require Import Relation_Operators.
From Verif Require Import Base GrammarModel CfsmModel SlrModel SpecCfg SpecMachine.

Section Outcome.
  Context {V T : Type}.
  Notation sym := (symbol V T).
  Notation tr := (tree V T).
  Variable teq : T -> T -> bool.
  Variable g : grammar V T.
  (** The start variable has an entry in the FOLLOW map. *)
  Variable e : Prop.
  (** The automaton; only the numbers of its states matter. *)
  Variable c : cfsm V T.

  (** The tokens begin with a text of the symbols [w]; if the last of these is a
      variable, the next token can follow it. *)
  Definition read_to (ts : list T) (w : list sym) (xs : list tr) (rest : list T) : Prop :=
    Forall2 (sat teq) w xs /\ Forall (derivation g teq) xs /\ ts = flat_map leaves xs ++ rest /\
    forall w' v, w = w' ++ [Var v] -> exists t ts' t', rest = t :: ts' /\ followed_by g v t' /\ teq t t' = true.

  (** The state after [w] has no action, nor has one with a higher number. *)
  Definition no_row (w : list sym) : Prop :=
    exists i, path c 0 w i /\ forall w' j, path c 0 w' j -> i <= j -> ~ macts g e w'.

  (** The inputs that make the parser panic: a first part leads to a state without
      a row; or no state is left along a variable at all, and a rule of the start
      variable is read where it can be followed by a token. *)
  Definition crashing (ts : list T) : Prop :=
    (exists w xs rest, read_to ts w xs rest /\ no_row w) \/
    ((forall w, ~ mgotos g w) /\
     exists bd xs t rest t', rule g (g_start g) bd /\ read_to ts bd xs (t :: rest) /\ followed_by g (g_start g) t' /\ teq t t' = true).

  (** After [w] and before [t] the variable [v] is a whole body of [u]. *)
  Definition turn (w : list sym) (t : T) (v u : V) : Prop :=
    lr0 g w (u, [], [Var v]) /\ exists t', followed_by g u t' /\ teq t t' = true.

  (** The inputs that keep the parser busy for ever. *)
  Definition spinning (ts : list T) : Prop :=
    exists w v xs t rest, read_to ts (w ++ [Var v]) xs (t :: rest) /\ clos_trans V (turn w t) v v.
End Outcome.

(** ** Some input *)
Section Some.
  Context {V T : Type}.
  Notation sym := (symbol V T).
  Variable teq : T -> T -> bool.
  Variable g : grammar V T.
  Variable e : Prop.
  Variable c : cfsm V T.

  Definition all_productive (w : list sym) : Prop := forall v, In (Var v) w -> productive g v.

  Definition can_crash : Prop :=
    (exists w, all_productive w /\ (forall w' v, w = w' ++ [Var v] -> exists t, followed_by g v t) /\ no_row g e c w) \/
    ((forall w, ~ mgotos g w) /\ exists t, followed_by g (g_start g) t).

  Definition can_spin : Prop :=
    exists w v t, all_productive (w ++ [Var v]) /\ clos_trans V (turn teq g w t) v v.
End Some.
