(** The grammar of what a parser accepts. *)
From Verif Require Import Base GrammarModel SpecCfg.

(** Variables: the whole input, what can stand before a variable, and the variable
    itself. *)
Inductive loose_var (V : Type) := Input | Before (v : V) | Inside (v : V).
Arguments Input {V}.
Arguments Before {V} v.
Arguments Inside {V} v.

Section Loose.
  Context {V T : Type} {dv : DecEq V}.
  Notation sym := (symbol V T).

  Definition inner (s : sym) : symbol (loose_var V) T :=
    match s with Ter t => Ter t | Var v => Var (Inside v) | Eps => Eps end.

  (** The variables in a body, each with what stands before it. *)
  Fixpoint occurrences (l bd : list sym) : list (list sym * V) :=
    match bd with
    | [] => []
    | s :: r => match s with Var v => [(l, v)] | _ => [] end ++ occurrences (l ++ [s]) r
    end.

  Definition ends_with_terminal (bd : list sym) : bool :=
    match rev bd with Ter _ :: _ => true | _ => false end.

  Definition all_rules (g : grammar V T) : list (V * list sym) := flat_map (fun e => map (pair (fst e)) (snd e)) (g_rules g).

  (** An input is something that can stand before the start variable, and a body of
      the start variable that ends with a terminal.  Before the start variable can
      stand nothing; before a variable in a body of [h] can stand what can stand
      before [h], and the part of the body before it. *)
  Definition loose (g : grammar V T) : grammar (loose_var V) T :=
    {| g_start := Input;
       g_rules :=
         flat_map (fun '(h, bd) => if eqb h (g_start g) && ends_with_terminal bd then [(Input, [Var (Before h) :: map inner bd])] else []) (all_rules g) ++
         [(Before (g_start g), [[Eps]])] ++
         flat_map (fun '(h, bd) => map (fun '(l, v) => (Before v, [Var (Before h) :: map inner l])) (occurrences [] bd)) (all_rules g) ++
         map (fun '(h, bd) => (Inside h, [map inner bd])) (all_rules g) |}.

  Fixpoint inside (x : tree V T) : tree (loose_var V) T :=
    match x with Leaf t => Leaf t | Branch v cs => Branch (Inside v) (map inside cs) end.

  (** [w] can stand before [v], by a chain of rules from the start variable. *)
  Inductive before (g : grammar V T) : V -> list sym -> Prop :=
  | before_start : before g (g_start g) []
  | before_rule : forall h w l v r, before g h w -> rule g h (l ++ Var v :: r) -> before g v (w ++ l).
End Loose.
