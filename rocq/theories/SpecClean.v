(** Specification of grammars without epsilon and useless variables: trees in which
    nothing stands for the empty text, and the calls that add only what such trees need. *)
From Verif Require Import Base GrammarModel CfsmModel SpecCfg.

Section Clean.
  Context {V T : Type}.

  (** The tree without the variables that stand for the empty text; nothing is left if all of
      it does. *)
  Fixpoint pruned (x : tree V T) : list (tree V T) :=
    match x with
    | Leaf t => [Leaf t]
    | Branch v cs => match flat_map pruned cs with [] => [] | ds => [Branch v ds] end
    end.

  Context {dv : DecEq V}.

  (** Heads are added as long as there is one that is new and allowed by the list so far. *)
  Fixpoint grow {X} (ok : list V -> X -> bool) (rs : list (V * X)) (n : nat) (l : list V) : list V :=
    match n with
    | 0 => l
    | S n' =>
        match find (fun r => negb (memb (fst r) l) && ok l (snd r)) rs with
        | None => l
        | Some r => grow ok rs n' (fst r :: l)
        end
    end.

  (** The rules that are added; the empty body is written as one epsilon. *)
  Definition call_rules (cs : list (call V T)) : list (V * body V T) :=
    flat_map (fun c => match c with CallStart _ => [] | CallRule v bd => [(v, match bd with [] => [Eps] | _ => bd end)] end) cs.

  (** All symbols of the body are epsilon or among [l]. *)
  Definition vanishes (l : list V) (bd : body V T) : bool :=
    forallb (fun s => match s with Ter _ => false | Var x => memb x l | Eps => true end) bd.

  (** All variables of the body are among [l]. *)
  Definition within (l : list V) (bd : body V T) : bool :=
    forallb (fun s => match s with Var x => memb x l | _ => true end) bd.

  (** The body without epsilon, with and without each of the variables of [l]. *)
  Fixpoint shorter (l : list V) (bd : body V T) : list (body V T) :=
    match bd with
    | [] => [[]]
    | Eps :: r => shorter l r
    | Ter t :: r => map (cons (Ter t)) (shorter l r)
    | Var v :: r => map (cons (Var v)) (shorter l r) ++ (if memb v l then shorter l r else [])
    end.

  Definition nonempty (bd : body V T) : bool := match bd with [] => false | _ => true end.

  (** The rules without what can be empty, of these the ones whose variables derive a text, and
      of these the ones that the start variable needs. *)
  Definition nullables (rs : list (V * body V T)) : list V := grow vanishes rs (length rs) [].
  Definition short_rules (rs : list (V * body V T)) : list (V * body V T) :=
    flat_map (fun r => map (pair (fst r)) (filter nonempty (shorter (nullables rs) (snd r)))) rs.
  Definition fertiles (rs : list (V * body V T)) : list V := grow within rs (length rs) [].
  Definition fertile_rules (rs : list (V * body V T)) : list (V * body V T) :=
    filter (fun r => within (fertiles rs) (snd r)) rs.
  Definition links (rs : list (V * body V T)) : list (V * V) :=
    flat_map (fun r => flat_map (fun s => match s with Var x => [(x, fst r)] | _ => [] end) (snd r)) rs.
  Definition needed (s : V) (rs : list (V * body V T)) : list V :=
    grow (fun l h => memb h l) (links rs) (length (links rs)) [s].
  Definition needed_rules (s : V) (rs : list (V * body V T)) : list (V * body V T) :=
    filter (fun r => memb (fst r) (needed s rs)) rs.

  Definition cleaned (cs : list (call V T)) : list (call V T) :=
    match last_start cs with
    | None => []
    | Some s => CallStart s :: map (fun r => CallRule (fst r) (snd r)) (needed_rules s (fertile_rules (short_rules (call_rules cs))))
    end.
End Clean.
