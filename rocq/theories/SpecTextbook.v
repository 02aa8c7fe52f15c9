(** Whether a grammar is SLR(1) in the sense of the textbooks, as a function of the
    grammar. *)
From Verif Require Import Base GrammarModel SpecCfg SpecPossible SpecExactness SpecBuildable.

Section Textbook.
  Context {V T : Type} {dv : DecEq V} {dt : DecEq T} (g : grammar V T).
  Notation sym := (symbol V T).
  Notation dotted := (SpecCfg.dotted V T).

  (** The variables that can end a sentential form. *)
  Definition lasts : list V :=
    more_all (fun l => flat_map (fun x : V * (V * list sym) => let '(h, (u, r)) := x in if memb h l && emptyb g r then [u] else []) (all_tails g))
      (bits (S (length (body_vars g)))) [g_start g].
  (** What may follow a variable, the end of the input included. *)
  Definition looks (v : V) : list (option T) := map Some (follow g v) ++ (if memb v lasts then [None] else []).

  (** Two items of one state in conflict. *)
  Definition fights (d d' : dotted) : bool :=
    match d, d' with
    | (_, _, Ter t :: _), (h', _, []) => memb t (follow g h')
    | (h, a, []), (h', a', []) => negb (eqb (h, a) (h', a')) && existsb (fun k => memb k (looks h')) (looks h)
    | _, _ => false
    end.
  Definition conflictb : bool := existsb (fun x : dotted * dotted => fights (fst x) (snd x)) (twins g).

  (** The items of the state that is reached by reading symbols. *)
  Definition closure (init : list dotted) : list dotted := more_all (fun l => init ++ flat_map (closes g) l) (bits (length (all_dots g))) [].
  Definition moved (s : sym) (d : dotted) : list dotted :=
    match d with (h, a, s' :: r) => if eqb s s' then [dot h (skip (a ++ [s]) r)] else [] | _ => [] end.
  Definition items (w : list sym) : list dotted :=
    fold_left (fun l s => closure (flat_map (moved s) l)) w (closure (initials g (g_start g))).

  (** Two requests for one cell of the textbook table. *)
  Definition asked (d : dotted) : list (option T) :=
    match d with (_, _, Ter t :: _) => [Some t] | (h, _, []) => looks h | _ => [] end.
  Definition twiceb (teq : T -> T -> bool) : bool :=
    existsb (fun x : dotted * dotted => existsb (fun k => existsb (fun k' => same_keyb teq k k' && negb (eqb (fst x, k) (snd x, k'))) (asked (snd x))) (asked (fst x))) (twins g).
  Definition textb (teq : T -> T -> bool) : bool :=
    twiceb teq || existsb (fun d : dotted => match d with (h, _, []) => memb h lasts | _ => false end) (items [Var (g_start g)]).

  (** No epsilon, and no useless variables. *)
  Definition cleanb : bool := freeb g && forallb (fun x : V * body V T => memb (fst x) (reachables g) && productiveb g (fst x)) (all_rules g).
  (** No order of the iterations can matter. *)
  Definition steadyb : bool := implb (maybeb g (g_start g)) (sureb g (g_start g)).
End Textbook.
