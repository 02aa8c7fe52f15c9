(** Whether a parser returns exactly the derivation trees, as a function of the
    grammar and of the table. *)
From Verif Require Import Base GrammarModel CfsmModel SlrModel SpecPossible.

#[global] Instance bool_deceq : DecEq bool := {| eqb := Bool.eqb; eqb_eq := Bool.eqb_true_iff |}.

Section Exactness.
  Context {V T : Type} {dv : DecEq V} {dt : DecEq T} (g : grammar V T).
  Notation sym := (symbol V T).

  Definition all_rules : list (V * body V T) := flat_map (fun x => map (pair (fst x)) (snd x)) (g_rules g).

  (** The variables with a text. *)
  Definition sym_in (l : list V) (s : sym) : bool := match s with Var u => memb u l | _ => true end.
  Definition productives : list V :=
    more_all (fun l => flat_map (fun x : V * body V T => if forallb (sym_in l) (snd x) then [fst x] else []) all_rules) (bits (length all_rules)) [].
  Definition productiveb (v : V) : bool := memb v productives.

  (** The variables of sentential forms. *)
  Definition vars_of (bd : list sym) : list V := flat_map (fun s => match s with Var u => [u] | _ => [] end) bd.
  Definition body_vars : list V := flat_map (fun x => vars_of (snd x)) all_rules.
  Definition reachables : list V :=
    more_all (fun l => flat_map (fun x : V * body V T => if memb (fst x) l then vars_of (snd x) else []) all_rules) (bits (S (length body_vars))) [g_start g].
  Definition is_epsilon (s : sym) : bool := match s with Eps => true | _ => false end.
  Definition freeb : bool := forallb (fun x : V * body V T => negb (memb (fst x) reachables) || negb (existsb is_epsilon (snd x))) all_rules.
  (** No variable is useless. *)
  Definition trimb : bool := forallb productiveb reachables.

  (** A variable of a sentential form, and whether something stands before it; all
      that stands before it has a text. *)
  Fixpoint places (b : bool) (bd : list sym) : list (V * bool) :=
    match bd with
    | [] => []
    | s :: r => match s with Var v => [(v, b)] | _ => [] end ++ (if sym_in productives s then places true r else [])
    end.
  Definition fronts : list (V * bool) :=
    more_all (fun l => flat_map (fun y : V * bool => flat_map (fun x : V * body V T => if eqb (fst x) (fst y) then places (snd y) (snd x) else []) all_rules) l)
      (bits (2 * S (length body_vars))) [(g_start g, false)].
  Definition frontb : bool := negb (memb (g_start g, true) fronts).
  Definition endsb : bool :=
    forallb (fun x : V * body V T => negb (eqb (fst x) (g_start g)) || negb (forallb (sym_in productives) (snd x)) ||
      match rev (snd x) with Ter _ :: _ => true | _ => false end) all_rules.

  Definition exactb (teq : T -> T -> bool) (tb : table V T) (ks : list T) : bool :=
    freeb && (negb (productiveb (g_start g)) || (frontb && endsb && possible teq tb ks Tree)).
End Exactness.
