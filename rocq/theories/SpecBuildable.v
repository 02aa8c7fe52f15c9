(** Whether a parser is built, as a function of the grammar alone.  Nothing here is
    taken from the code: no automaton and no map is made. *)
From Verif Require Import Base GrammarModel SpecCfg SpecPossible SpecExactness.

Section Buildable.
  Context {V T : Type} {dv : DecEq V} {dt : DecEq T} (g : grammar V T).
  Notation sym := (symbol V T).
  Notation dotted := (SpecCfg.dotted V T).

  (** The variables that derive the empty string. *)
  Definition nul_in (l : list V) (s : sym) : bool := match s with Ter _ => false | Var u => memb u l | Eps => true end.
  Definition nullables : list V :=
    more_all (fun l => flat_map (fun x : V * body V T => if forallb (nul_in l) (snd x) then [fst x] else []) (all_rules g)) (bits (length (all_rules g))) [].
  Definition emptyb (bd : list sym) : bool := forallb (nul_in nullables) bd.

  (** The terminals a string begins with, if those of the variables are given. *)
  Fixpoint begins (l : list (V * T)) (bd : list sym) : list T :=
    match bd with
    | [] => []
    | Ter t :: _ => [t]
    | Eps :: r => begins l r
    | Var u :: r => flat_map (fun x => if eqb (fst x) u then [snd x] else []) l ++ (if memb u nullables then begins l r else [])
    end.
  Definition ters_of (bd : list sym) : list T := flat_map (fun s => match s with Ter t => [t] | _ => [] end) bd.
  Definition all_ters : list T := flat_map (fun x : V * body V T => ters_of (snd x)) (all_rules g).
  Definition heads : list V := map fst (all_rules g).
  Definition firsts : list (V * T) :=
    more_all (fun l => flat_map (fun x : V * body V T => map (pair (fst x)) (begins l (snd x))) (all_rules g)) (bits (length heads) + bits (length all_ters)) [].

  (** The variables of a body, each with what stands behind it. *)
  Fixpoint tails (bd : list sym) : list (V * list sym) :=
    match bd with
    | [] => []
    | s :: r => match s with Var u => [(u, r)] | _ => [] end ++ tails r
    end.
  Definition all_tails : list (V * (V * list sym)) := flat_map (fun x : V * body V T => map (pair (fst x)) (tails (snd x))) (all_rules g).
  Definition follows : list (V * T) :=
    more_all (fun l => flat_map (fun x : V * (V * list sym) =>
        let '(h, (u, r)) := x in
        map (pair u) (begins firsts r) ++ (if emptyb r then flat_map (fun y => if eqb (fst y) h then [(u, snd y)] else []) l else [])) all_tails)
      (bits (length (body_vars g)) + bits (length all_ters)) [].
  Definition follow (v : V) : list T := flat_map (fun y => if eqb (fst y) v then [snd y] else []) follows.

  (** The variables with an entry in the FOLLOW map, under every and under some order. *)
  Definition filled (r : list sym) : bool := match r with [] => false | _ => true end.
  Definition directb (v : V) : bool := existsb (fun x : V * (V * list sym) => eqb (fst (snd x)) v && filled (snd (snd x))) all_tails.
  Definition sureb (v : V) : bool :=
    directb v || filled (map Ter (follow v)) ||
    existsb (fun x : V * (V * list sym) => eqb (fst (snd x)) v && negb (filled (snd (snd x))) && directb (fst x)) all_tails.
  Definition entries : list V :=
    more_all (fun l => flat_map (fun x : V * (V * list sym) => let '(h, (u, r)) := x in if filled r || (emptyb r && memb h l) then [u] else []) all_tails)
      (bits (length (body_vars g))) [].
  Definition maybeb (v : V) : bool := memb v entries.

  (** The dotted rules; what is in one state. *)
  Fixpoint skip (a b : list sym) : list sym * list sym := match b with Eps :: r => skip (a ++ [Eps]) r | _ => (a, b) end.
  Definition dot (h : V) (x : list sym * list sym) : dotted := (h, fst x, snd x).
  Definition initials (v : V) : list dotted := flat_map (fun x : V * body V T => if eqb (fst x) v then [dot v (skip [] (snd x))] else []) (all_rules g).
  Fixpoint splits (a b : list sym) : list (list sym * list sym) := (a, b) :: match b with [] => [] | s :: r => splits (a ++ [s]) r end.
  Definition all_dots : list dotted := flat_map (fun x : V * body V T => map (dot (fst x)) (splits [] (snd x))) (all_rules g).
  Definition closes (d : dotted) : list dotted := match d with (_, _, Var v :: _) => initials v | _ => [] end.
  Definition both (d d' : dotted) : list (dotted * dotted) :=
    match d, d' with
    | (h, a, s :: r), (h', a', s' :: r') => if eqb s s' then [(dot h (skip (a ++ [s]) r), dot h' (skip (a' ++ [s']) r'))] else []
    | _, _ => []
    end.
  Definition twins : list (dotted * dotted) :=
    more_all (fun l => list_prod (initials (g_start g)) (initials (g_start g)) ++
        flat_map (fun x : dotted * dotted => map (fun d => (d, snd x)) (closes (fst x)) ++ map (pair (fst x)) (closes (snd x)) ++ both (fst x) (snd x)) l)
      (bits (length all_dots) + bits (length all_dots)) [].

  (** The keys under which an item asks for an action. *)
  Definition asks (e : bool) (d : dotted) : list (option T) :=
    match d with
    | (_, _, Ter t :: _) => [Some t]
    | (h, _, []) => map Some (follow h) ++ (if eqb h (g_start g) && e then [None] else [])
    | _ => []
    end.
  Definition same_keyb (teq : T -> T -> bool) (k k' : option T) : bool :=
    match k, k' with Some t, Some t' => teq t t' | None, None => true | _, _ => false end.
  Definition clashb (teq : T -> T -> bool) (e : bool) : bool :=
    existsb (fun x : dotted * dotted => existsb (fun k => existsb (fun k' => same_keyb teq k k' && negb (eqb (fst x, k) (snd x, k'))) (asks e (snd x))) (asks e (fst x))) twins.

  (** Under every order a parser is built; one that returns exactly the derivation trees. *)
  Definition always_built (teq : T -> T -> bool) : bool := negb (clashb teq (maybeb (g_start g))).
  Definition sometimes_built (teq : T -> T -> bool) : bool := negb (clashb teq (sureb (g_start g))).
  Definition always_exact (teq : T -> T -> bool) : bool :=
    freeb g && always_built teq && (negb (productiveb g (g_start g)) || (frontb g && endsb g && sureb (g_start g))).
End Buildable.
