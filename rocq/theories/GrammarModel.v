(** Model of pango-parser/src/lib.rs and pango-parser/src/grammar.rs. *)
From Verif Require Import Base.

(** ** Hash sets and maps

    A [HashSet] is the duplicate free list of its elements, a [HashMap] the
    list of its entries; every iteration over one goes through [hash_at]. *)

#[global] Instance option_deceq {A} `{DecEq A} : DecEq (option A).
Proof.
  refine {| eqb := fun x y => match x, y with
                              | Some a, Some b => eqb a b
                              | None, None => true
                              | _, _ => false
                              end |}.
  intros [a|] [b|]; split; intros E; try congruence.
  - apply eqb_eq in E. congruence.
  - injection E as ->. apply eqb_refl.
Defined.

Fixpoint list_eqb {A} `{DecEq A} (x y : list A) : bool :=
  match x, y with
  | [], [] => true
  | a :: x', b :: y' => eqb a b && list_eqb x' y'
  | _, _ => false
  end.

#[global] Instance list_deceq {A} `{DecEq A} : DecEq (list A).
Proof.
  refine {| eqb := list_eqb |}.
  intros x. induction x as [|a x IH]; intros [|b y]; split; intros E; cbn in *; try congruence.
  - apply andb_prop in E. destruct E as [E1 E2]. apply eqb_eq in E1. apply IH in E2. congruence.
  - injection E as -> ->. rewrite eqb_refl. apply IH. reflexivity.
Defined.

#[global] Instance prod_deceq {A B} `{DecEq A} `{DecEq B} : DecEq (A * B).
Proof.
  refine {| eqb := fun x y => eqb (fst x) (fst y) && eqb (snd x) (snd y) |}.
  intros [a b] [a' b']; split; intros E; cbn in *.
  - apply andb_prop in E. destruct E as [E1 E2]. apply eqb_eq in E1. apply eqb_eq in E2. congruence.
  - injection E as -> ->. rewrite !eqb_refl. reflexivity.
Defined.

(** [HashSet::insert] (without the answer) and [HashSet::extend]. *)
Definition set_insert {A} `{DecEq A} (x : A) (l : list A) : list A :=
  if memb x l then l else l ++ [x].
Definition set_extend {A} `{DecEq A} (xs l : list A) : list A :=
  fold_left (fun acc x => set_insert x acc) xs l.

(** [HashMap::get]. *)
Fixpoint mget {A B} `{DecEq A} (k : A) (m : list (A * B)) : option B :=
  match m with
  | [] => None
  | (k', b) :: r => if eqb k k' then Some b else mget k r
  end.

(** [entry(k).or_insert(d)] followed by an update of the value. *)
Fixpoint mupdate {A B} `{DecEq A} (k : A) (d : B) (f : B -> B) (m : list (A * B)) : list (A * B) :=
  match m with
  | [] => [(k, f d)]
  | (k', b) :: r => if eqb k k' then (k', f b) :: r else (k', b) :: mupdate k d f r
  end.

(** [HashMap::remove] (without the answer). *)
Definition mremove {A B} `{DecEq A} (k : A) (m : list (A * B)) : list (A * B) :=
  filter (fun e => negb (eqb k (fst e))) m.

(** [Iterator::enumerate]. *)
Definition enumerate {A} (l : list A) : list (nat * A) := combine (seq 0 (length l)) l.

(** lib.rs:16-20 [Symbol]. *)
Inductive symbol (V T : Type) : Type :=
| Ter (t : T)
| Var (v : V)
| Eps.
Arguments Ter {V T} t.
Arguments Var {V T} v.
Arguments Eps {V T}.

#[global] Instance symbol_deceq {V T} `{DecEq V} `{DecEq T} : DecEq (symbol V T).
Proof.
  refine {| eqb := fun x y => match x, y with
                              | Ter a, Ter b => eqb a b
                              | Var a, Var b => eqb a b
                              | Eps, Eps => true
                              | _, _ => false
                              end |}.
  intros [a|a|] [b|b|]; split; intros E; try congruence;
    try (apply eqb_eq in E; congruence); try (injection E as ->; apply eqb_refl).
Defined.

Definition is_eps {V T} (s : symbol V T) : bool := match s with Eps => true | _ => false end.

Section Grammar.
  Context {V T : Type} {dv : DecEq V} {dt : DecEq T}.

  (** lib.rs:23 [Body]. *)
  Definition body := list (symbol V T).

  (** grammar.rs:24 [Rules]. *)
  Definition rules := list (V * list body).

  (** grammar.rs:16-21 [Grammar]. *)
  Record grammar := { g_start : V; g_rules : rules }.

  (** ** Builder *)

  (** grammar.rs:394-399 [GrammarBuilder]. *)
  Record gbuilder := { b_start : option V; b_rules : rules }.

  (** grammar.rs:404-409 [new]. *)
  Definition gbuilder_new : gbuilder := {| b_start := None; b_rules := [] |}.

  (** grammar.rs:430-432 [set_start_variable], also behind
      [with_start_variable]. *)
  Definition set_start_variable (v : V) (b : gbuilder) : gbuilder :=
    {| b_start := Some v; b_rules := b_rules b |}.

  (** grammar.rs:435-448 [add_rule], also behind [with_rule]; the answer says
      whether the rule is new. *)
  Definition add_rule (v : V) (bd : body) (b : gbuilder) : bool * gbuilder :=
    let bd := match bd with [] => [Eps] | _ => bd end in
    (negb (match mget v (b_rules b) with Some bs => memb bd bs | None => false end),
     {| b_start := b_start b; b_rules := mupdate v [] (set_insert bd) (b_rules b) |}).

  (** grammar.rs:468-475 [add_rules], also behind [with_rules]. *)
  Definition add_rules (v : V) (bds : list body) (b : gbuilder) : gbuilder :=
    fold_left (fun acc bd => snd (add_rule v bd acc)) bds b.

  Definition body_variables (bd : body) : list V :=
    flat_map (fun s => match s with Var v => [v] | _ => [] end) bd.

  (** grammar.rs:484-516 [build].  The two sets are only compared, so the
      iteration order is not observable. *)
  Definition build (b : gbuilder) : res grammar :=
    let heads := map fst (b_rules b) in
    let variables := flat_map (fun r => flat_map body_variables (snd r)) (b_rules b) in
    let! s := of_option (b_start b) in
    if forallb (fun v => memb v heads) (s :: variables)
    then Val {| g_start := s; g_rules := b_rules b |}
    else Panic.

  (** grammar.rs:71-73 [get_rule_bodies]. *)
  Definition get_rule_bodies (g : grammar) (v : V) : option (list body) := mget v (g_rules g).

  (** ** FIRST *)

  Context {ho : HashOrder}.

  (** The local variables of [first_bodies] (grammar.rs:133-143).  A boxed body
      iterator is the suffix it has not yet delivered. *)
  Record fstate := {
    f_result : list (symbol V T);
    f_first : list (V * list (symbol V T));
    f_pending : list (option V * list body);
    f_deps : list (V * list (option V * list body));
    f_visited : list V
  }.

  Definition first_size (m : list (V * list (symbol V T))) : nat :=
    list_sum (map (fun e => length (snd e)) m).

  (** grammar.rs:149-180 [extend_for_variable].  [p] names this call of
      [first_bodies]; the moved dependencies are iterated in hash order. *)
  Definition extend_for_variable (p : list nat) (variable : option V) (symbols : list (symbol V T))
      (st : fstate) : fstate :=
    match variable with
    | Some v =>
        let old := match mget v (f_first st) with Some l => l | None => [] end in
        let new := set_extend symbols old in
        let first' := mupdate v [] (set_extend symbols) (f_first st) in
        if Nat.eqb (length old) (length new) then
          {| f_result := f_result st; f_first := first'; f_pending := f_pending st;
             f_deps := f_deps st; f_visited := f_visited st |}
        else
          let moved := match mget v (f_deps st) with
                       | Some ds => hash_at (first_size first' :: 2 :: p) ds
                       | None => []
                       end in
          {| f_result := f_result st; f_first := first'; f_pending := f_pending st ++ moved;
             f_deps := mremove v (f_deps st); f_visited := f_visited st |}
    | None =>
        {| f_result := set_extend symbols (f_result st); f_first := f_first st;
           f_pending := f_pending st; f_deps := f_deps st; f_visited := f_visited st |}
    end.

  (** grammar.rs:208-213: register the current body suffix. *)
  Definition add_dependency (v : V) (variable : option V) (suffix : body) (st : fstate) : fstate :=
    {| f_result := f_result st; f_first := f_first st; f_pending := f_pending st;
       f_deps := mupdate v [] (mupdate variable [] (fun l => l ++ [suffix])) (f_deps st);
       f_visited := f_visited st |}.

  (** grammar.rs:184-276, the loop over one body; [rest] is what [last_body]
      holds at the start of an iteration. *)
  Fixpoint first_scan (p : list nat) (g : grammar) (variable : option V) (rest : body) (st : fstate)
      : res fstate :=
    match rest with
    | [] => Val st
    | Ter t :: _ => Val (extend_for_variable p variable [Ter t] st)
    | Var v :: tl =>
        let st1 := add_dependency v variable rest st in
        if memb v (f_visited st1) then
          match mget v (f_first st1) with
          | None => Val st1
          | Some fv =>
              let last := match tl with [] => true | _ => false end in
              let st2 := extend_for_variable p variable
                           (filter (fun s => negb (is_eps s) || last) fv) st1 in
              if memb Eps fv then first_scan p g variable tl st2 else Val st2
          end
        else
          let! bs := of_option (get_rule_bodies g v) in
          Val {| f_result := f_result st1; f_first := f_first st1;
                 f_pending := f_pending st1 ++ [(Some v, hash_at (length (f_visited st1) :: 1 :: p) bs)];
                 f_deps := f_deps st1; f_visited := f_visited st1 ++ [v] |}
    | Eps :: tl =>
        match tl with
        | [] => Val (extend_for_variable p variable [Eps] st)
        | _ => first_scan p g variable tl st
        end
    end.

  (** grammar.rs:183: the bodies of one queue entry. *)
  Fixpoint first_entry (p : list nat) (g : grammar) (variable : option V) (bs : list body) (st : fstate)
      : res fstate :=
    match bs with
    | [] => Val st
    | b :: r => let! st' := first_scan p g variable b st in first_entry p g variable r st'
    end.

  (** grammar.rs:182-277, the work list. *)
  Fixpoint first_loop (fuel : nat) (p : list nat) (g : grammar) (st : fstate) : res fstate :=
    match f_pending st with
    | [] => Val st
    | (variable, bs) :: rest =>
        match fuel with
        | 0 => Diverge
        | S fuel' =>
            let! st' := first_entry p g variable bs
                          {| f_result := f_result st; f_first := f_first st; f_pending := rest;
                             f_deps := f_deps st; f_visited := f_visited st |} in
            first_loop fuel' p g st'
        end
    end.

  (** grammar.rs:117-286 [first_bodies]. *)
  Definition first_bodies (fuel : nat) (p : list nat) (g : grammar) (variable : option V) (bs : list body)
      : res (list (symbol V T)) :=
    let! st := first_loop fuel p g
                 {| f_result := []; f_first := []; f_pending := [(variable, bs)]; f_deps := [];
                    f_visited := match variable with Some v => [v] | None => [] end |} in
    Val match variable with
        | Some v => match mget v (f_first st) with Some l => l | None => [] end
        | None => f_result st
        end.

  (** grammar.rs:101-107 [first]. *)
  Definition first (fuel : nat) (p : list nat) (g : grammar) (v : V) : res (list (symbol V T)) :=
    let! bs := of_option (get_rule_bodies g v) in
    first_bodies fuel p g (Some v) (hash_at (0 :: p) bs).

  (** grammar.rs:109-115 [first_body], as [follow_set] calls it. *)
  Definition first_body (fuel : nat) (p : list nat) (g : grammar) (bd : body) : res (list (symbol V T)) :=
    first_bodies fuel p g None [bd].

  (** ** FOLLOW *)

  (** grammar.rs:289-292: the sets and the dependencies (values depend on
      keys). *)
  Record wstate := {
    w_result : list (V * list (symbol V T));
    w_deps : list (V * list V)
  }.

  Definition add_follow_dep (head v : V) (st : wstate) : wstate :=
    {| w_result := w_result st; w_deps := mupdate head [] (set_insert v) (w_deps st) |}.

  (** grammar.rs:299-333, the loop over one body. *)
  Fixpoint follow_scan (fuel : nat) (p : list nat) (g : grammar) (head : V) (rest : body) (st : wstate)
      : res wstate :=
    match rest with
    | [] => Val st
    | Var v :: tl =>
        match tl with
        | [] => Val (add_follow_dep head v st)
        | _ =>
            let! f := first_body fuel (length tl :: p) g tl in
            let st1 := if memb Eps f then add_follow_dep head v st else st in
            follow_scan fuel p g head tl
              {| w_result := mupdate v [] (set_extend (filter (fun s => negb (is_eps s)) f)) (w_result st1);
                 w_deps := w_deps st1 |}
        end
    | _ :: tl => follow_scan fuel p g head tl st
    end.

  (** grammar.rs:294-334, the loop over the rules. *)
  Fixpoint follow_rules (fuel : nat) (p : list nat) (g : grammar) (rs : list (nat * (V * body))) (st : wstate)
      : res wstate :=
    match rs with
    | [] => Val st
    | (i, (head, bd)) :: r =>
        let! st' := follow_scan fuel (i :: p) g head bd st in
        follow_rules fuel p g r st'
    end.

  (** grammar.rs:294-297: all rules, in hash order. *)
  Definition iter_rules (p : list nat) (g : grammar) : list (V * body) :=
    flat_map (fun e => map (pair (fst (snd e))) (hash_at (fst e :: 1 :: p) (snd (snd e))))
             (enumerate (hash_at (0 :: p) (g_rules g))).

  (** grammar.rs:41-43 [iter_variables]. *)
  Definition iter_variables (p : list nat) (g : grammar) : list V := map fst (hash_at p (g_rules g)).

  Definition body_terminals (bd : body) : list T :=
    flat_map (fun s => match s with Ter t => [t] | _ => [] end) bd.

  (** grammar.rs:50-62 [iter_terminals]. *)
  Definition iter_terminals (p : list nat) (g : grammar) : list T :=
    hash_at (2 :: p)
      (fold_left (fun terminals e => set_extend (flat_map body_terminals (hash_at (fst e :: 1 :: p) (snd (snd e)))) terminals)
                 (enumerate (hash_at (0 :: p) (g_rules g))) []).

  (** grammar.rs:339-343: all dependencies as pairs (lhs, rhs), in hash
      order. *)
  Definition iter_deps (p : list nat) (deps : list (V * list V)) : list (V * V) :=
    flat_map (fun e => map (fun lhs => (lhs, fst (snd e))) (hash_at (fst e :: 4 :: p) (snd (snd e))))
             (enumerate (hash_at (3 :: p) deps)).

  (** grammar.rs:345-372: propagate until the queue is empty. *)
  Fixpoint follow_loop (fuel : nat) (p : list nat) (deps : list (V * list V)) (queue : list (V * V))
      (result : list (V * list (symbol V T))) : res (list (V * list (symbol V T))) :=
    match queue with
    | [] => Val result
    | (lhs, rhs) :: rest =>
        match fuel with
        | 0 => Diverge
        | S fuel' =>
            match mget rhs result with
            | None => follow_loop fuel' p deps rest result
            | Some fr =>
                let old := match mget lhs result with Some l => l | None => [] end in
                let new := set_extend fr old in
                let result' := mupdate lhs [] (set_extend fr) result in
                let more := if Nat.eqb (length old) (length new) then []
                            else match mget lhs deps with
                                 | Some ds => map (fun d => (d, lhs)) (hash_at (first_size result' :: 5 :: p) ds)
                                 | None => []
                                 end in
                follow_loop fuel' p deps (rest ++ more) result'
            end
        end
    end.

  (** grammar.rs:288-375 [follow_set]. *)
  Definition follow_set (fuel : nat) (p : list nat) (g : grammar) : res (list (V * list (symbol V T))) :=
    let! st := follow_rules fuel (2 :: p) g (enumerate (iter_rules p g)) {| w_result := []; w_deps := [] |} in
    follow_loop fuel p (w_deps st) (iter_deps p (w_deps st)) (w_result st).
End Grammar.

Arguments body : clear implicits.
Arguments rules : clear implicits.
Arguments grammar : clear implicits.
Arguments gbuilder : clear implicits.
