(** Model of pango-lexer/src/fsm: the automaton, the compiler and the
    simulator. *)
From Verif Require Import Base RegexModel.

(** fsm/nfa/model.rs:36-47 [Input]. *)
Inductive input := ILit (l : lit) | IEps | IQuant (q : quant).

Definition class_kind_eq_dec (x y : class_kind) : {x = y} + {x <> y}.
Proof. decide equality. Defined.
Definition quant_eq_dec (x y : quant) : {x = y} + {x <> y}.
Proof. decide equality; apply N.eq_dec. Defined.
Definition glit_eq_dec (x y : glit) : {x = y} + {x <> y}.
Proof. decide equality; try apply N.eq_dec; apply class_kind_eq_dec. Defined.
Definition lit_eq_dec (x y : lit) : {x = y} + {x <> y}.
Proof.
  decide equality; try apply N.eq_dec; try apply class_kind_eq_dec.
  - apply list_eq_dec, glit_eq_dec.
  - apply bool_dec.
Defined.
(** Derived [PartialEq] of [Input] (model.rs:37). *)
Definition input_eq_dec (x y : input) : {x = y} + {x <> y}.
Proof. decide equality; try apply lit_eq_dec; apply quant_eq_dec. Defined.

(** model.rs:24-34 [State]; [HashMap<Input, HashSet<StateId>>] as an
    association list, whose order is hidden behind [hash_iter] at every
    iteration. *)
Record state := { st_id : nat; st_fin : bool; st_trans : list (input * list nat) }.

(** model.rs:10-15 [Nfa]; [NfaBuilder] (model.rs:154-158) has the same
    fields. *)
Record nfa := { nfa_start : nat; nfa_states : list state }.

(** model.rs:67-72 [Nfa::get_state]; [None] is the panic. *)
Definition get_state (m : nfa) (i : nat) : option state :=
  find (fun s => st_id s =? i) (nfa_states m).

(** model.rs:149-151 [State::with_id]. *)
Definition state_with_id (i : nat) (fin : bool) : state :=
  {| st_id := i; st_fin := fin; st_trans := [] |}.

(** model.rs:163-168 [NfaBuilder::new]. *)
Definition builder_new (start_final : bool) : nfa :=
  {| nfa_start := 0; nfa_states := [state_with_id 0 start_final] |}.

(** model.rs:172-174 and 225-229 [new_state_id], [add_state]. *)
Definition add_state (b : nfa) (fin : bool) : nfa * nat :=
  let i := length (nfa_states b) in
  ({| nfa_start := nfa_start b; nfa_states := nfa_states b ++ [state_with_id i fin] |}, i).

(** [HashSet::insert]. *)
Definition set_insert (x : nat) (l : list nat) : list nat :=
  if memb x l then l else l ++ [x].

(** [entry(input).or_insert(HashSet::new()).insert(end)] (model.rs:237-241). *)
Fixpoint trans_insert (i : input) (t : nat) (l : list (input * list nat)) : list (input * list nat) :=
  match l with
  | [] => [(i, [t])]
  | (j, ts) :: r => if input_eq_dec i j then (j, set_insert t ts) :: r else (j, ts) :: trans_insert i t r
  end.

(** [get_state_mut] (model.rs:280-285) followed by an update of the
    transitions; [None] is the panic. *)
Fixpoint update_state (i : nat) (f : list (input * list nat) -> list (input * list nat)) (l : list state)
    : option (list state) :=
  match l with
  | [] => None
  | s :: r =>
      if st_id s =? i
      then Some ({| st_id := st_id s; st_fin := st_fin s; st_trans := f (st_trans s) |} :: r)
      else match update_state i f r with Some r' => Some (s :: r') | None => None end
  end.

(** model.rs:236-242 [add_transition]. *)
Definition add_transition (b : nfa) (s t : nat) (i : input) : res nfa :=
  match update_state s (trans_insert i t) (nfa_states b) with
  | Some l => Val {| nfa_start := nfa_start b; nfa_states := l |}
  | None => Panic
  end.

(** model.rs:246-261 [add_quantified_state]. *)
Definition add_quantified_state (b : nfa) (fin : bool) (q : quant) (done : nat) : res (nfa * nat) :=
  let '(b1, i) := add_state b fin in
  let! b2 := add_transition b1 i done (IQuant q) in
  Val (b2, i).

(** model.rs:178-206 [build]: the two validity checks. *)
Definition nfa_build (b : nfa) : res nfa :=
  let ids := map st_id (nfa_states b) in
  let dests := flat_map (fun s => flat_map snd (st_trans s)) (nfa_states b) in
  if forallb (fun d => memb d ids) dests
  then if memb (nfa_start b) ids then Val b else Panic
  else Panic.

(** ** Compiler *)

(** fsm/nfa/compiler.rs:73-85 [insert_quantifier_state]. *)
Definition insert_quantifier_state (b : nfa) (q : quant) (s t : nat) : res (nfa * nat) :=
  let! (b1, i) := add_quantified_state b false q t in
  let! b2 := add_transition b1 s i IEps in
  Val (b2, i).

(** compiler.rs:89-145 [expr].  [EConcat []] panics in both builds: the
    subtraction at line 99 overflows, or [last()] at line 106 is [None]. *)
Fixpoint compile_expr (e : expr) (b : nfa) (s t : nat) {struct e} : res nfa :=
  match e with
  | EConcat es =>
      (fix go (es : list expr) (b : nfa) (cur : nat) {struct es} : res nfa :=
         match es with
         | [] => Panic
         | e :: rest =>
             match rest with
             | [] => compile_expr e b cur t
             | _ :: _ =>
                 let '(b1, n) := add_state b false in
                 let! b2 := compile_expr e b1 cur n in
                 go rest b2 n
             end
         end) es b s
  | EEmpty => add_transition b s t IEps
  | EAlt l r =>
      let! b1 := compile_expr l b s t in
      compile_expr r b1 s t
  | ELit l None => add_transition b s t (ILit l)
  | ELit l (Some q) =>
      let! (b1, i) := insert_quantifier_state b q s t in
      add_transition b1 i i (ILit l)
  | EGroup e None => compile_expr e b s t
  | EGroup e (Some q) =>
      let! (b1, i) := insert_quantifier_state b q s t in
      compile_expr e b1 i i
  end.

(** compiler.rs:10-16 [Compiler]. *)
Record compiler := { co_nfa : nfa; co_final : nat }.

(** compiler.rs:38-46 [Compiler::new]: start state 0 and the final state, the
    first state of the builder that is final. *)
Definition compiler_new : res compiler :=
  let '(b, _) := add_state (builder_new false) true in
  match find st_fin (nfa_states b) with
  | Some s => Val {| co_nfa := b; co_final := st_id s |}
  | None => Panic
  end.

(** compiler.rs:49-52 [new_final]. *)
Definition new_final (c : compiler) : compiler * nat :=
  let '(b, i) := add_state (co_nfa c) true in
  ({| co_nfa := b; co_final := i |}, i).

(** compiler.rs:55-63 [with_expression], [add_expression]. *)
Definition add_expression (c : compiler) (e : expr) : res compiler :=
  let! b := compile_expr e (co_nfa c) (nfa_start (co_nfa c)) (co_final c) in
  Val {| co_nfa := b; co_final := co_final c |}.

(** compiler.rs:67-69 [compile]. *)
Definition compiler_compile (c : compiler) : res nfa := nfa_build (co_nfa c).

(** compiler.rs:18-22 [Nfa::from(Ast)]. *)
Definition nfa_from (e : expr) : res nfa :=
  let! c := compiler_new in
  let! c1 := add_expression c e in
  compiler_compile c1.

(** compiler.rs:24-33 [Nfa::from(Vec<Ast>)]. *)
Fixpoint add_expressions (c : compiler) (es : list expr) : res compiler :=
  match es with
  | [] => Val c
  | e :: es' => let! c1 := add_expression c e in add_expressions c1 es'
  end.
Definition nfa_from_vec (es : list expr) : res nfa :=
  let! c := compiler_new in
  let! c1 := add_expressions c es in
  compiler_compile c1.

(** ** Simulator *)

(** [BTreeMap<StateId, usize>] as the list of its entries in key order. *)
Definition counters := list (nat * nat).

(** [entry(i).or_insert(0)] followed by an update of the value. *)
Fixpoint counters_update (i : nat) (f : nat -> nat) (l : counters) : counters :=
  match l with
  | [] => [(i, f 0)]
  | (j, n) :: r =>
      if i =? j then (j, f n) :: r
      else if i <? j then (i, f 0) :: l
      else (j, n) :: counters_update i f r
  end.

(** [get(i).unwrap_or(&0)] (sim.rs:91). *)
Fixpoint counters_get (i : nat) (l : counters) : nat :=
  match l with
  | [] => 0
  | (j, n) :: r => if i =? j then n else counters_get i r
  end.

(** sim.rs:26-31 [Run]. *)
Record run := { r_state : nat; r_cnt : counters }.

(** Derived [PartialEq] of [Run]. *)
Definition run_eq_dec (x y : run) : {x = y} + {x <> y}.
Proof.
  decide equality.
  - apply list_eq_dec. decide equality; apply Nat.eq_dec.
  - apply Nat.eq_dec.
Defined.
#[global] Instance run_deceq : DecEq run.
Proof.
  refine {| eqb := fun x y => if run_eq_dec x y then true else false |}.
  intros x y. destruct (run_eq_dec x y); split; congruence.
Defined.

(** sim.rs:44-55 [take_transition]; [usize] overflow of a counter is out of
    reach (one increment per step). *)
Definition take_transition (r : run) (new_state : nat) (quantified : bool) : run :=
  {| r_state := new_state;
     r_cnt := counters_update (r_state r) (fun n => if quantified then 0 else S n) (r_cnt r) |}.

(** [BTreeSet::insert] on the list of elements in order. *)
Fixpoint bset_insert (x : nat) (l : list nat) : list nat :=
  match l with
  | [] => [x]
  | y :: r => if x =? y then l else if x <? y then x :: l else y :: bset_insert x r
  end.

Section Sim.
  Context {env : Env} {ho : HashOrder}.

  (** [transitions.iter()]: pairs of input and destination set in hash order,
      the destinations in hash order too. *)
  Definition iter_trans (k : nat) (s : state) : list (input * list nat) :=
    map (fun p => (fst p, hash_iter k (snd p))) (hash_iter k (st_trans s)).

  (** model.rs:97-112: destinations of the transitions that the static
      closure follows. *)
  Definition static_targets (k : nat) (s : state) : list nat :=
    flat_map (fun p => match fst p with
                       | ILit _ => []
                       | IEps => snd p
                       | IQuant q => if is_satisfied q 0 then snd p else []
                       end) (iter_trans k s).

  (** model.rs:114-118: insert the destinations, queue the new ones. *)
  Fixpoint static_push (l : list nat) (queue result : list nat) : list nat * list nat :=
    match l with
    | [] => (queue, result)
    | x :: r => if memb x result then static_push r queue result
                else static_push r (queue ++ [x]) (bset_insert x result)
    end.

  (** model.rs:94-119, the loop of [Nfa::eps_closure]. *)
  Fixpoint static_loop (fuel : nat) (m : nfa) (queue result : list nat) : res (list nat) :=
    match queue with
    | [] => Val result
    | i :: rest =>
        match fuel with
        | 0 => Diverge
        | S fuel' =>
            let! s := of_option (get_state m i) in
            let '(queue', result') := static_push (static_targets fuel s) rest result in
            static_loop fuel' m queue' result'
        end
    end.

  (** model.rs:90-122 [Nfa::eps_closure]. *)
  Definition static_closure (fuel : nat) (m : nfa) (i : nat) : res (list nat) :=
    static_loop fuel m [i] [i].

  (** sim.rs:102-104 over sim.rs:84-100: the runs one epsilon step away. *)
  Definition eps_succs (k : nat) (s : state) (r : run) : list run :=
    flat_map (fun p => match fst p with
                       | ILit _ => []
                       | IEps => map (fun t => take_transition r t false) (snd p)
                       | IQuant q =>
                           if is_satisfied q (counters_get (r_state r) (r_cnt r))
                           then map (fun t => take_transition r t true) (snd p)
                           else []
                       end) (iter_trans k s).

  (** sim.rs:106-110: insert the new runs, queue the ones not seen before. *)
  Fixpoint closure_push (l : list run) (queue result : list run) : list run * list run :=
    match l with
    | [] => (queue, result)
    | x :: r => if memb x result then closure_push r queue result
                else closure_push r (queue ++ [x]) (result ++ [x])
    end.

  (** sim.rs:76-111, the loop of [NfaSimulator::eps_closure]. *)
  Fixpoint closure_loop (fuel : nat) (m : nfa) (queue result : list run) : res (list run) :=
    match queue with
    | [] => Val result
    | r :: rest =>
        match fuel with
        | 0 => Diverge
        | S fuel' =>
            let! s := of_option (get_state m (r_state r)) in
            let '(queue', result') := closure_push (eps_succs fuel s r) rest result in
            closure_loop fuel' m queue' result'
        end
    end.

  (** sim.rs:72-114 [NfaSimulator::eps_closure]; [result.into_iter()] in hash
      order. *)
  Definition run_closure (fuel : nat) (m : nfa) (r : run) : res (list run) :=
    let! l := closure_loop fuel m [r] [r] in
    Val (hash_iter fuel l).

  (** sim.rs:58-67 [NfaSimulator::new]: the runs of a new simulator. *)
  Definition sim_new (fuel : nat) (m : nfa) : res (list run) :=
    let! l := static_closure fuel m (nfa_start m) in
    Val (map (fun i => {| r_state := i; r_cnt := [] |}) l).

  (** sim.rs:130-134 [is_accepting].  [Iterator::any] stops at the first final
      state, so a missing state after it does not panic. *)
  Fixpoint sim_accepting (m : nfa) (runs : list run) : res bool :=
    match runs with
    | [] => Val false
    | r :: rest =>
        let! s := of_option (get_state m (r_state r)) in
        if st_fin s then Val true else sim_accepting m rest
    end.

  (** model.rs:127-133 [Input::can_take]. *)
  Definition can_take (i : input) (c : char) : bool :=
    match i with
    | ILit l => lit_contains l c
    | IEps => false
    | IQuant _ => false
    end.

  (** sim.rs:142-164: states reached from one run by consuming [c]. *)
  Definition char_succs (k : nat) (s : state) (r : run) (c : char) : list run :=
    flat_map (fun p => if can_take (fst p) c
                       then map (fun t => take_transition r t false) (snd p) else [])
             (iter_trans k s).

  (** sim.rs:165: [flat_map] of the closure. *)
  Fixpoint closures (fuel : nat) (m : nfa) (rs : list run) : res (list run) :=
    match rs with
    | [] => Val []
    | r :: rest =>
        let! l := run_closure fuel m r in
        let! l' := closures fuel m rest in
        Val (l ++ l')
    end.

  (** sim.rs:137-170: the runs after [feed]. *)
  Fixpoint feed_runs (fuel : nat) (m : nfa) (runs : list run) (c : char) : res (list run) :=
    match runs with
    | [] => Val []
    | r :: rest =>
        let! s := of_option (get_state m (r_state r)) in
        let! l := closures fuel m (char_succs fuel s r c) in
        let! l' := feed_runs fuel m rest c in
        Val (l ++ l')
    end.

  (** sim.rs:136-179 [feed]: new runs and whether the simulator accepts.  The
      [dbg!] output of debug builds (lines 172-176) is left out. *)
  Definition sim_feed (fuel : nat) (m : nfa) (runs : list run) (c : char) : res (list run * bool) :=
    let! runs' := feed_runs fuel m runs c in
    let! a := sim_accepting m runs' in
    Val (runs', a).

  (** sim.rs:181-197 [can_feed]. *)
  Fixpoint sim_can_feed (m : nfa) (runs : list run) (c : char) : res bool :=
    match runs with
    | [] => Val false
    | r :: rest =>
        let! s := of_option (get_state m (r_state r)) in
        if existsb (fun p => can_take (fst p) c) (st_trans s) then Val true
        else sim_can_feed m rest c
    end.

  (** sim.rs:201-219 [get_current_final_states]. *)
  Definition sim_final_states (m : nfa) (runs : list run) : list nat :=
    let finals := map st_id (filter st_fin (nfa_states m)) in
    fold_left (fun acc r => if memb (r_state r) finals then bset_insert (r_state r) acc else acc) runs [].

  (** fsm/traits.rs:18-24 [feed_str]: feed every character, answer with the
      last result, or with [is_accepting] when there was none. *)
  Fixpoint feed_str_from (fuel : nat) (m : nfa) (runs : list run) (last : option bool) (w : list char)
      : res (list run * bool) :=
    match w with
    | [] =>
        match last with
        | Some b => let! _ := sim_accepting m runs in Val (runs, b)
        | None => let! b := sim_accepting m runs in Val (runs, b)
        end
    | c :: w' =>
        let! (runs', b) := sim_feed fuel m runs c in
        feed_str_from fuel m runs' (Some b) w'
    end.

  Definition feed_str (fuel : nat) (m : nfa) (runs : list run) (w : list char) : res (list run * bool) :=
    feed_str_from fuel m runs None w.

  (** The runs after creating a simulator and calling [feed] once for every
      character, as the lexer does: a driver for stating properties. *)
  Fixpoint feed_each (fuel : nat) (m : nfa) (runs : list run) (w : list char) : res (list run) :=
    match w with
    | [] => Val runs
    | c :: w' =>
        let! (runs', _) := sim_feed fuel m runs c in
        feed_each fuel m runs' w'
    end.
  Definition sim_text (fuel : nat) (m : nfa) (w : list char) : res (list run) :=
    let! runs := sim_new fuel m in
    feed_each fuel m runs w.

  (** sim.rs:120-122 [Nfa::simulate]. *)
  Definition simulate (fuel : nat) (m : nfa) (w : list char) : res bool :=
    let! runs := sim_new fuel m in
    let! (_, b) := feed_str fuel m runs w in
    Val b.
End Sim.
