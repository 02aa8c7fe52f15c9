(** The simulator and the lexer once more, with a new order at every single
    iteration over a hash container.

    [NfaModel] indexes the orders by the fuel only, so that two iterations over
    equal lists with the same fuel left agree.  Two [HashMap]s or [HashSet]s of
    the code may order equal contents differently (each has its own random
    keys), so here a clock is passed through every function that iterates over
    one: each iteration asks [hash_at] with a time that no other iteration of
    the same execution asks with.  Everything else is as in [NfaModel] and
    [LexerModel]. *)
From Verif Require Import Base RegexModel NfaModel Iter LexerModel.

Section Tick.
  Context {env : Env} {ho : HashOrder}.

  (** model.rs:13-20: [transitions] is a [HashMap] to [HashSet]s; the map at
      time [t], its [j]-th set at time [t] as well, but with an index of its
      own. *)
  Fixpoint tick_sets (t j : nat) (l : list (input * list nat)) : list (input * list nat) :=
    match l with
    | [] => []
    | (i, ts) :: r => (i, hash_at [t; 1; j] ts) :: tick_sets t (S j) r
    end.
  Definition tick_trans (t : nat) (s : state) : list (input * list nat) :=
    tick_sets t 0 (hash_at [t; 0] (st_trans s)).

  (** model.rs:97-112. *)
  Definition tick_targets (t : nat) (s : state) : list nat :=
    flat_map (fun p => match fst p with
                       | ILit _ => []
                       | IEps => snd p
                       | IQuant q => if is_satisfied q 0 then snd p else []
                       end) (tick_trans t s).

  (** model.rs:90-122 [Nfa::eps_closure]; with the time after it. *)
  Fixpoint tick_static (fuel t : nat) (m : nfa) (queue result : list nat) : res (list nat * nat) :=
    match queue with
    | [] => Val (result, t)
    | i :: rest =>
        match fuel with
        | 0 => Diverge
        | S fuel' =>
            let! s := of_option (get_state m i) in
            let '(queue', result') := static_push (tick_targets t s) rest result in
            tick_static fuel' (S t) m queue' result'
        end
    end.

  (** sim.rs:84-104. *)
  Definition tick_eps (t : nat) (s : state) (r : run) : list run :=
    flat_map (fun p => match fst p with
                       | ILit _ => []
                       | IEps => map (fun x => take_transition r x false) (snd p)
                       | IQuant q =>
                           if is_satisfied q (counters_get (r_state r) (r_cnt r))
                           then map (fun x => take_transition r x true) (snd p)
                           else []
                       end) (tick_trans t s).

  (** sim.rs:76-111, the loop of [NfaSimulator::eps_closure]. *)
  Fixpoint tick_loop (fuel t : nat) (m : nfa) (queue result : list run) : res (list run * nat) :=
    match queue with
    | [] => Val (result, t)
    | r :: rest =>
        match fuel with
        | 0 => Diverge
        | S fuel' =>
            let! s := of_option (get_state m (r_state r)) in
            let '(queue', result') := closure_push (tick_eps t s r) rest result in
            tick_loop fuel' (S t) m queue' result'
        end
    end.

  (** sim.rs:72-114 [NfaSimulator::eps_closure]; [result.into_iter()] is an
      iteration too. *)
  Definition tick_closure (fuel t : nat) (m : nfa) (r : run) : res (list run * nat) :=
    let! (l, t1) := tick_loop fuel t m [r] [r] in
    Val (hash_at [t1; 0] l, S t1).

  (** sim.rs:58-67 [NfaSimulator::new]. *)
  Definition tick_new (fuel t : nat) (m : nfa) : res (list run * nat) :=
    let! (l, t1) := tick_static fuel t m [nfa_start m] [nfa_start m] in
    Val (map (fun i => {| r_state := i; r_cnt := [] |}) l, t1).

  (** sim.rs:142-164. *)
  Definition tick_char (t : nat) (s : state) (r : run) (c : char) : list run :=
    flat_map (fun p => if can_take (fst p) c
                       then map (fun x => take_transition r x false) (snd p) else [])
             (tick_trans t s).

  (** sim.rs:165. *)
  Fixpoint tick_closures (fuel t : nat) (m : nfa) (rs : list run) : res (list run * nat) :=
    match rs with
    | [] => Val ([], t)
    | r :: rest =>
        let! (l, t1) := tick_closure fuel t m r in
        let! (l', t2) := tick_closures fuel t1 m rest in
        Val (l ++ l', t2)
    end.

  (** sim.rs:137-170. *)
  Fixpoint tick_feed_runs (fuel t : nat) (m : nfa) (runs : list run) (c : char) : res (list run * nat) :=
    match runs with
    | [] => Val ([], t)
    | r :: rest =>
        let! s := of_option (get_state m (r_state r)) in
        let! (l, t1) := tick_closures fuel (S t) m (tick_char t s r c) in
        let! (l', t2) := tick_feed_runs fuel t1 m rest c in
        Val (l ++ l', t2)
    end.

  (** sim.rs:136-179 [feed].  [is_accepting], [can_feed] and
      [get_current_final_states] take nothing from the order of a set or a map
      but a truth value or a [BTreeSet], so they are those of [NfaModel]. *)
  Definition tick_feed (fuel t : nat) (m : nfa) (runs : list run) (c : char) : res (list run * bool * nat) :=
    let! (runs', t1) := tick_feed_runs fuel t m runs c in
    let! a := sim_accepting m runs' in
    Val (runs', a, t1).

  Context {K : Type}.

  (** lexer/mod.rs:72-119. *)
  Fixpoint tick_lex_loop (fuel t steps : nat) (lx : lexer K) (i : iter) (runs : list run) (kind : option K)
      : res (option (ltoken K) * lexer K * nat) :=
    match iter_next i with
    | (None, i') =>
        let! a := sim_accepting (lx_nfa lx) runs in
        if a then Val (emit lx i' kind, t) else Val (None, lx_with_iter lx i', t)
    | (Some ch, i1) =>
        match steps with
        | 0 => Diverge
        | S steps' =>
            let! can := sim_can_feed (lx_nfa lx) runs ch in
            if negb can then Val (emit lx i1 kind, t)
            else
              let! (x, t1) := tick_feed fuel t (lx_nfa lx) runs ch in
              let '(runs', accepts) := x in
              if accepts then
                let i2 := accept_suffix i1 in
                let! f := of_option (hd_error (sim_final_states (lx_nfa lx) runs')) in
                let! g := of_option (find_token f (lx_tokens lx)) in
                tick_lex_loop fuel t1 steps' lx i2 runs' (Some (gen_run g (it_source (ii_token i2))))
              else tick_lex_loop fuel t1 steps' lx i1 runs' kind
        end
    end.

  (** lexer/mod.rs:68-120 [Lexer::next]. *)
  Definition tick_next (fuel t : nat) (lx : lexer K) : res (option (ltoken K) * lexer K * nat) :=
    let! (runs, t1) := tick_new fuel t (lx_nfa lx) in
    tick_lex_loop fuel t1 (iter_left (lx_iter lx)) lx (lx_iter lx) runs None.

  (** [n] calls of [next]. *)
  Fixpoint tick_calls (fuel t n : nat) (lx : lexer K) : res (list (option (ltoken K)) * lexer K * nat) :=
    match n with
    | 0 => Val ([], lx, t)
    | S n' =>
        let! (x, t1) := tick_next fuel t lx in
        let '(o, lx1) := x in
        let! (y, t2) := tick_calls fuel t1 n' lx1 in
        let '(os, lx2) := y in
        Val (o :: os, lx2, t2)
    end.

  (** sim.rs:120-122 [Nfa::simulate] and fsm/traits.rs:18-24. *)
  Fixpoint tick_feed_str (fuel t : nat) (m : nfa) (runs : list run) (last : option bool) (w : list char)
      : res (list run * bool * nat) :=
    match w with
    | [] =>
        match last with
        | Some b => let! _ := sim_accepting m runs in Val (runs, b, t)
        | None => let! b := sim_accepting m runs in Val (runs, b, t)
        end
    | c :: w' =>
        let! (x, t1) := tick_feed fuel t m runs c in
        tick_feed_str fuel t1 m (fst x) (Some (snd x)) w'
    end.
  Definition tick_simulate (fuel t : nat) (m : nfa) (w : list char) : res (bool * nat) :=
    let! (runs, t1) := tick_new fuel t m in
    let! (x, t2) := tick_feed_str fuel t1 m runs None w in
    Val (snd x, t2).
End Tick.
