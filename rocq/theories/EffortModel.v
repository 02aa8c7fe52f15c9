(** The simulator with a count of what it looks at.  Apart from the counts this is
    the code of NfaModel.v and LexerModel.v.  Counted are: every state compared by
    [get_state], every transition looked at, every counter of a run that is cloned
    (and hashed), every run that is looked at, and one for each of these.  Not
    counted: what a hash table does for one insertion besides hashing, comparing
    characters, and the iterator over the input. *)
From Verif Require Import Base RegexModel NfaModel LexerModel.

(** fsm/nfa/model.rs:67-72 [get_state]: the states compared by [find]. *)
Fixpoint seek (l : list state) (i : nat) : nat :=
  match l with
  | [] => 0
  | s :: r => if st_id s =? i then 1 else S (seek r i)
  end.

(** sim.rs:26-51: the size of a run that is cloned or hashed. *)
Definition girth (r : run) : nat := S (length (r_cnt r)).

Section Effort.
  Context {env : Env} {ho : HashOrder}.

  (** model.rs:90-122: one turn finds the state and looks at its transitions and
      at their targets. *)
  Fixpoint effort_static (fuel : nat) (m : nfa) (queue result : list nat) : res (list nat * nat) :=
    match queue with
    | [] => Val (result, 0)
    | i :: rest =>
        match fuel with
        | 0 => Diverge
        | S fuel' =>
            let! s := of_option (get_state m i) in
            let ts := static_targets fuel s in
            let '(queue', result') := static_push ts rest result in
            let! (l, k) := effort_static fuel' m queue' result' in
            Val (l, seek (nfa_states m) i + length (st_trans s) + length ts + k)
        end
    end.

  (** sim.rs:58-67. *)
  Definition effort_new (fuel : nat) (m : nfa) : res (list run * nat) :=
    let! (l, k) := effort_static fuel m [nfa_start m] [nfa_start m] in
    Val (map (fun i => {| r_state := i; r_cnt := [] |}) l, k + length l).

  (** sim.rs:76-111: one turn finds the state, looks at its transitions, and clones
      and inserts the new runs. *)
  Fixpoint effort_loop (fuel : nat) (m : nfa) (queue result : list run) : res (list run * nat) :=
    match queue with
    | [] => Val (result, 0)
    | r :: rest =>
        match fuel with
        | 0 => Diverge
        | S fuel' =>
            let! s := of_option (get_state m (r_state r)) in
            let xs := eps_succs fuel s r in
            let '(queue', result') := closure_push xs rest result in
            let! (l, k) := effort_loop fuel' m queue' result' in
            Val (l, seek (nfa_states m) (r_state r) + length (st_trans s) + list_sum (map girth xs) + k)
        end
    end.

  (** sim.rs:72-114: the first run is cloned and inserted. *)
  Definition effort_closure (fuel : nat) (m : nfa) (r : run) : res (list run * nat) :=
    let! (l, k) := effort_loop fuel m [r] [r] in
    Val (hash_iter fuel l, girth r + k + length l).

  (** sim.rs:165. *)
  Fixpoint effort_closures (fuel : nat) (m : nfa) (rs : list run) : res (list run * nat) :=
    match rs with
    | [] => Val ([], 0)
    | r :: rest =>
        let! (l, k) := effort_closure fuel m r in
        let! (l', k') := effort_closures fuel m rest in
        Val (l ++ l', k + k')
    end.

  (** sim.rs:137-170: for every run its state is found and its transitions are
      looked at. *)
  Fixpoint effort_runs (fuel : nat) (m : nfa) (runs : list run) (c : char) : res (list run * nat) :=
    match runs with
    | [] => Val ([], 0)
    | r :: rest =>
        let! s := of_option (get_state m (r_state r)) in
        let xs := char_succs fuel s r c in
        let! (l, k) := effort_closures fuel m xs in
        let! (l', k') := effort_runs fuel m rest c in
        Val (l ++ l', seek (nfa_states m) (r_state r) + length (st_trans s) + list_sum (map girth xs) + k + k')
    end.

  (** sim.rs:130-134: [any] stops at the first final state. *)
  Fixpoint effort_accepting (m : nfa) (runs : list run) : res (bool * nat) :=
    match runs with
    | [] => Val (false, 0)
    | r :: rest =>
        let! s := of_option (get_state m (r_state r)) in
        if st_fin s then Val (true, seek (nfa_states m) (r_state r))
        else let! (b, k) := effort_accepting m rest in Val (b, seek (nfa_states m) (r_state r) + k)
    end.

  (** sim.rs:136-179, without debug assertions. *)
  Definition effort_feed (fuel : nat) (m : nfa) (runs : list run) (c : char) : res (list run * bool * nat) :=
    let! (runs', k) := effort_runs fuel m runs c in
    let! (a, k') := effort_accepting m runs' in
    Val (runs', a, k + k').

  (** sim.rs:181-197: [any] stops at the first transition that fits; all of the
      state's are counted. *)
  Fixpoint effort_can_feed (m : nfa) (runs : list run) (c : char) : res (bool * nat) :=
    match runs with
    | [] => Val (false, 0)
    | r :: rest =>
        let! s := of_option (get_state m (r_state r)) in
        let k := seek (nfa_states m) (r_state r) + length (st_trans s) in
        if existsb (fun p => can_take (fst p) c) (st_trans s) then Val (true, k)
        else let! (b, k') := effort_can_feed m rest c in Val (b, k + k')
    end.

  (** fsm/traits.rs:18-24. *)
  Fixpoint effort_str (fuel : nat) (m : nfa) (runs : list run) (last : option bool) (w : list char)
      : res (list run * bool * nat) :=
    match w with
    | [] =>
        let! (b, k) := effort_accepting m runs in
        Val (runs, match last with Some b' => b' | None => b end, k)
    | c :: w' =>
        let! (x, k) := effort_feed fuel m runs c in
        let! (y, k') := effort_str fuel m (fst x) (Some (snd x)) w' in
        Val (y, k + k')
    end.

  (** sim.rs:120-122. *)
  Definition effort_simulate (fuel : nat) (m : nfa) (w : list char) : res (bool * nat) :=
    let! (runs, k) := effort_new fuel m in
    let! (x, k') := effort_str fuel m runs None w in
    Val (snd x, k + k').

  Context {K : Type}.

  (** lexer/mod.rs:72-119; [get_current_final_states] (sim.rs:201-219) looks at all
      states and all runs. *)
  Fixpoint effort_lex (fuel steps : nat) (lx : lexer K) (i : iter) (runs : list run) (kind : option K)
      : res (option (ltoken K) * lexer K * nat) :=
    match iter_next i with
    | (None, i') =>
        let! (a, k) := effort_accepting (lx_nfa lx) runs in
        if a then Val (emit lx i' kind, k) else Val (None, lx_with_iter lx i', k)
    | (Some ch, i1) =>
        match steps with
        | 0 => Diverge
        | S steps' =>
            let! (can, k) := effort_can_feed (lx_nfa lx) runs ch in
            if negb can then Val (emit lx i1 kind, k)
            else
              let! (x, k1) := effort_feed fuel (lx_nfa lx) runs ch in
              if snd x then
                let i2 := accept_suffix i1 in
                let! f := of_option (hd_error (sim_final_states (lx_nfa lx) (fst x))) in
                let! g := of_option (find_token f (lx_tokens lx)) in
                let! (r, k2) := effort_lex fuel steps' lx i2 (fst x) (Some (gen_run g (it_source (ii_token i2)))) in
                Val (r, k + k1 + (length (nfa_states (lx_nfa lx)) + length (fst x)) + k2)
              else
                let! (r, k2) := effort_lex fuel steps' lx i1 (fst x) kind in
                Val (r, k + k1 + k2)
        end
    end.

  (** lexer/mod.rs:68-120. *)
  Definition effort_next (fuel : nat) (lx : lexer K) : res (option (ltoken K) * lexer K * nat) :=
    let! (runs, k) := effort_new fuel (lx_nfa lx) in
    let! (r, k') := effort_lex fuel (iter_left (lx_iter lx)) lx (lx_iter lx) runs None in
    Val (r, k + k').

  Fixpoint effort_calls (fuel n : nat) (lx : lexer K) : res (list (option (ltoken K)) * lexer K * nat) :=
    match n with
    | 0 => Val ([], lx, 0)
    | S n' =>
        let! (r, k) := effort_next fuel lx in
        let! (q, k') := effort_calls fuel n' (snd r) in
        Val (fst r :: fst q, snd q, k + k')
    end.
End Effort.
