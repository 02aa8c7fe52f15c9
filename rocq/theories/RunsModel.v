(** [Lexer::next] with the number of runs of the simulator at every character it
    takes from its iterator.  Apart from these numbers this is the code of
    LexerModel.v. *)
From Verif Require Import Base RegexModel NfaModel LexerModel.

Section Runs.
  Context {env : Env} {ho : HashOrder} {K : Type}.

  (** lexer/mod.rs:72-119; the last component has one entry for each turn of the
      [while let]: the length of [runs] (sim.rs:22-23) that [can_feed] and
      [feed] go over in this turn (sim.rs:136-197). *)
  Fixpoint runs_loop (fuel steps : nat) (lx : lexer K) (i : iter) (runs : list run) (kind : option K)
      : res (option (ltoken K) * lexer K * list nat) :=
    match iter_next i with
    | (None, i') =>
        let! a := sim_accepting (lx_nfa lx) runs in
        if a then Val (emit lx i' kind, []) else Val (None, lx_with_iter lx i', [])
    | (Some ch, i1) =>
        match steps with
        | 0 => Diverge
        | S steps' =>
            let! can := sim_can_feed (lx_nfa lx) runs ch in
            if negb can then Val (emit lx i1 kind, [length runs])
            else
              let! (runs', accepts) := sim_feed fuel (lx_nfa lx) runs ch in
              if accepts then
                let i2 := accept_suffix i1 in
                let! f := of_option (hd_error (sim_final_states (lx_nfa lx) runs')) in
                let! g := of_option (find_token f (lx_tokens lx)) in
                let! (r, k) := runs_loop fuel steps' lx i2 runs' (Some (gen_run g (it_source (ii_token i2)))) in
                Val (r, length runs :: k)
              else
                let! (r, k) := runs_loop fuel steps' lx i1 runs' kind in
                Val (r, length runs :: k)
        end
    end.

  (** lexer/mod.rs:68-120 [Lexer::next]. *)
  Definition runs_next (fuel : nat) (lx : lexer K) : res (option (ltoken K) * lexer K * list nat) :=
    let! runs := sim_new fuel (lx_nfa lx) in
    runs_loop fuel (iter_left (lx_iter lx)) lx (lx_iter lx) runs None.

  (** [n] calls: the results, the lexer after them, and the numbers of each. *)
  Fixpoint runs_calls (fuel n : nat) (lx : lexer K) : res (list (option (ltoken K)) * lexer K * list (list nat)) :=
    match n with
    | 0 => Val ([], lx, [])
    | S n' =>
        let! (r, k) := runs_next fuel lx in
        let! (q, ks) := runs_calls fuel n' (snd r) in
        Val (fst r :: fst q, snd q, k :: ks)
    end.
End Runs.
