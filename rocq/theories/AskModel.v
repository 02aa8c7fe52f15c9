(** Model of [Lexer::next] with functions given to [with_token] and
    [with_token_map] that may panic or not return.  In LexerModel.v a generator is a
    total function; here it is a generator of [res K], and a call of it goes wrong
    at the place where the code calls it. *)
From Verif Require Import Base RegexModel NfaModel LexerModel.

Section Ask.
  Context {env : Env} {ho : HashOrder} {K : Type}.

  (** lexer/mod.rs:51-59 [from_input_iter_token] with [consume_token]; as [emit] in
      LexerModel.v, for a kind that has been computed. *)
  Definition ask_emit (lx : lexer (res K)) (i : iter) (kind : option K) : option (ltoken K) * lexer (res K) :=
    match kind with
    | Some k =>
        let '(t, i') := consume_token i in
        (Some {| lt_kind := k; lt_source := it_source t; lt_pos := it_pos t |}, lx_with_iter lx i')
    | None => (None, lx_with_iter lx i)
    end.

  (** lexer/mod.rs:72-119; lines 97-107 call the function of the generator each
      time the automaton accepts. *)
  Fixpoint ask_loop (fuel steps : nat) (lx : lexer (res K)) (i : iter) (runs : list run) (kind : option K)
      : res (option (ltoken K) * lexer (res K)) :=
    match iter_next i with
    | (None, i') =>
        let! a := sim_accepting (lx_nfa lx) runs in
        if a then Val (ask_emit lx i' kind) else Val (None, lx_with_iter lx i')
    | (Some ch, i1) =>
        match steps with
        | 0 => Diverge
        | S steps' =>
            let! can := sim_can_feed (lx_nfa lx) runs ch in
            if negb can then Val (ask_emit lx i1 kind)
            else
              let! (runs', accepts) := sim_feed fuel (lx_nfa lx) runs ch in
              if accepts then
                let i2 := accept_suffix i1 in
                let! f := of_option (hd_error (sim_final_states (lx_nfa lx) runs')) in
                let! g := of_option (find_token f (lx_tokens lx)) in
                let! k := gen_run g (it_source (ii_token i2)) in
                ask_loop fuel steps' lx i2 runs' (Some k)
              else ask_loop fuel steps' lx i1 runs' kind
        end
    end.

  (** lexer/mod.rs:68-120 [Lexer::next]. *)
  Definition ask_next (fuel : nat) (lx : lexer (res K)) : res (option (ltoken K) * lexer (res K)) :=
    let! runs := sim_new fuel (lx_nfa lx) in
    ask_loop fuel (iter_left (lx_iter lx)) lx (lx_iter lx) runs None.

  (** [n] calls. *)
  Fixpoint ask_calls (fuel n : nat) (lx : lexer (res K)) : res (list (option (ltoken K)) * lexer (res K)) :=
    match n with
    | 0 => Val ([], lx)
    | S n' =>
        let! (o, lx1) := ask_next fuel lx in
        let! (os, lx2) := ask_calls fuel n' lx1 in
        Val (o :: os, lx2)
    end.
End Ask.
