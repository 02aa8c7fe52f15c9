(** [Lexer::next] with a counter of the characters it takes from its iterator.
    Apart from the counter this is the code of LexerModel.v. *)
From Verif Require Import Base RegexModel NfaModel LexerModel.

Section Count.
  Context {env : Env} {ho : HashOrder} {K : Type}.

  (** lexer/mod.rs:72-119; the last component is the number of turns of the
      [while let], that is of calls of [InputIter::next] that return a character
      (lexer/input.rs:48-60). *)
  Fixpoint count_loop (fuel steps : nat) (lx : lexer K) (i : iter) (runs : list run) (kind : option K)
      : res (option (ltoken K) * lexer K * nat) :=
    match iter_next i with
    | (None, i') =>
        let! a := sim_accepting (lx_nfa lx) runs in
        if a then Val (emit lx i' kind, 0) else Val (None, lx_with_iter lx i', 0)
    | (Some ch, i1) =>
        match steps with
        | 0 => Diverge
        | S steps' =>
            let! can := sim_can_feed (lx_nfa lx) runs ch in
            if negb can then Val (emit lx i1 kind, 1)
            else
              let! (runs', accepts) := sim_feed fuel (lx_nfa lx) runs ch in
              if accepts then
                let i2 := accept_suffix i1 in
                let! f := of_option (hd_error (sim_final_states (lx_nfa lx) runs')) in
                let! g := of_option (find_token f (lx_tokens lx)) in
                let! (r, k) := count_loop fuel steps' lx i2 runs' (Some (gen_run g (it_source (ii_token i2)))) in
                Val (r, S k)
              else
                let! (r, k) := count_loop fuel steps' lx i1 runs' kind in
                Val (r, S k)
        end
    end.

  (** lexer/mod.rs:68-120 [Lexer::next]. *)
  Definition count_next (fuel : nat) (lx : lexer K) : res (option (ltoken K) * lexer K * nat) :=
    let! runs := sim_new fuel (lx_nfa lx) in
    count_loop fuel (iter_left (lx_iter lx)) lx (lx_iter lx) runs None.

  (** [n] calls: the results, the lexer after them, and the count of each. *)
  Fixpoint count_calls (fuel n : nat) (lx : lexer K) : res (list (option (ltoken K)) * lexer K * list nat) :=
    match n with
    | 0 => Val ([], lx, [])
    | S n' =>
        let! (r, k) := count_next fuel lx in
        let! (q, ks) := count_calls fuel n' (snd r) in
        Val (fst r :: fst q, snd q, k :: ks)
    end.
End Count.
