(** [Lexer::next] with what a build with debug assertions writes to the standard
    error output: the [dbg!] calls of sim.rs:172-176.  Apart from the text this is
    the code of LexerModel.v.  Simplification: what is written before a panic or
    before an endless loop is not kept. *)
From Verif Require Import Base RegexModel NfaModel LexerModel DotModel DebugModel DebugRegexModel.

Section Trace.
  Context {env : Env} {ho : HashOrder} {K : Type}.

  (** The Unicode table behind [char::escape_debug], as in [show_char], and the
      places (file, line and column) of the two [dbg!] calls. *)
  Context (printable : char -> bool) (place place' : list char).

  (** [dbg!] with one argument (standard library: macros.rs): place, source text
      of the expression, and its value in the form [{:#?}]. *)
  Definition dbg_line (at_place expression : list char) (d : dbg) : list char :=
    str "[" ++ at_place ++ str "] " ++ expression ++ str " = " ++ pretty d ++ [10%N].

  (** sim.rs:172-176; [dbg!] with two arguments is [dbg!] of each. *)
  Definition feed_text (c : char) (runs : list run) (accepts : bool) : list char :=
    dbg_line place (str "input") (dbg_char printable c) ++
    dbg_line place (str "&self.runs") (dlist (map dbg_run runs)) ++
    dbg_line place' (str "self.is_accepting()") (dbg_bool accepts).

  (** lexer/mod.rs:72-119; the last component is the text written. *)
  Fixpoint trace_loop (fuel steps : nat) (lx : lexer K) (i : iter) (runs : list run) (kind : option K)
      : res (option (ltoken K) * lexer K * list char) :=
    match iter_next i with
    | (None, i') =>
        let! a := sim_accepting (lx_nfa lx) runs in
        if a then Val (emit lx i' kind, []) else Val (None, lx_with_iter lx i', [])
    | (Some ch, i1) =>
        match steps with
        | 0 => Diverge
        | S steps' =>
            let! can := sim_can_feed (lx_nfa lx) runs ch in
            if negb can then Val (emit lx i1 kind, [])
            else
              let! (runs', accepts) := sim_feed fuel (lx_nfa lx) runs ch in
              if accepts then
                let i2 := accept_suffix i1 in
                let! f := of_option (hd_error (sim_final_states (lx_nfa lx) runs')) in
                let! g := of_option (find_token f (lx_tokens lx)) in
                let! (r, w) := trace_loop fuel steps' lx i2 runs' (Some (gen_run g (it_source (ii_token i2)))) in
                Val (r, feed_text ch runs' accepts ++ w)
              else
                let! (r, w) := trace_loop fuel steps' lx i1 runs' kind in
                Val (r, feed_text ch runs' accepts ++ w)
        end
    end.

  (** lexer/mod.rs:68-120 [Lexer::next]. *)
  Definition trace_next (fuel : nat) (lx : lexer K) : res (option (ltoken K) * lexer K * list char) :=
    let! runs := sim_new fuel (lx_nfa lx) in
    trace_loop fuel (iter_left (lx_iter lx)) lx (lx_iter lx) runs None.

  (** [n] calls: the results, the lexer after them, and all the text. *)
  Fixpoint trace_calls (fuel n : nat) (lx : lexer K) : res (list (option (ltoken K)) * lexer K * list char) :=
    match n with
    | 0 => Val ([], lx, [])
    | S n' =>
        let! (r, w) := trace_next fuel lx in
        let! (q, w') := trace_calls fuel n' (snd r) in
        Val (fst r :: fst q, snd q, w ++ w')
    end.
End Trace.
