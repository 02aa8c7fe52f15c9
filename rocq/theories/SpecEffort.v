(** The factors of C118, read off an automaton. *)
From Verif Require Import Base RegexModel NfaModel SpecExtent.

(** The entries of the transition tables of all states. *)
Definition table_entries (m : nfa) : nat := list_sum (map (fun s => length (st_trans s)) (nfa_states m)).

(** A turn of a worklist looks for a state in the list of all states, goes over the
    table of that state, and makes a run with a counter for at most every state at
    every target. *)
Definition per_turn (m : nfa) : nat :=
  length (nfa_states m) + table_entries m + arrows m * S (length (nfa_states m)).

(** What one run costs at one character. *)
Definition per_run (m : nfa) : nat := 2 * per_turn m + 2 * length (nfa_states m) + 2.
Definition per_run_lexing (m : nfa) : nat := 3 * per_turn m + 3 * length (nfa_states m) + 3.

(** The base of the exponential bound on the number of runs, as in C111. *)
Definition runs_base (m : nfa) : nat :=
  S (arrows m * (length (nfa_states m) * 5 ^ length (nfa_states m))).
