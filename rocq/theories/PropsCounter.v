(** Property C105: how large the numbers become that lexing counts with. *)
From Verif Require Import Base RegexModel SpecRegex NfaModel SpecNfa LexerModel SpecLexer SpecCounter NfaCompileProofs NfaProofs RegexProofs
  CounterProofs PropsLexer.

(** C105: for every regex and text, whenever the simulator returns: no counter of a
    run is larger than the number of characters read plus one; the counter of the
    state a run is at, which is the one a quantifier is compared with, is not larger
    than the number of characters read. *)
Theorem C105_counters {env : Env} e m (ho : HashOrder) fuel w rs r : nfa_from e = Val m -> sim_text fuel m w = Val rs -> In r rs ->
  (forall i, counters_get i (r_cnt r) <= S (length w)) /\ counters_get (r_state r) (r_cnt r) <= length w.
Proof.
  exact (fun H Hs Hr => conj (fun i => text_counters m 1 [e] (proj2 (nfa_from_ok e m H)) ho fuel w rs r i Hs Hr)
    (text_counter m 1 [e] (proj2 (nfa_from_ok e m H)) ho fuel w rs r Hs Hr)).
Qed.
Print Assumptions C105_counters.

(** C105: the same for the automaton of a lexer. *)
Theorem C105_lexer {env : Env} (K : Type) (ts : list (list char * generator K)) input lx (ho : HashOrder) fuel w rs r :
  build_lexer ts input = Val (inl lx) -> sim_text fuel (lx_nfa lx) w = Val rs -> In r rs ->
  (forall i, counters_get i (r_cnt r) <= S (length w)) /\ counters_get (r_state r) (r_cnt r) <= length w.
Proof. exact (lexer_counters ts input lx ho fuel w rs r). Qed.
Print Assumptions C105_lexer.

(** C105: how many different runs there are, at most: with [n] states, [n] times the
    [n]-th power of the number of characters read and three. *)
Theorem C105_runs {env : Env} e m (ho : HashOrder) fuel w rs : nfa_from e = Val m -> sim_text fuel m w = Val rs ->
  length (nodup run_eq_dec rs) <= length (nfa_states m) * (length w + 3) ^ length (nfa_states m).
Proof. exact (fun H Hs => text_runs m 1 [e] (proj2 (nfa_from_ok e m H)) ho fuel w rs Hs). Qed.
Print Assumptions C105_runs.

(** C105: the positions of all tokens of all calls, after calls that returned no
    token too: every token begins where the one before has ended, and the last ends
    in the text. *)
Theorem C105_positions {env : Env} (K : Type) (ts : list (list char * generator K)) input lx (ho : HashOrder) fuel n os lx' :
  build_lexer ts input = Val (inl lx) -> lex_calls fuel n lx = Val (os, lx') -> adjacent (length input) 0 (somes os).
Proof. exact (lexer_positions ts input lx ho fuel n os lx'). Qed.
Print Assumptions C105_positions.

(** The bounds are reached. *)
Example C105_sample : let _ := ascii_env true in let _ := id_order in
  exists e m rs r r', regex_parse (str "(a|b*c)*"%string) = Val (ParseOk e) /\ nfa_from e = Val m /\
    sim_text 60 m (str "aca"%string) = Val rs /\ In r rs /\ counters_get 2 (r_cnt r) = 4 /\
    In r' rs /\ counters_get (r_state r') (r_cnt r') = 3 /\ length (nodup run_eq_dec rs) = 4.
Proof.
  do 5 eexists. split; [vm_compute; reflexivity|]. split; [vm_compute; reflexivity|]. split; [vm_compute; reflexivity|].
  split; [right; right; left; reflexivity|]. split; [reflexivity|]. split; [left; reflexivity|]. split; [reflexivity|vm_compute; reflexivity].
Qed.
(** A token after a call that returned none, and tokens with characters missing. *)
Example C105_tokens : let _ := ascii_env true in let _ := id_order in
  exists lx lx', build_lexer (plain ["a"; "abcd"; "b"; "c"; "x"; "y"]%string) (str "abcxy?a"%string) = Val (inl lx) /\
    lex_calls 60 7 lx = Val ([Some (tok 0 "a" 0 1); Some (tok 2 "b" 1 2); Some (tok 3 "c" 2 3); Some (tok 5 "y" 3 5); None;
      Some (tok 0 "?a" 5 7); None]%string, lx') /\
    adjacent (length (str "abcxy?a"%string)) 0 [tok 0 "a" 0 1; tok 2 "b" 1 2; tok 3 "c" 2 3; tok 5 "y" 3 5; tok 0 "?a" 5 7]%string.
Proof.
  do 2 eexists. split; [vm_compute; reflexivity|]. split; [vm_compute; reflexivity|].
  repeat (eapply adjacent_cons; [reflexivity|cbn; lia|cbn; lia|]). constructor.
Qed.
