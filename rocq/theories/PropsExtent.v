(** Property C94: the automaton of patterns is not larger than the patterns. *)
From Verif Require Import Base RegexModel SpecRegex NfaModel LexerModel SpecExtent ExtentProofs.

(** C94: the automaton of a regex has a state for every quantifier and for every
    place between two items, and two more; the numbers in the quantifiers do not
    matter.  It has at most an arrow for every literal and two for every
    quantifier. *)
Theorem C94_states e m : nfa_from e = Val m ->
  length (nfa_states m) = 2 + marks e + joints e /\ arrows m <= leaves e + 2 * marks e.
Proof. exact (from_size e m). Qed.
Print Assumptions C94_states.

(** C94: several regexes share the two states. *)
Theorem C94_list es m : nfa_from_vec es = Val m ->
  length (nfa_states m) = 2 + list_sum (map (fun e => marks e + joints e) es) /\
  arrows m <= list_sum (map (fun e => leaves e + 2 * marks e) es).
Proof. exact (vec_size es m). Qed.
Print Assumptions C94_list.

(** C94: the automaton of a pattern has at most one state more than the pattern
    has characters, and fewer than two arrows for every character. *)
Theorem C94_pattern {env : Env} w e m : regex_parse w = Val (ParseOk e) -> nfa_from e = Val m ->
  length (nfa_states m) <= 1 + extent w /\ arrows m < 2 * extent w.
Proof. exact (from_text w e m). Qed.
Print Assumptions C94_pattern.

(** C94: the automaton of a lexer has a state more for every pattern, and at most
    as many as all patterns together have characters, and two. *)
Theorem C94_lexer {env : Env} (K : Type) (l : list (list char * generator K)) input lx :
  build_lexer l input = Val (inl lx) ->
  exists es, Forall2 (fun t e => regex_parse (fst t) = Val (ParseOk e)) l es /\
    length (nfa_states (lx_nfa lx)) = 2 + list_sum (map (fun e => 1 + marks e + joints e) es) /\
    arrows (lx_nfa lx) <= list_sum (map (fun e => leaves e + 2 * marks e) es) /\
    length (nfa_states (lx_nfa lx)) <= 2 + list_sum (map (fun t => extent (fst t)) l) /\
    arrows (lx_nfa lx) + length l <= 2 * list_sum (map (fun t => extent (fst t)) l).
Proof. exact (lexer_size l input lx). Qed.
Print Assumptions C94_lexer.

(** The bounds are reached, by a text and by a quantified character; a large
    number needs no states; equal alternatives share an arrow. *)
Example C94_sample : let _ := ascii_env true in
  let size w := let! r := regex_parse (str w) in
    match r with ParseOk e => let! m := nfa_from e in Val (length (nfa_states m), arrows m) | ParseErr _ => Panic end in
  size "abcd"%string = Val (5, 4) /\ size "a*"%string = Val (3, 3) /\ size ""%string = Val (2, 1) /\
  size "(ab){1000}c"%string = Val (5, 5) /\ size "a|a"%string = Val (2, 1) /\ size "[a-z]+(c|b?)*"%string = Val (6, 9).
Proof. vm_compute. repeat split. Qed.
Example C94_lexer_sample : let _ := ascii_env true in
  exists lx, build_lexer [(str "ab*"%string, GenUnit (fun _ => 0)); (str ""%string, GenUnit (fun _ => 1))] (str "ab"%string) = Val (inl lx) /\
    length (nfa_states (lx_nfa lx)) = 6 /\ arrows (lx_nfa lx) = 5.
Proof. eexists. split; [vm_compute; reflexivity|]. vm_compute. split; reflexivity. Qed.
