(** Property C111: how fast the number of runs grows. *)
From Verif Require Import Base RegexModel SpecRegex NfaModel SpecNfa NfaCountProofs LexerModel SpecLexer SpecMunch SpecOnce SpecExtent SpecCrowd CrowdProofs GrowthProofs.

(** C111: if after every literal of a regex no character is in more than [d] of the
    literals that can come next, and no repeated part can be empty, the number of
    runs grows at most by the factor [d] with every character. *)
Theorem C111_runs {env : Env} e d : loops_ok e = true -> crowded d e [] ->
  exists A, forall (ho : HashOrder) m fuel w rs, nfa_from e = Val m -> sim_text fuel m w = Val rs -> length rs <= A * d ^ (length w - 1).
Proof. exact (from_grow e d). Qed.
Print Assumptions C111_runs.

(** C111, for the automaton of a lexer: every pattern is looked at alone. *)
Theorem C111_lexer {env : Env} (K : Type) (ts : list (list char * generator K)) es d : parsed ts es ->
  (forall e, In e es -> loops_ok e = true /\ crowded d e []) ->
  exists A, forall input lx (ho : HashOrder) fuel w rs, build_lexer ts input = Val (inl lx) ->
    sim_text fuel (lx_nfa lx) w = Val rs -> length rs <= A * d ^ (length w - 1).
Proof. exact (lexer_grow K ts es d). Qed.
Print Assumptions C111_lexer.

(** C111: every regex has such a number, so the growth is never more than
    exponential; with the number one it is the condition of C101. *)
Theorem C111_every {env : Env} e : (exists d, crowded d e []) /\ forall k, crowded 1 e k <-> settled e k.
Proof. exact (conj (crowded_exists e []) (crowded_one e)). Qed.
Print Assumptions C111_every.

(** C111, for all regexes, also those whose repeated parts can be empty: whenever the
    simulator returns, the growth has been at most exponential.  (It does not return
    on the texts of C62.) *)
Theorem C111_all {env : Env} e m (ho : HashOrder) fuel w rs : nfa_from e = Val m -> sim_text fuel m w = Val rs ->
  length rs <= length (nfa_states m) * (arrows m * (length (nfa_states m) * 5 ^ length (nfa_states m))) ^ length w.
Proof. exact (from_growth e m ho fuel w rs). Qed.
Print Assumptions C111_all.
Theorem C111_all_lexer {env : Env} (K : Type) (ts : list (list char * generator K)) input lx (ho : HashOrder) fuel w rs :
  build_lexer ts input = Val (inl lx) -> sim_text fuel (lx_nfa lx) w = Val rs ->
  let n := length (nfa_states (lx_nfa lx)) in length rs <= n * (arrows (lx_nfa lx) * (n * 5 ^ n)) ^ length w.
Proof. exact (lexer_growth K ts input lx ho fuel w rs). Qed.
Print Assumptions C111_all_lexer.

(** The pattern [b|(a* )*], written without the space, has a repeated part that can
    be empty; on [b] the simulator returns. *)
Example C111_all_sample {env : Env} : exists e m rs, regex_parse (str "b|(a*)*"%string) = Val (ParseOk e) /\ loops_ok e = false /\
  nfa_from e = Val m /\ sim_text (ho := id_order) 20 m (str "b"%string) = Val rs /\ rs <> [].
Proof. eexists _, _, _. repeat split; try (vm_compute; reflexivity). discriminate. Qed.

(** C111: the factor can be two, with two as the number. *)
Theorem C111_reached {env : Env} : loops_ok twice_a = true /\ crowded 2 twice_a [] /\ nfa_from twice_a = Val twice_nfa /\
  forall (ho : HashOrder) fuel n, 3 <= fuel -> exists rs, sim_text fuel twice_nfa (repeat ca n) = Val rs /\ 2 ^ n <= length rs.
Proof.
  split; [reflexivity|]. split; [|split; [exact twice_from|intros ho fuel n; apply double_runs]].
  cbn. split; apply (crowd_length [_; _]).
Qed.
Print Assumptions C111_reached.

(** With no character that two literals after [a] share the factor is one, and
    after a last literal it is zero. *)
Example C111_sample {env : Env} : let e := EConcat [ELit (LMatch ca) None; ELit (LMatch ca) None] in
  loops_ok e = true /\ crowded 1 e [] /\ ~ crowded 0 e [] /\ crowded 0 (ELit (LMatch ca) None) [].
Proof.
  cbn. split; [reflexivity|]. split; [|split].
  - split; [apply (crowd_length [_])|]. split; [|exact I]. eapply crowd_more; [|apply crowd_length]. cbn. lia.
  - intros [H _]. assert (E : length [0] <= 0); [|cbn in E; lia]. apply (H ca [0]).
    + repeat constructor. intros [].
    + intros i [<-|[]]. exists (LMatch ca). split; reflexivity.
  - apply (crowd_length []).
Qed.
