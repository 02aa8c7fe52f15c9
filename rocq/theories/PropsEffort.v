(** Property C118: how many steps matching and lexing take. *)
From Verif Require Import Base RegexModel SpecRegex NfaModel SpecNfa SpecExtent LexerModel SpecLexer LexerWitness SpecOnce OnceProofs PlainProofs SpecPlain OnceWork
  NfaCountProofs EffortModel EffortProofs EffortLex SpecEffort.

(** C118: counting changes nothing, neither in matching nor in the calls of a lexer. *)
Theorem C118_same {env : Env} {ho : HashOrder} fuel m w :
  (forall b, simulate fuel m w = Val b <-> exists k, effort_simulate fuel m w = Val (b, k)) /\
  (simulate fuel m w = Panic <-> effort_simulate fuel m w = Panic) /\
  (simulate fuel m w = Diverge <-> effort_simulate fuel m w = Diverge).
Proof. exact (same_simulate fuel m w). Qed.
Print Assumptions C118_same.

Theorem C118_same_calls {env : Env} {ho : HashOrder} (K : Type) fuel n (lx : lexer K) :
  (forall os lx', lex_calls fuel n lx = Val (os, lx') <-> exists k, effort_calls fuel n lx = Val (os, lx', k)) /\
  (lex_calls fuel n lx = Panic <-> effort_calls fuel n lx = Panic) /\
  (lex_calls fuel n lx = Diverge <-> effort_calls fuel n lx = Diverge).
Proof. exact (same_calls fuel n lx). Qed.
Print Assumptions C118_same_calls.

(** C118: if the simulator never has more than [B] runs, matching takes at most a
    factor of the automaton times [B] steps for every character, and one such share
    for the beginning and the end. *)
Theorem C118_runs {env : Env} {ho : HashOrder} e m B fuel w b k : nfa_from e = Val m ->
  (forall u v rs, w = u ++ v -> sim_text fuel m u = Val rs -> length rs <= B) ->
  effort_simulate fuel m w = Val (b, k) -> k <= per_run m * (B * S (length w)).
Proof. exact (from_effort_runs e m B fuel w b k). Qed.
Print Assumptions C118_runs.

(** C118: no fewer steps than there are runs at the end. *)
Theorem C118_least {env : Env} {ho : HashOrder} m fuel w b k rs :
  effort_simulate fuel m w = Val (b, k) -> sim_text fuel m w = Val rs -> length rs <= k.
Proof. exact (simulate_least fuel m w b k rs). Qed.
Print Assumptions C118_least.

(** C118: for every regex the steps are at most exponential in the length of the text. *)
Theorem C118_matching {env : Env} e m (ho : HashOrder) fuel w b k : nfa_from e = Val m -> effort_simulate fuel m w = Val (b, k) ->
  k <= per_run m * (length (nfa_states m) * runs_base m ^ length w * S (length w)).
Proof. exact (from_effort e m ho fuel w b k). Qed.
Print Assumptions C118_matching.

(** C118: and for one of them they are exponential. *)
Theorem C118_exponential {env : Env} : nfa_from twice_a = Val twice_nfa /\
  forall (ho : HashOrder) fuel n, 3 <= fuel -> exists b k, effort_simulate fuel twice_nfa (repeat ca n) = Val (b, k) /\ 2 ^ n <= k.
Proof. exact twice_takes. Qed.
Print Assumptions C118_exponential.

(** C118: for the regexes of C101 they are linear in the length of the text. *)
Theorem C118_linear {env : Env} e : loops_ok e = true -> settled e [] ->
  exists A, forall (ho : HashOrder) m fuel w b k, nfa_from e = Val m -> effort_simulate fuel m w = Val (b, k) -> k <= A * S (length w).
Proof. exact (from_effort_settled e). Qed.
Print Assumptions C118_linear.

(** C118: the calls of every lexer. *)
Theorem C118_lexing {env : Env} (K : Type) (ts : list (list char * generator K)) input lx (ho : HashOrder) fuel n os lx' k :
  build_lexer ts input = Val (inl lx) -> effort_calls fuel n lx = Val (os, lx', k) ->
  let m := lx_nfa lx in
  k <= per_run_lexing m * (length (nfa_states m) * runs_base m ^ length input * (length input * (length input + 1) + n)).
Proof. exact (built_effort ts input lx ho fuel n os lx' k). Qed.
Print Assumptions C118_lexing.

(** C118: the calls of a lexer with the patterns of C101 take at most quadratically
    many steps, and linearly many if the patterns stay matched as long as they can be
    fed. The factor is the same for all texts. *)
Theorem C118_lexing_settled {env : Env} (K : Type) (ts : list (list char * generator K)) es : parsed ts es ->
  (forall e, In e es -> loops_ok e = true /\ settled e []) ->
  exists A, forall input lx (ho : HashOrder) fuel n os lx' k, build_lexer ts input = Val (inl lx) ->
    effort_calls fuel n lx = Val (os, lx', k) ->
    k <= A * (length input * (length input + 1) + n) /\ (steady es -> k <= A * (2 * length input + n)).
Proof. exact (built_effort_settled ts es). Qed.
Print Assumptions C118_lexing_settled.

(** The tokens of a small language meet the conditions of the last theorem. *)
Example C118_sample {env : Env} : (forall e, In e lang_es -> loops_ok e = true /\ settled e []) /\ steady lang_es.
Proof. split; [exact lang_settled|exact (plain_steady lang_es lang_plain)]. Qed.

(** The steps of four calls on a text with a word, an operator and a string. *)
Example C118_steps_sample : let _ := ascii_env true in
  exists lx, build_lexer lang_tokens (str "if12=""a b"""%string) = Val (inl lx) /\
    exists os lx' k, effort_calls (ho := id_order) 60 4 lx = Val (os, lx', k) /\ k = 1537.
Proof. eexists. split; [vm_compute; reflexivity|]. do 3 eexists. split; vm_compute; reflexivity. Qed.

(** Doubling: the steps for no letter to five letters. *)
Example C118_double_sample : let _ := ascii_env true in
  map (fun n => match effort_simulate (ho := id_order) 9 twice_nfa (repeat ca n) with Val (_, k) => k | _ => 0 end) [0; 1; 2; 3; 4; 5] = [18; 67; 152; 317; 642; 1287].
Proof. vm_compute. reflexivity. Qed.
