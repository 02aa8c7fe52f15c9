(** Property C101: patterns in which every character can be read in one way. *)
From Verif Require Import Base RegexModel SpecRegex NfaModel SpecNfa NfaCountProofs LexerModel SpecLexer SpecMunch CountModel SpecPlain PlainProofs
  RunsModel SpecOnce OnceProofs OnceWork.

(** C101: if after every literal of a regex no character is in two of the literals
    that can come next, and no repeated part can be empty, the number of runs of the
    simulator has a bound that does not depend on the text. *)
Theorem C101_runs {env : Env} e : loops_ok e = true -> settled e [] ->
  exists B, forall (ho : HashOrder) m fuel w rs, nfa_from e = Val m -> sim_text fuel m w = Val rs -> length rs <= B.
Proof. exact (from_bounded e). Qed.
Print Assumptions C101_runs.

(** C101, for the automaton of a lexer: every pattern is looked at alone. *)
Theorem C101_lexer {env : Env} (K : Type) (ts : list (list char * generator K)) es : parsed ts es ->
  (forall e, In e es -> loops_ok e = true /\ settled e []) ->
  exists B, forall input lx (ho : HashOrder) fuel w rs, build_lexer ts input = Val (inl lx) ->
    sim_text fuel (lx_nfa lx) w = Val rs -> length rs <= B.
Proof. exact (lexer_bounded ts es). Qed.
Print Assumptions C101_lexer.

(** C101: writing down the numbers of runs changes nothing. *)
Theorem C101_same {env : Env} (K : Type) (ho : HashOrder) fuel n (lx : lexer K) os lx' ks :
  count_calls fuel n lx = Val (os, lx', ks) <-> exists rss, runs_calls fuel n lx = Val (os, lx', rss) /\ ks = map (@length nat) rss.
Proof. exact (runs_same fuel n lx os lx' ks). Qed.
Print Assumptions C101_same.

(** C101: the runs that all calls of a lexer go over, at all characters they read,
    are at most quadratically many in the length of the text, and linearly many if
    the patterns stay matched as long as they can be fed. *)
Theorem C101_work {env : Env} (K : Type) (ts : list (list char * generator K)) es : parsed ts es ->
  (forall e, In e es -> loops_ok e = true /\ settled e []) ->
  exists B, forall input lx (ho : HashOrder) fuel n os lx' rss, build_lexer ts input = Val (inl lx) ->
    runs_calls fuel n lx = Val (os, lx', rss) ->
    Forall (Forall (fun j => j <= B)) rss /\
    2 * list_sum (map (@list_sum) rss) <= B * (length input * (length input + 1)) /\
    (steady es -> list_sum (map (@list_sum) rss) <= B * (2 * length input - 1)).
Proof. exact (lexer_work ts es). Qed.
Print Assumptions C101_work.

(** C101: the pattern of C14 with exponentially many runs is not of this kind. *)
Theorem C101_unsettled {env : Env} : loops_ok twice_a = true /\ ~ settled twice_a [] /\ nfa_from twice_a = Val twice_nfa /\
  forall (ho : HashOrder) fuel n, 3 <= fuel -> exists rs, sim_text fuel twice_nfa (repeat ca n) = Val rs /\ 2 ^ n <= length rs.
Proof. exact twice_unsettled. Qed.
Print Assumptions C101_unsettled.

(** The tokens of a small language are of this kind, and steady. *)
Example C101_sample {env : Env} : (forall e, In e lang_es -> loops_ok e = true /\ settled e []) /\ steady lang_es.
Proof. split; [exact lang_settled|exact (plain_steady lang_es lang_plain)]. Qed.

(** The runs at the characters of a text with an identifier, numbers and a string. *)
Example C101_runs_sample : let _ := ascii_env true in
  exists lx os lx', build_lexer lang_tokens (str "if12=""a b"""%string) = Val (inl lx) /\
    runs_calls (ho := id_order) 60 4 lx = Val (os, lx', [[3; 4; 3; 2; 2]; [3; 2]; [3; 3; 2; 2; 2]; []]).
Proof. do 3 eexists. split; vm_compute; reflexivity. Qed.
