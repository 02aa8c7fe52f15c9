(** Property C77: how many characters the lexer reads. *)
From Verif Require Import Base RegexModel SpecRegex NfaModel SpecNfa LexerModel SpecLexer SpecMunch LexerWitness NfaWitness SpecCalls
  CountModel SpecReads CountProofs SpecPlain PlainProofs.

(** C77: counting changes nothing. *)
Theorem C77_same {env : Env} (K : Type) (ho : HashOrder) fuel n (lx : lexer K) os lx' :
  lex_calls fuel n lx = Val (os, lx') <-> exists ks, count_calls fuel n lx = Val (os, lx', ks).
Proof. exact (count_same ho fuel n lx os lx'). Qed.
Print Assumptions C77_same.

(** C77: what every call reads. *)
Theorem C77_exact {env : Env} (K : Type) (ts : list (list char * generator K)) input lx es (ho : HashOrder) fuel n os lx' ks L :
  build_lexer ts input = Val (inl lx) -> parsed ts es -> agreed L es -> count_calls fuel n lx = Val (os, lx', ks) ->
  read_calls L es (map snd ts) (starting input) os ks.
Proof. exact (built_reads ts input lx es ho fuel n os lx' ks L). Qed.
Print Assumptions C77_exact.

(** C77 is false: no multiple of the length of the text is a bound on the
    characters read. *)
Theorem C77_linear_refuted {env : Env} : exists ts : list (list char * generator nat), forall c, exists input lx N n,
  build_lexer ts input = Val (inl lx) /\
  forall (ho : HashOrder) fuel, N <= fuel -> exists os lx' ks, count_calls fuel n lx = Val (os, lx', ks) /\ c * length input < list_sum ks.
Proof. exact slow_unbounded. Qed.
Print Assumptions C77_linear_refuted.

(** C77, in general: the calls of a lexer, however many, read at most
    [m (m + 1) / 2] characters of a text of length [m]. *)
Theorem C77_quadratic {env : Env} (K : Type) (ts : list (list char * generator K)) input lx (ho : HashOrder) fuel n os lx' ks :
  build_lexer ts input = Val (inl lx) -> count_calls fuel n lx = Val (os, lx', ks) ->
  2 * list_sum ks <= length input * (length input + 1).
Proof. exact (built_quadratic ts input lx ho fuel n os lx' ks). Qed.
Print Assumptions C77_quadratic.

(** C77, for patterns that stay matched as long as they can be fed: at most twice
    the length of the text.  Missing: other patterns, for which it can be false. *)
Theorem C77_twice_partial {env : Env} (K : Type) (ts : list (list char * generator K)) input lx es (ho : HashOrder) fuel n os lx' ks :
  build_lexer ts input = Val (inl lx) -> parsed ts es -> steady es -> count_calls fuel n lx = Val (os, lx', ks) ->
  list_sum ks <= 2 * length input - 1.
Proof. exact (built_linear ts input lx es ho fuel n os lx' ks). Qed.
Print Assumptions C77_twice_partial.

(** The general bound is reached: aaac with the patterns a and a*b. *)
Example C77_slow_sample : let _ := ascii_env true in
  exists lx os lx', build_lexer slow_tokens (slow_text 3) = Val (inl lx) /\
    count_calls (ho := id_order) 20 6 lx = Val (os, lx', [4; 3; 2; 1; 0; 0]).
Proof. do 3 eexists. split; vm_compute; reflexivity. Qed.

(** The bound for steady patterns is reached too. *)
Example C77_twice_sample : let _ := ascii_env true in
  steady lang_es /\
  exists lx os lx', build_lexer lang_tokens (str "x=1= "%string) = Val (inl lx) /\
    count_calls (ho := id_order) 40 6 lx = Val (os, lx', [2; 2; 2; 2; 1; 0]).
Proof. split; [exact (plain_steady lang_es lang_plain)|]. do 3 eexists. split; vm_compute; reflexivity. Qed.
