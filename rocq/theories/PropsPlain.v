(** Property C76: ordinary patterns. *)
From Verif Require Import Base RegexModel SpecRegex NfaModel SpecNfa LexerModel SpecLexer SpecMunch LexerWitness NfaWitness SpecPlain PlainProofs.

(** C76: plain lists of patterns meet the conditions of C58, C59 and C75. *)
Theorem C76_steady {env : Env} es : plain es -> agreed lang es /\ steady es /\ forall e, In e es -> loops_ok e = true.
Proof. exact (fun H => conj (plain_agreed es H) (conj (plain_steady es H) (fun e He => proj1 (proj2 (H e He))))). Qed.
Print Assumptions C76_steady.

(** C76: with such patterns the lexer returns the tokens of maximal munch, for the
    regular languages of the patterns, and then [None]; on every text and for every
    hash order. *)
Theorem C76_munch {env : Env} (K : Type) (ts : list (list char * generator K)) input lx es :
  build_lexer ts input = Val (inl lx) -> parsed ts es -> plain es ->
  exists tks, munches lang es (map snd ts) input 0 tks /\
    forall n, exists N rest lx', forall (ho : HashOrder) fuel, N <= fuel ->
      lex_calls fuel (length tks + S n) lx = Val (map Some tks ++ None :: rest, lx').
Proof. exact (plain_munch K ts input lx es). Qed.
Print Assumptions C76_munch.

(** Keywords, operators, names, numbers, strings and blanks. *)
Example C76_sample {env : Env} input : (exists lx, build_lexer lang_tokens input = Val (inl lx)) /\ parsed lang_tokens lang_es /\ plain lang_es.
Proof. split; [eexists; vm_compute; reflexivity|]. split; [exact lang_parsed|exact lang_plain]. Qed.

Example C76_run : let _ := ascii_env true in
  exists lx lx' os, build_lexer lang_tokens (str "if ifx==""a b""=12"%string) = Val (inl lx) /\
    lex_calls (ho := id_order) 60 8 lx = Val (os, lx') /\
    map (option_map (fun t => (lt_kind t, lt_pos t))) os =
    [Some (0, (0, 2)); Some (4, (2, 3)); Some (3, (3, 6)); Some (1, (6, 8)); Some (25, (8, 13)); Some (2, (13, 14)); Some (12, (14, 16)); None].
Proof. eexists. eexists. eexists. split; [vm_compute; reflexivity|]. split; vm_compute; reflexivity. Qed.
