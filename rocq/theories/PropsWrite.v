(** Property C93: written tokens are read back. *)
From Verif Require Import Base RegexModel SpecRegex NfaModel SpecNfa LexerModel SpecLexer SpecMunch SpecPanic SpecPlain
  GrammarModel CfsmModel SlrModel PangoModel SpecCfg SpecWrap SpecFront SpecWrite SlrWitness FrontProofs WriteProofs.

(** C93: for patterns as in C58, the texts that are tokens by maximal munch are
    those written token by token so that no token and the character behind it are a
    token again: looking at one character suffices. *)
Theorem C93_written {env : Env} {K} L es (gens : list (generator K)) text ks : agreed L es -> steady es ->
  (written L es gens text ks <-> reads_all L es gens text ks).
Proof. exact (fun Ha Hs => written_reads L es gens Ha Hs text ks). Qed.
Print Assumptions C93_written.

(** Then the lexer returns the tokens again, and [None] after them. *)
Theorem C93_tokens {env : Env} {K} L es (ts : list (list char * generator K)) text lx ks :
  build_lexer ts text = Val (inl lx) -> parsed ts es -> agreed L es -> steady es -> (forall e, In e es -> loops_ok e = true) ->
  written L es (map snd ts) text ks ->
  exists tks, map lt_kind tks = ks /\ flat_map lt_source tks = text /\
    forall n, exists N rest lx', forall (ho : HashOrder) fuel, N <= fuel ->
      lex_calls fuel (length tks + S n) lx = Val (map Some tks ++ None :: rest, lx').
Proof. exact (tokens_back L es ts text lx ks). Qed.
Print Assumptions C93_tokens.

(** With a separator between them any tokens can be written. *)
Theorem C93_joined {env : Env} {K} L es (gens : list (generator K)) s k xs ks :
  separator L es s -> text_of L es gens [s] k -> Forall2 (fun x k => text_of L es gens x k) xs ks ->
  written L es gens (joined s xs) (between k ks).
Proof. exact (joined_written L es gens s k xs ks). Qed.
Print Assumptions C93_joined.

(** With a front end as in C91, every tree whose tokens are written in a text, with the end character behind it,
    is what the parser returns for the text. *)
Theorem C93_trees {env : Env} {V K} `{DecEq V} `{DecEq K} (teq : K -> K -> bool) cs (g : grammar V K) z e o
    (ts : list (list char * generator K)) es c :
  lawful teq -> build (do_calls cs) = Val g -> clean g -> ~ textbook_clash g teq ->
  fresh_variable g z -> fresh_terminal teq g e -> fresh_terminal teq g o -> teq o e = false ->
  parsed ts es -> (forall x, In x es -> ~ gapped x) -> plain es ->
  (forall i gen x, nth_error (map snd ts) i = Some gen -> first_match lang es x i ->
     teq o (gen_run gen x) = false /\ (teq e (gen_run gen x) = true -> x = [c])) ->
  exists w, build (do_calls (wrapped cs (g_start g) z e o)) = Val w /\
    forall text ks e' x, ~ In c text -> written lang es (map snd ts) (text ++ [c]) (ks ++ [e']) -> teq e e' = true -> parses g teq ks x ->
      exists lx, build_lexer ts (text ++ [c]) = Val (inl lx) /\
        forall (ho : HashOrder) p, exists N, forall fuel, N <= fuel ->
          (let! tb := slr_new teq fuel p w in parse_lexer teq fuel tb lx) = Val (Some (Node (Var z) [Node (Ter e') []; to_node x])).
Proof. exact (tree_back teq cs g z e o ts es c). Qed.
Print Assumptions C93_trees.

(** Calculations: a text with its tree (see C91 for the other hypotheses), and two names with the end
    character between them. *)
Example C93_sample : let _ := ascii_env true in
  agreed lang calc_es /\ steady calc_es /\
  written lang calc_es (map snd calc_tokens) (str "ab+12*(x);"%string) [11; 1; 32; 2; 3; 9; 4; 5] /\ ~ In 59%N (str "ab+12*(x)"%string) /\
  exists x, parses calc calc_eq [11; 1; 32; 2; 3; 9; 4] x.
Proof.
  split; [apply PlainProofs.plain_agreed, calc_plain|]. split; [apply PlainProofs.plain_steady, calc_plain|]. split; [exact calc_text|].
  split; [cbn; intuition discriminate|]. eexists. exact calc_sentence.
Qed.

Example C93_names : let _ := ascii_env true in
  separator lang calc_es 59%N /\ text_of lang calc_es (map snd calc_tokens) (str ";"%string) 5 /\
  Forall2 (fun x k => text_of lang calc_es (map snd calc_tokens) x k) [str "ab"%string; str "cd"%string] [11; 11] /\
  joined 59%N [str "ab"%string; str "cd"%string] = str "ab;cd"%string /\ between 5 [11; 11] = [11; 5; 11].
Proof. exact (conj (proj1 calc_join) (conj (proj1 (proj2 calc_join)) (conj (proj2 (proj2 calc_join)) (conj eq_refl eq_refl)))). Qed.
