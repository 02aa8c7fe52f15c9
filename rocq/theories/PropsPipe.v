(** Properties C59, C60: from the text to the tree. *)
From Verif Require Import Base RegexModel SpecRegex NfaModel SpecNfa LexerModel SpecLexer SpecMunch
  GrammarModel CfsmModel SlrModel PangoModel SpecCfg PipeProofs ExprModel SpecExpr ExprProofs.

(** C59: on a text the parser does what it does on the tokens of maximal munch, if
    the patterns are steady and their loops cannot spin; for every table.  Missing:
    other patterns, for which C58 fails. *)
Theorem C59_tokens_partial {env : Env} {ho : HashOrder} {V K} `{DecEq V} `{DecEq K} (teq : K -> K -> bool) (tb : table V K)
    (ts : list (list char * generator K)) input lx es L :
  build_lexer ts input = Val (inl lx) -> parsed ts es -> agreed L es -> steady es -> (forall e, In e es -> loops_ok e = true) ->
  exists tks, munches L es (map snd ts) input 0 tks /\
    exists N, forall fuel, N <= fuel -> parse_lexer teq fuel tb lx = parse teq fuel tb (map lt_kind tks).
Proof. exact (parse_munch teq tb ts input lx es L). Qed.
Print Assumptions C59_tokens_partial.

(** With the conditions of C37-C40 on the grammar the parser ends; it returns a
    derivation tree of the tokens, or [Err] if they have none that ends with a
    token. *)
Theorem C59_verdict_partial {env : Env} {ho : HashOrder} {V K} `{DecEq V} `{DecEq K} (teq : K -> K -> bool) fuel p tb (g : grammar V K)
    (ts : list (list char * generator K)) input lx es L :
  lawful teq -> built g -> epsilon_free g -> start_at_front g -> all_reachable g -> (forall v bd, rule g v bd -> productive g v) ->
  (forall v bd, rule g v bd -> v = g_start g \/ exists t, followed_by g v t) -> entry_sure g (g_start g) ->
  slr_new teq fuel p g = Val tb ->
  build_lexer ts input = Val (inl lx) -> parsed ts es -> agreed L es -> steady es -> (forall e, In e es -> loops_ok e = true) ->
  exists tks, munches L es (map snd ts) input 0 tks /\
    exists N r, (forall fuel', N <= fuel' -> parse_lexer teq fuel' tb lx = Val r) /\
      match r with
      | Some n => exists x, parses g teq (map lt_kind tks) x /\ n = to_node x
      | None => forall x, parses g teq (map lt_kind tks) x -> ~ ends_in_leaf x
      end.
Proof. exact (parse_text teq fuel p tb g ts input lx es L). Qed.
Print Assumptions C59_verdict_partial.
Example C59_sample {env : Env} input : lawful terminal_eq /\ built expr_grammar /\ epsilon_free expr_grammar /\ start_at_front expr_grammar /\
  all_reachable expr_grammar /\ (forall v bd, rule expr_grammar v bd -> productive expr_grammar v) /\
  (forall v bd, rule expr_grammar v bd -> v = g_start expr_grammar \/ exists t, followed_by expr_grammar v t) /\
  entry_sure expr_grammar (g_start expr_grammar) /\ slr_new (ho := id_order) terminal_eq 60 [] expr_grammar = Val expr_table /\
  (exists lx, build_lexer expr_tokens input = Val (inl lx)) /\ parsed expr_tokens expr_es /\ agreed lang expr_es /\ steady expr_es /\
  forall e, In e expr_es -> loops_ok e = true.
Proof.
  split; [exact terminal_lawful|]. split; [exact expr_built|]. split; [exact expr_free|]. split; [exact expr_front|].
  split; [exact expr_reachable|]. split; [exact expr_productive|]. split; [exact expr_followed|]. split; [exact expr_entry|].
  split; [exact expr_new|]. split; [eexists; vm_compute; reflexivity|]. split; [exact expr_parsed|]. split; [exact expr_agreed|].
  split; [exact expr_steady|exact expr_loops].
Qed.

(** C60: the program examples/expr.rs on every text, for every hash order: the tree
    of the characters up to the first that is no digit and no operator, [Err] if
    they are no expression. *)
Theorem C60_expr {env : Env} (ho : HashOrder) p w :
  exists N, forall fuel, N <= fuel -> run_expr fuel p w = Val (calc (calc_tokens w)).
Proof. exact (expr_run ho p w). Qed.
Print Assumptions C60_expr.
Example C60_sample :
  calc (calc_tokens (str "3+4*3 1"%string)) = Some (joined (joined (Node (Var 0) [digit_node 3]) Plus 4) Mul 3) /\
  calc (calc_tokens (str "3+*4"%string)) = None /\ calc (calc_tokens (str "34"%string)) = None /\ calc (calc_tokens []) = None.
Proof. repeat split; reflexivity. Qed.
