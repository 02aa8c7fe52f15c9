(** Property C68: from the text to the tree, for all patterns and grammars. *)
From Verif Require Import Base RegexModel SpecRegex NfaModel SpecNfa LexerModel SpecLexer SpecCalls SpecSpin SpecStuck
  GrammarModel CfsmModel SlrModel PangoModel SpecCfg SpecMachine SpecWhole LexerWitness SlrWitness ExprModel ExprProofs PropsSpin PipeWhole DecideWhole.

(** C68: the parser on a text, for every lexer that can be built and every grammar
    for which [Slr::new] succeeds: it returns a tree exactly if the machine on
    symbols, fed with the tokens of the calls of the specification, accepts with
    it, fails exactly if that machine gets stuck, and never ends if the machine
    asks for a token on which a pattern spins or moves on and on. *)
Theorem C68_whole {env : Env} {ho : HashOrder} {V K} `{DecEq V} `{DecEq K} (teq : K -> K -> bool) (g : grammar V K) fuel p tb
    (ts : list (list char * generator K)) input lx es L :
  lawful teq -> built g -> slr_new teq fuel p g = Val tb -> build_lexer ts input = Val (inl lx) -> parsed ts es -> agreed L es ->
  exists e : Prop, (entry_sure g (g_start g) -> e) /\ (e -> entry_possible g (g_start g)) /\
    (forall n, (exists fuel', parse_lexer teq fuel' tb lx = Val (Some n)) <->
      exists m, arrives L es (map snd ts) teq g (starting input) m /\ maccepts g e m n) /\
    ((exists fuel', failed (parse_lexer teq fuel' tb lx)) <->
      exists m, arrives L es (map snd ts) teq g (starting input) m /\ mstuck teq g e m) /\
    ((exists m, arrives L es (map snd ts) teq g (starting input) m /\ mshort teq g e m) -> exists fuel', parse_lexer teq fuel' tb lx = Panic) /\
    ((exists m, arrives L es (map snd ts) teq g (starting input) m /\ mrefused teq g e m) -> exists fuel', parse_lexer teq fuel' tb lx = Val None) /\
    (starves L es (map snd ts) teq g (starting input) \/ roams L es (map snd ts) teq g (starting input) ->
      forall fuel', parse_lexer teq fuel' tb lx = Diverge) /\
    ((forall fuel', parse_lexer teq fuel' tb lx = Diverge) ->
      (forall ks s, lexed L es (map snd ts) (starting input) ks s -> ~ stuck es s) -> roams L es (map snd ts) teq g (starting input)).
Proof. exact (fun Ht => whole_run teq Ht g fuel p tb ts input lx es L). Qed.
Print Assumptions C68_whole.

(** It never ends exactly if the machine asks for a token on which a pattern spins
    or moves on and on. *)
Theorem C68_never_ends {env : Env} {ho : HashOrder} {V K} `{DecEq V} `{DecEq K} (teq : K -> K -> bool) (g : grammar V K) fuel p tb
    (ts : list (list char * generator K)) input lx es L :
  lawful teq -> built g -> slr_new teq fuel p g = Val tb -> build_lexer ts input = Val (inl lx) -> parsed ts es -> agreed L es ->
  ((forall fuel', parse_lexer teq fuel' tb lx = Diverge) <->
   starves L es (map snd ts) teq g (starting input) \/ roams L es (map snd ts) teq g (starting input)).
Proof. exact (fun Ht => whole_never_ends teq Ht g fuel p tb ts input lx es L). Qed.
Print Assumptions C68_never_ends.

(** The example program, with a text whose second part is no token. *)
Example C68_sample {env : Env} : exists lx, lawful terminal_eq /\ built expr_grammar /\
  slr_new (ho := id_order) terminal_eq 60 [] expr_grammar = Val expr_table /\
  build_lexer expr_tokens (str "3+4?*1"%string) = Val (inl lx) /\ parsed expr_tokens expr_es /\ agreed lang expr_es /\
  exists n, parse_lexer (ho := id_order) terminal_eq 60 expr_table lx = Val (Some n).
Proof.
  eexists. split; [exact terminal_lawful|]. split; [exact expr_built|]. split; [exact expr_new|]. split; [vm_compute; reflexivity|].
  split; [exact expr_parsed|]. split; [exact expr_agreed|]. eexists. vm_compute. reflexivity.
Qed.

(** [0 -> x y] with the patterns [x] and the spinning one of C62: on [xab] the [x] is shifted and
    the next token never comes; on [ab] not even the first. *)
Definition starving_tokens : list (list char * generator nat) :=
  [(str "x"%string, GenUnit (fun _ => 1)); (str "a(b*)*"%string, GenUnit (fun _ => 2))].
Example C68_starves {env : Env} : let g := gram [(0, [ter 1; ter 2])] in
  built g /\ (exists tb, slr_new (ho := id_order) Nat.eqb 60 [] g = Val tb) /\
  (exists lx, build_lexer starving_tokens (str "xab"%string) = Val (inl lx)) /\ parsed starving_tokens spin_es /\ agreed lang spin_es /\
  starves lang spin_es (map snd starving_tokens) Nat.eqb g (starting (str "xab"%string)).
Proof.
  intros g. split; [apply gram_built; reflexivity|]. split; [eexists; vm_compute; reflexivity|]. split; [eexists; vm_compute; reflexivity|].
  split; [repeat constructor|]. split; [right; split; [reflexivity|]; intros e [<-|[<-|[]]]; reflexivity|].
  exists [1], {| h_from := 1; h_junk := []; h_back := [(1, $"a")]; h_rest := [(2, $"b")] |}, 1, ([(ter 1, Node (ter 1) [])], []).
  split; [|split; [|split; [reflexivity|]]].
  - assert (Hc : SpecCalls.call lang spin_es (map snd starving_tokens) (starting (str "xab"%string))
      (Some (token_of (starting (str "xab"%string)) [(0, $"x")] (GenUnit (fun _ => 1))))
      {| h_from := 1; h_junk := []; h_back := [(1, $"a")]; h_rest := [(2, $"b")] |}).
    { apply (call_token lang spin_es (map snd starving_tokens) (starting (str "xab"%string)) [(0, $"x")] [] (1, $"a") [(2, $"b")] 0
        (GenUnit (fun _ => 1))); [reflexivity|discriminate| | | |reflexivity|].
      + right. exists (ELit (LMatch ($"x")) None). split; [left; reflexivity|]. right. exists ($"x"). split; reflexivity.
      + intros [H|(e & [<-|[<-|[]]] & H)]; [discriminate H| |].
        * destruct H as [H|(c & H & _)]; discriminate H.
        * destruct H as [[H|(c & H & _)]|[(u & v & H & [(c & -> & Hc)|[]] & _)|[[] _]]]; [discriminate H..|].
          cbn in Hc. subst c. discriminate H.
      + split; [eexists; split; [reflexivity|exists ($"x"); split; reflexivity]|]. intros j e Hj. lia.
      + intros v1 v2 E Hv. destruct v1; [destruct (Hv eq_refl)|discriminate E]. }
    refine (lexed_cons _ _ _ _ _ _ [] _ _ Hc (lexed_nil _ _ _ _)). intros (e & [<-|[<-|[]]] & H).
    + destruct H as (u & v & _ & []).
    + destruct (spinner_free _ H) as (v & E). discriminate E.
  - econstructor; [|constructor]. eapply (mmove_shift _ _ [] 1 [] 1); [|reflexivity].
    apply (lr0_start g [ter 1; ter 2] [] [ter 1; ter 2]); [a_rule|constructor; discriminate].
  - exists spinner. split; [right; left; reflexivity|]. exact spinner_spins.
Qed.
