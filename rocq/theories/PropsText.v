(** Property C112: the outcome of every text, by derivation trees. *)
From Verif Require Import Base RegexModel SpecRegex NfaModel SpecNfa LexerModel SpecLexer SpecMunch GrammarModel CfsmModel SlrModel PangoModel SpecCfg
  SpecOutcome SpecText SlrNew LexerWitness SlrWitness WholeProofs TextOutcome.

(** C112: for steady patterns and a grammar without epsilon the tokens of maximal
    munch decide whether a text gives a tree and which, an error, a panic, or no
    end. *)
Theorem C112_outcomes {env : Env} {ho : HashOrder} {V K} `{DecEq V} `{DecEq K} (teq : K -> K -> bool) (g : grammar V K) fuel p tb :
  lawful teq -> built g -> epsilon_free g -> slr_new teq fuel p g = Val tb ->
  exists c (e : Prop), from_grammar fuel (0 :: p) g = Val c /\ (entry_sure g (g_start g) -> e) /\ (e -> entry_possible g (g_start g)) /\
  forall (ts : list (list char * generator K)) input lx es L,
    build_lexer ts input = Val (inl lx) -> parsed ts es -> agreed L es -> steady es -> (forall x, In x es -> loops_ok x = true) ->
    exists tks, munches L es (map snd ts) input 0 tks /\
      (forall n, eventually (fun fuel => parse_lexer teq fuel tb lx) (Val (Some n)) <->
         e /\ exists x, accepted teq g (map lt_kind tks) x /\ n = to_node x) /\
      (eventually (fun fuel => parse_lexer teq fuel tb lx) Panic <-> crashing teq g e c (map lt_kind tks)) /\
      (eventually (fun fuel => parse_lexer teq fuel tb lx) Diverge <-> spinning teq g (map lt_kind tks)) /\
      (eventually (fun fuel => parse_lexer teq fuel tb lx) (Val None) <->
         ~ (e /\ exists x, accepted teq g (map lt_kind tks) x) /\ ~ crashing teq g e c (map lt_kind tks) /\ ~ spinning teq g (map lt_kind tks)).
Proof. exact (text_outcomes teq g fuel p tb). Qed.
Print Assumptions C112_outcomes.

(** C112: for the grammars of C110 a text gives exactly the trees of its tokens. *)
Theorem C112_exact {env : Env} {ho : HashOrder} {V K} `{DecEq V} `{DecEq K} (teq : K -> K -> bool) (g : grammar V K) fuel p tb :
  lawful teq -> built g -> (forall v, reachable g v -> productive g v) -> slr_new teq fuel p g = Val tb ->
  epsilon_free g -> start_at_front g -> (forall bd, rule g (g_start g) bd -> exists b t, bd = b ++ [Ter t]) ->
  (exists fuel' ks n, parse teq fuel' tb ks = Val (Some n)) ->
  forall (ts : list (list char * generator K)) input lx es L,
    build_lexer ts input = Val (inl lx) -> parsed ts es -> agreed L es -> steady es -> (forall x, In x es -> loops_ok x = true) ->
    exists tks, munches L es (map snd ts) input 0 tks /\
      forall x, eventually (fun fuel => parse_lexer teq fuel tb lx) (Val (Some (to_node x))) <-> parses g teq (map lt_kind tks) x.
Proof. exact (text_exact teq g fuel p tb). Qed.
Print Assumptions C112_exact.

(** Blocks of [b] with an [a] between any two, for texts of these characters. *)
Definition block_tokens : list (list char * generator nat) := [(str "b+"%string, GenUnit (fun _ => 1)); (str "a"%string, GenUnit (fun _ => 2))].
Definition blocks : grammar nat nat := gram [(0, [var 0; ter 2; ter 1]); (0, [ter 1])].
Example C112_sample : let _ := ascii_env true in let _ := id_order in
  exists tb lx, slr_new Nat.eqb 60 [] blocks = Val tb /\ build_lexer block_tokens (str "bbabbbab"%string) = Val (inl lx) /\
    parsed block_tokens run_es /\ agreed lang run_es /\ steady run_es /\ (forall x, In x run_es -> loops_ok x = true) /\
    built blocks /\ epsilon_free blocks /\ (forall v, reachable blocks v -> productive blocks v) /\
    start_at_front blocks /\ (forall bd, rule blocks 0 bd -> exists b t, bd = b ++ [Ter t]) /\
    (let tb3 := Node (Ter 1) [] in let tb2 := Node (Ter 2) [] in
     parse_lexer Nat.eqb 60 tb lx = Val (Some (Node (Var 0) [tb3; tb2; Node (Var 0) [tb3; tb2; Node (Var 0) [tb3]]]))).
Proof.
  intros env ho. exists (new_of id_order Nat.eqb blocks). eexists.
  assert (R1 : rule blocks 0 [var 0; ter 2; ter 1]) by a_rule. assert (R2 : rule blocks 0 [ter 1]) by a_rule.
  assert (Hr : forall v bd, rule blocks v bd -> v = 0 /\ (bd = [var 0; ter 2; ter 1] \/ bd = [ter 1])) by (intros v bd H; each_rule H; auto).
  assert (Hform : forall y, steps blocks [var 0] y -> exists s w, y = s :: map Ter w /\ s <> Eps /\ forall v, s = Var v -> v = 0).
  { intros y H. remember [var 0] as x eqn:Ex. induction H as [x|x y z H IH Hs].
    - subst x. exists (Var 0), []. repeat split; try discriminate. intros v [= <-]. auto.
    - destruct (IH Ex) as (s & w & -> & Hn & Hv). inversion Hs as [l v bd r Hru E|l r E]; subst.
      + destruct l as [|s' l].
        * injection E as <- E. subst r. destruct (Hr _ _ Hru) as (-> & [-> | ->]).
          -- exists (Var 0), (2 :: 1 :: w). repeat split; try discriminate. intros u [= <-]. auto.
          -- exists (Ter 1), w. repeat split; discriminate.
        * injection E as <- E. exfalso. assert (Hi : In (Var v) (map (@Ter nat nat) w)) by (rewrite <- E; apply in_app_iff; right; left; auto).
          apply in_map_iff in Hi. destruct Hi as (? & ? & _). discriminate.
      + exfalso. destruct l as [|s' l]; injection E as <- E.
        * apply Hn. reflexivity.
        * assert (Hi : In Eps (map (@Ter nat nat) w)) by (rewrite <- E; apply in_app_iff; right; left; auto).
          apply in_map_iff in Hi. destruct Hi as (? & ? & _). discriminate. }
  split; [vm_compute; reflexivity|]. split; [vm_compute; reflexivity|]. split; [repeat constructor|]. split; [exact run_agreed|]. split; [exact run_steady|].
  split; [intros x [<-|[<-|[]]]; reflexivity|]. split; [apply gram_built; reflexivity|].
  split; [intros v bd _ H; each_rule H; cbn; intuition discriminate|]. split; [|split; [|split]].
  - intros v (l & r & H). exists [1]. destruct (Hform _ H) as (s & w & E & Hn & Hv). destruct l as [|s' l].
    + injection E as <- _. rewrite (Hv v eq_refl). apply (step_at blocks [var 0] [] 0 [ter 1] []); [constructor|exact R2].
    + injection E as <- E. exfalso. assert (Hi : In (Var v) (map (@Ter nat nat) w)) by (rewrite <- E; apply in_app_iff; right; left; auto).
      apply in_map_iff in Hi. destruct Hi as (? & ? & _). discriminate.
  - intros l r H. destruct (Hform _ H) as (s & w & E & _). destruct l as [|s' l]; auto. injection E as <- E. exfalso.
    assert (Hi : In (var 0) (map (@Ter nat nat) w)) by (rewrite <- E; apply in_app_iff; right; left; auto).
    apply in_map_iff in Hi. destruct Hi as (? & ? & _). discriminate.
  - intros bd H. destruct (Hr _ _ H) as (_ & [-> | ->]); [exists [var 0; ter 2], 1|exists [], 1]; reflexivity.
  - vm_compute. reflexivity.
Qed.
