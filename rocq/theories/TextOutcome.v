(** The outcome of a text, for grammars without epsilon. *)
From Verif Require Import Base RegexModel SpecRegex NfaModel SpecNfa LexerModel SpecLexer SpecMunch GrammarModel CfsmModel SlrModel PangoModel SpecCfg
  SpecOutcome SpecText SlrRun PipeProofs OutcomeProofs WholeProofs.

Section Text.
  Context {env : Env} {ho : HashOrder} {V K : Type} {dv : DecEq V} {dt : DecEq K}.
  Variable teq : K -> K -> bool.

  Lemma same_eventually (f f' : nat -> res (option (node V K))) r : (exists n, forall fuel, n <= fuel -> f fuel = f' fuel) -> eventually f r <-> eventually f' r.
  Proof.
    intros (n & H). split; intros (k & Hk); exists (n + k); intros fuel Hf; [rewrite <- H by lia|rewrite H by lia]; apply Hk; lia.
  Qed.

  Lemma parse_eventually (tb : table V K) ts r : r <> Diverge -> eventually (fun fuel => parse teq fuel tb ts) r <-> exists fuel, parse teq fuel tb ts = r.
  Proof.
    intros Hr. split.
    - intros (n & H). exists n. apply H. lia.
    - intros (n & H). exists n. apply (parse_stable teq tb n ts r H Hr).
  Qed.
  Lemma parse_never (tb : table V K) ts : eventually (fun fuel => parse teq fuel tb ts) Diverge <-> forall fuel, parse teq fuel tb ts = Diverge.
  Proof.
    split.
    - intros (n & H) fuel. destruct (parse teq fuel tb ts) as [r| |] eqn:E; auto.
      + specialize (H (n + fuel) ltac:(lia)). rewrite (parse_stable teq tb fuel ts _ E) in H; [discriminate|discriminate|lia].
      + specialize (H (n + fuel) ltac:(lia)). rewrite (parse_stable teq tb fuel ts _ E) in H; [discriminate|discriminate|lia].
    - intros H. exists 0. auto.
  Qed.

  Lemma text_outcomes (g : grammar V K) fuel p tb : lawful teq -> built g -> epsilon_free g -> slr_new teq fuel p g = Val tb ->
    exists c (e : Prop), from_grammar fuel (0 :: p) g = Val c /\ (entry_sure g (g_start g) -> e) /\ (e -> entry_possible g (g_start g)) /\
    forall (ts : list (list char * generator K)) input lx es L,
      build_lexer ts input = Val (inl lx) -> parsed ts es -> agreed L es -> steady es -> (forall x, In x es -> loops_ok x = true) ->
      exists tks, munches L es (map snd ts) input 0 tks /\
        (forall n, eventually (fun fuel => parse_lexer teq fuel tb lx) (Val (Some n)) <->
           e /\ exists x, accepted teq g (map lt_kind tks) x /\ n = to_node x) /\
        (eventually (fun fuel => parse_lexer teq fuel tb lx) Panic <-> crashing teq g e c (map lt_kind tks)) /\
        (eventually (fun fuel => parse_lexer teq fuel tb lx) Diverge <-> spinning teq g (map lt_kind tks)) /\
        (eventually (fun fuel => parse_lexer teq fuel tb lx) (Val None) <->
           ~ (e /\ exists x, accepted teq g (map lt_kind tks) x) /\ ~ crashing teq g e c (map lt_kind tks) /\ ~ spinning teq g (map lt_kind tks)).
  Proof.
    intros Ht Hb He H. destruct (outcomes teq Ht g Hb fuel p tb He H) as (c & e & Hc & H1 & H2 & Ho). exists c, e.
    split; [auto|split; [auto|split; [auto|]]]. intros ts input lx es L Hx Hp Ha Hs Hl.
    destruct (parse_munch teq tb ts input lx es L Hx Hp Ha Hs Hl) as (tks & Hm & HN). exists tks. split; auto.
    destruct (Ho (map lt_kind tks)) as (O1 & O2 & O3 & O4). split; [|split; [|split]].
    - intros n. rewrite <- O1. rewrite (same_eventually _ _ _ HN). apply (parse_eventually tb (map lt_kind tks) (Val (Some n))). discriminate.
    - rewrite <- O2. rewrite (same_eventually _ _ _ HN). apply (parse_eventually tb (map lt_kind tks) Panic). discriminate.
    - rewrite <- O3. rewrite (same_eventually _ _ _ HN). apply (parse_never tb (map lt_kind tks)).
    - rewrite <- O4. rewrite (same_eventually _ _ _ HN). apply (parse_eventually tb (map lt_kind tks) (Val None)). discriminate.
  Qed.

  Lemma text_exact (g : grammar V K) fuel p tb : lawful teq -> built g -> (forall v, reachable g v -> productive g v) -> slr_new teq fuel p g = Val tb ->
    epsilon_free g -> start_at_front g -> (forall bd, rule g (g_start g) bd -> exists b t, bd = b ++ [Ter t]) ->
    (exists fuel' ks n, parse teq fuel' tb ks = Val (Some n)) ->
    forall (ts : list (list char * generator K)) input lx es L,
      build_lexer ts input = Val (inl lx) -> parsed ts es -> agreed L es -> steady es -> (forall x, In x es -> loops_ok x = true) ->
      exists tks, munches L es (map snd ts) input 0 tks /\
        forall x, eventually (fun fuel => parse_lexer teq fuel tb lx) (Val (Some (to_node x))) <-> parses g teq (map lt_kind tks) x.
  Proof.
    intros Ht Hb Hp H He Hf Hbd Hs ts input lx es L Hx Hpa Ha Hst Hl.
    destruct (parse_munch teq tb ts input lx es L Hx Hpa Ha Hst Hl) as (tks & Hm & HN). exists tks. split; auto. intros x.
    rewrite (same_eventually _ _ _ HN). apply (proj2 (any_one_exact g Hb teq Ht Hp fuel p tb H)). auto.
  Qed.
End Text.
