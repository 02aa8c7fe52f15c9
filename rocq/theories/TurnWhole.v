(** How many turns parsing a text takes, if it ends at all. *)
From Verif Require Import Base RegexModel SpecRegex NfaModel SpecNfa NfaCompileProofs NfaLangProofs NfaSimProofs NfaTermProofs NfaProofs NfaWitness NfaMachineProofs LexerModel SpecLexer LexerProofs LexerCallsProofs LexerWitness
  SpecCalls LexerRef SpecSpin SpecStuck LexerSpin GrammarModel CfsmModel SlrModel PangoModel SpecCfg SpecMachine SpecCircle SpecWhole
  GrammarProofs GrammarTotal CfsmProofs FollowProofs CfsmCorrect TableProofs SlrNew SlrTable SlrRun SlrFinal SlrMachine SlrSource SlrLinear
  PipeWhole DecideProofs DecideLexer DecideWhole GrowthProofs TurnProofs.
From Verif Require CountProofs.

Section Whole.
  Context {env : Env} {V K : Type} {dv : DecEq V} {dt : DecEq K}.
  Variable teq : K -> K -> bool.
  Hypothesis Hteq : lawful teq.

  (** A longer source. *)
  Lemma loop_more {Ln} (next1 next2 : Ln -> res (option K * Ln)) (inv : Ln -> Prop) (tb : table V K) :
    (forall l, inv l -> next1 l <> Panic) -> (forall l o l', inv l -> next1 l = Val (o, l') -> next2 l = Val (o, l') /\ inv l') ->
    forall fuel l tok stack cur r, inv l -> parse_loop teq next1 fuel tb l tok stack cur = r -> r <> Diverge ->
    parse_loop teq next2 fuel tb l tok stack cur = r.
  Proof.
    intros Hp Hn. induction fuel as [|fuel IH]; intros l tok stack cur r Hi H Hr; cbn [parse_loop] in *; [exact H|].
    assert (Hnx : match tok with Some t => Val (Some t, l) | None => next1 l end = match tok with Some t => Val (Some t, l) | None => next2 l end
      /\ forall o l', match tok with Some t => Val (Some t, l) | None => next1 l end = Val (o, l') -> inv l').
    { destruct tok as [t|]; [split; [reflexivity|intros o l' E; injection E as _ <-; exact Hi]|].
      destruct (next1 l) as [[o l']| |] eqn:E.
      - destruct (Hn _ _ _ Hi E) as [E2 Hi2]. split; [congruence|]. intros o1 l1 E1. injection E1 as _ <-. exact Hi2.
      - destruct (Hp _ Hi E).
      - cbn in H. congruence. }
    destruct Hnx as [<- Hi']. destruct (match tok with Some t => Val (Some t, l) | None => next1 l end) as [[[t|] l1]| |]; cbn [bind] in *; try exact H.
    destruct (handle_token teq tb (Some t) stack cur) as [[[[[tok2 stack'] pn] [|]]|]| |]; cbn [bind] in *; try exact H.
    apply IH; auto. eapply Hi'. reflexivity.
  Qed.

  Lemma eof_more (tb : table V K) d : forall fuel stack cur r, eof_loop teq fuel tb stack cur = r -> r <> Diverge -> eof_loop teq (fuel + d) tb stack cur = r.
  Proof.
    induction fuel as [|fuel IH]; intros stack cur r H Hr; cbn [eof_loop Nat.add] in *; [congruence|].
    destruct (handle_token teq tb None stack cur) as [[[[[tok2 stack'] pn] [|]]|]| |]; cbn [bind] in *; try exact H. apply IH; assumption.
  Qed.
  Lemma loop_fuel {Ln} (next : Ln -> res (option K * Ln)) (tb : table V K) d : forall fuel l tok stack cur r,
    parse_loop teq next fuel tb l tok stack cur = r -> r <> Diverge -> parse_loop teq next (fuel + d) tb l tok stack cur = r.
  Proof.
    induction fuel as [|fuel IH]; intros l tok stack cur r H Hr; cbn [parse_loop Nat.add] in *; [congruence|].
    destruct (match tok with Some t => Val (Some t, l) | None => next l end) as [[[t|] l1]| |]; cbn [bind] in *; try exact H; [|apply eof_more; assumption].
    destruct (handle_token teq tb (Some t) stack cur) as [[[[[tok2 stack'] pn] [|]]|]| |]; cbn [bind] in *; try exact H. apply IH; assumption.
  Qed.

  Lemma last_below (g : grammar V K) c fs tb ts k m : cfsm_ok g c -> exact_follow g fs -> table_ok teq g c fs tb -> built g -> mmoves teq g k (initial ts) m -> (forall m', ~ mmove teq g m m') ->
    k < (2 * length ts + 1) * (length (g_rules g) + 1).
  Proof.
    intros Hc Hf Htb Hb Hm Hn. destruct (Nat.lt_ge_cases k ((2 * length ts + 1) * (length (g_rules g) + 1))) as [Hlt|Hge]; [exact Hlt|exfalso].
    destruct (long_initial teq g Hb ts k m Hm Hge) as (i & m1 & j & m2 & Hi & Hj & E).
    destruct (circle_forever teq g j m1 m2 Hj E (S k)) as (m3 & H3).
    pose proof (mmoves_app teq g _ _ _ _ _ Hi H3) as Hx.
    pose proof (last_moves teq Hteq g c Hc fs Hf tb Htb (@nil expr) (@nil (generator K)) eq_refl _ _ _ _ _ Hm Hx Hn) as [Hle _]. lia.
  Qed.

  Lemma lexed_short (L : expr -> list char -> Prop) es (gs : list (generator K)) s ks s' : length gs = length es -> lexed L es gs s ks s' -> length ks + length (ahead s') <= length (ahead s).
  Proof.
    intros Hg. induction 1 as [|s t s1 ks s2 Hst Hc Hl IH]; cbn [length]; [lia|].
    pose proof (call_shorter es gs L Hg _ _ _ Hc). lia.
  Qed.

  Definition turns (g : grammar V K) (n : nat) : nat := (2 * n + 1) * (length (g_rules g) + 1) + 1.

  Lemma whole_turns (g : grammar V K) (ho0 ho1 ho : HashOrder) fuel0 p tb (ts : list (list char * generator K)) input lx fuel1 fuel r :
    built g -> slr_new (ho := ho0) teq fuel0 p g = Val tb -> build_lexer ts input = Val (inl lx) ->
    Nat.max (factor (lx_nfa lx)) (turns g (length input)) <= fuel ->
    parse_lexer (ho := ho1) teq fuel1 tb lx = r -> r <> Diverge -> parse_lexer (ho := ho) teq fuel tb lx = r.
  Proof.
    intros Hb H Hlx Hfu Hr Hne. destruct (slr_new_parts teq Hteq g Hb _ _ _ H) as (c & fs & _ & Hc & Hf & Htb).
    pose proof (built_good g Hb) as Hgood. destruct (CountProofs.built_parsed ts input lx Hlx) as (es & Hp).
    destruct (build_state_es ts input lx es Hlx Hp) as [_ Hm Ht Hl Ho Hi].
    assert (Ha : agreed impl_lang es) by (left; reflexivity).
    assert (Hh : holds lx (starting input)) by (left; rewrite Hi; repeat split).
    set (m := lx_nfa lx) in *. set (gs := map snd ts) in *.
    assert (Hpan : forall (ho' : HashOrder) fuel', forall l, ours m es gs l -> next_kind fuel' l <> Panic).
    { intros ho' fuel' l Hol En. unfold next_kind in En. destruct (lex_next fuel' l) as [[o l']| |] eqn:E; cbn in En; try discriminate.
      exact (next_no_panic m es gs Hm Ht Hl _ _ Hol E). }
    assert (Hour : forall (ho' : HashOrder) fuel', forall l o l', ours m es gs l -> next_kind fuel' l = Val (o, l') -> ours m es gs l').
    { intros ho' fuel' l o l' Hol En. apply next_kind_val in En. destruct En as (t & En & _).
      exact (result_ours m es gs _ _ _ (next_val m es gs Hm Ht Hl _ _ _ _ Hol En) Hol). }
    assert (Hr2 : parse_loop teq (@next_kind env ho K fuel) fuel1 tb lx None (stack0 tb) (top (stack0 tb)) = r).
    { apply (loop_more (@next_kind env ho1 K fuel1) (@next_kind env ho K fuel) (ours m es gs)); auto.
      intros l o l' Hol En. split; [|exact (Hour ho1 fuel1 _ _ _ Hol En)]. pose proof (next_kind_val _ _ _ _ En) as (t & En' & ->).
      unfold next_kind. destruct (next_enough m es Hm ho1 ho fuel1 fuel l t l' (proj1 Hol)) as [-> _]; [exact (Nat.le_trans _ _ _ (Nat.le_max_l _ _) Hfu)|exact En'|]. reflexivity. }
    destruct (source_run teq Hteq g Hgood c Hc fs Hf tb Htb (@next_kind env ho K fuel) (ours m es gs)) with (fuel := fuel1) (l := lx) (tok := @None K) (st := @nil (symbol V K * node V K)) (sm := stack0 tb) (r := r)
      as (ks & lE & k & m' & Hg & Hk & Hend & Hres); [apply Hpan|apply Hour|exact Ho|constructor|exact Hr2|exact Hne|].
    destruct (gives_lexed m es gs impl_lang Hm Ht Hl Ha _ _ _ _ Hg (starting input) Ho Hh) as (s' & Hlx' & Ho' & Hh').
    assert (Hks : length ks <= length input) by (pose proof (lexed_short _ _ _ _ _ _ Hl Hlx') as Hx; unfold ahead at 2, starting, places in Hx; cbn [h_back h_rest app] in Hx; rewrite combine_length, seq_length in Hx; lia).
    assert (Hkb : k < (2 * length ks + 1) * (length (g_rules g) + 1)).
    { apply (last_below g c fs tb ks k m' Hc Hf Htb Hb Hk). destruct Hres as [(n & Hac & _)|[[Hs _] _]]; [|exact Hs].
      destruct m' as [st rem]. destruct Hac as (-> & _). intros m2 Hm2. inversion Hm2. }
    unfold turns in Hfu. assert (Hkf : 2 + k <= fuel) by nia.
    assert (Hone : forall st sm1 sm2, SlrMachine.held c tb st sm1 -> SlrMachine.held c tb st sm2 -> sm1 = sm2).
    { intros st sm1 sm2 H1. revert sm2. induction H1 as [|y n k0 st sm H1 IH Hpp]; intros sm2 H2; inversion H2 as [|y' n' k' st' sm' H2' Hp']; subst; [reflexivity|].
      rewrite (IH _ H2'). f_equal. f_equal. eapply (path_fun g c Hc); eassumption. }
    assert (Hd : parse_from teq (@next_kind env ho K fuel) fuel tb lx <> Diverge).
    { destruct (held_mmoves teq Hteq g c Hc fs Hf tb Htb k [] ks (stack0 tb) _ (held_nil c tb) Hk) as (sm & Hsm & _).
      destruct m' as [st rem]. cbn [fst snd] in *.
      assert (Hst : exists r', r' <> Diverge /\ (rem = [] \/ r' = Val None \/ r' = Panic) /\ forall sm2, SlrMachine.held c tb st sm2 -> stops teq tb rem sm2 r').
      { destruct Hres as [(n & Hac & _)|[Hs _]].
        - exists (Val (Some n)). split; [discriminate|]. split; [left; apply Hac|]. intros sm2 H2.
          exact (proj2 (maccepts_stops teq Hteq g c Hc fs Hf tb Htb _ _ _ _ H2 Hac)).
        - destruct (stuck_stops teq g Hgood c Hc fs Hf tb Htb _ _ _ Hsm Hs) as [Hx|Hx]; [exists (Val None)|exists Panic]; (split; [discriminate|]; split; [auto|]; intros sm2 H2; rewrite (Hone _ _ _ H2 Hsm); exact Hx). }
      destruct Hst as (r' & Hd & Hre & Hs). destruct rem as [|t rem].
      - destruct Hend as [(l' & En)|Hend]; [|congruence]. rewrite (parse_from_ploop teq tb _ fuel lx ks); [|eapply gives_delivers; eassumption].
        rewrite <- parse_ploop. rewrite (run_result teq Hteq g c Hc fs Hf tb Htb k ks _ r' Hk Hs fuel Hkf). exact Hd.
      - rewrite (source_stops teq Hteq g c Hc fs Hf tb Htb _ k lx ks lE st t rem r' Hg Hk); [exact Hd| |exact Hs|lia].
        destruct Hre as [Hre|Hre]; [discriminate|exact Hre]. }
    unfold parse_lexer. destruct (Nat.le_ge_cases fuel fuel1) as [Hle|Hle].
    - pose proof (loop_fuel (@next_kind env ho K fuel) tb (fuel1 - fuel) fuel lx None _ _ _ eq_refl Hd) as E.
      replace (fuel + (fuel1 - fuel)) with fuel1 in E by lia. symmetry. rewrite <- Hr2. exact E.
    - pose proof (loop_fuel (@next_kind env ho K fuel) tb (fuel - fuel1) fuel1 lx None _ _ _ Hr2 Hne) as E.
      replace (fuel1 + (fuel - fuel1)) with fuel in E by lia. exact E.
  Qed.

  Lemma whole_decided (g : grammar V K) (ho : HashOrder) fuel0 p tb (ts : list (list char * generator K)) input lx es L fuel :
    built g -> slr_new teq fuel0 p g = Val tb -> build_lexer ts input = Val (inl lx) -> parsed ts es -> agreed L es ->
    Nat.max (factor (lx_nfa lx)) (turns g (length input)) <= fuel ->
    (parse_lexer teq fuel tb lx = Diverge <->
     starves L es (map snd ts) teq g (starting input) \/ roams L es (map snd ts) teq g (starting input)).
  Proof.
    intros Hb H Hlx Hp Ha Hf. rewrite <- (whole_never_ends teq Hteq g fuel0 p tb ts input lx es L Hb H Hlx Hp Ha). split; [|auto].
    intros Hd fuel1. destruct (parse_lexer teq fuel1 tb lx) as [o| |] eqn:E; [| |reflexivity];
      (rewrite (whole_turns g ho ho ho fuel0 p tb ts input lx fuel1 fuel _ Hb H Hlx Hf E) in Hd; discriminate).
  Qed.
End Whole.
