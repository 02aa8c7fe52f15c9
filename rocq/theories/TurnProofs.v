(** How many turns the loop of a closure takes, if it ends at all. *)
From Verif Require Import Base RegexModel SpecRegex NfaModel SpecNfa NfaCompileProofs NfaLangProofs NfaSimProofs
  NfaMachineProofs NfaTermProofs LexerModel NfaProofs NfaWitness SpecLexer LexerProofs LexerCallsProofs LexerWitness
  SpecCalls LexerRef SpecSpin NfaSpin SpecStuck LexerSpin NfaCountProofs ReturnProofs CounterProofs GrowthProofs TickLexer DecideProofs DecideLexer.
From Verif Require CountProofs.

Section Machine.
  Context {env : Env}.
  Variables (m : nfa) (k : nat) (l : list expr).
  Hypothesis Hm : machine m k l.
  Let Hwf : wf_nfa m := proj2 (machine_wf _ _ _ Hm).

  Definition fair (r : run) : Prop := vrun m k l r /\ exists B, small (nstates m) B (r_cnt r).

  Lemma fair_init r : init m r -> fair r.
  Proof. intros H. split; [apply vrun_init; assumption|]. exists 0. destruct H as [-> _]. intros i v []. Qed.

  Lemma fair_char c r r' : fair r -> char_step m c r r' -> fair r' /\ r_state r' <> 0.
  Proof.
    intros [Hv (B & HB)] Hc. destruct (vrun_char m k l Hm c r r' Hv Hc) as [H1 H2]. split; [|exact H2]. split; [exact H1|].
    exists (S B). destruct Hc as (lt & t & _ & _ & ->). apply (take_small m k l Hm); [apply Hv|assumption].
  Qed.

  Lemma fair_star r x : fair r -> star (eps_step m) r x -> fair x.
  Proof.
    intros H Hs. induction Hs as [|y z Hs IH Hz]; [exact H|]. destruct IH as [Hv (B & HB)].
    split; [eapply vrun_eps; eassumption|]. exists (S B). destruct Hz as (i & t & _ & E).
    destruct i as [lt| |q]; [destruct E| |destruct E as [_ E]]; subst z; apply (take_small m k l Hm); try assumption; apply Hv.
  Qed.

  (** What is reached without reading is infinite or small. *)
  Lemma near_cover r L : fair r -> r_state r <> 0 -> (forall x, star (eps_step m) r x -> In x L) ->
    exists U, length U = factor m /\ forall x, star (eps_step m) r x -> In x U.
  Proof.
    intros Hf H0 HL. pose proof Hf as [Hv _].
    assert (Hnb : forall x, star (eps_step m) r x -> ~ mbads k l (r_state x)).
    { intros x Hx Hb. assert (Hmax : exists B, forall y, In y L -> cof y (r_state x) <= B).
      { clear. induction L as [|y L (B & HB)]; [exists 0; intros y []|]. exists (cof y (r_state x) + B). intros z [<-|Hz]; [lia|].
        apply HB in Hz. lia. }
      destruct Hmax as (B & HB). destruct (bad_grows m k l Hm x (vrun_star m k l Hm r x Hv Hx) Hb (S B)) as (y & Hy & E).
      assert (Hin : In y L) by (apply HL; eapply star_trans; eassumption). apply HB in Hin. lia. }
    exists (flat_map (fun s => map (fun c => {| r_state := s; r_cnt := c |})
              (choices 0 (nstates m) (fun i => [cof r i; S (cof r i); 0; 1]))) (seq 0 (nstates m))).
    split.
    - unfold factor. rewrite (flat_map_const _ _ (5 ^ nstates m)); [rewrite seq_length; reflexivity|].
      intros s _. rewrite map_length. apply choices_length. reflexivity.
    - intros x Hx. destruct (fair_star r x Hf Hx) as [(H1 & (st & Hst) & _) (B & HB)].
      apply in_flat_map. exists (r_state x). split.
      + assert (Hlt : r_state x < nstates m) by (eapply get_state_lt; [apply Hm|eassumption]). apply in_seq. lia.
      + apply in_map_iff. exists (r_cnt x). split; [destruct x; reflexivity|]. apply choices_complete; [exact H1|].
        intros i n Hi. split; [apply (HB i n Hi)|].
        rewrite <- (sorted_get 0 _ i n H1 Hi). exact (star_near m k l Hm r x Hv H0 Hnb Hx i).
  Qed.

  Section Enough.
    Context {ho : HashOrder}.
    Variable fuel : nat.
    Hypothesis Hfuel : factor m <= fuel.

    Lemma closures_enough L : forall rs, (forall r, In r rs -> fair r /\ r_state r <> 0 /\ forall x, star (eps_step m) r x -> In x L) ->
      exists l', closures fuel m rs = Val l'.
    Proof.
      induction rs as [|r rs IH]; intros Hr; cbn; [eauto|]. destruct (Hr r (or_introl eq_refl)) as (Hf & H0 & HL).
      destruct (near_cover r L Hf H0 HL) as (U & HU & HUs).
      destruct (run_closure_total m U fuel r Hwf) as (l1 & ->); [apply Hf|assumption|lia|].
      cbn [bind]. destruct IH as (l2 & ->); [intros x Hx; apply Hr; right; assumption|]. cbn [bind]. eauto.
    Qed.

    Lemma feed_runs_enough L c : forall rs, (forall r, In r rs -> fair r) -> (forall x, fed m (fun r => In r rs) c x -> In x L) ->
      exists l', feed_runs fuel m rs c = Val l'.
    Proof.
      induction rs as [|r rs IH]; intros Hr HL; cbn; [eauto|].
      destruct (Hr r (or_introl eq_refl)) as [(Hok & (st & Hst) & Hval) HB]. rewrite Hst. cbn [of_option bind].
      destruct (closures_enough L (char_succs fuel st r c)) as (l1 & ->).
      - intros y Hy. apply (in_char_succs m) in Hy; [|assumption].
        destruct (fair_char c r y (Hr r (or_introl eq_refl)) Hy) as [F1 F2]. split; [exact F1|]. split; [exact F2|].
        intros x Hx. apply HL. exists r, y. cbn. auto.
      - cbn [bind]. destruct IH as (l2 & ->); [intros x Hx; apply Hr; right; assumption| |cbn [bind]; eauto].
        intros x (y & y' & Hy & H). apply HL. exists y, y'. cbn. auto.
    Qed.
  End Enough.

  Lemma feed_enough (ho1 : HashOrder) fuel1 rs c L a : (forall r, In r rs -> fair r) -> @sim_feed env ho1 fuel1 m rs c = Val (L, a) ->
    (forall r, In r L -> fair r) /\ forall (ho : HashOrder) fuel rs', factor m <= fuel -> same rs rs' ->
    exists L', sim_feed fuel m rs' c = Val (L', a) /\ same L L'.
  Proof.
    intros Hr H. unfold sim_feed in H. destruct (feed_runs fuel1 m rs c) as [l0| |] eqn:E; try discriminate. cbn [bind] in H.
    destruct (sim_accepting m l0) as [a0| |] eqn:Ea; try discriminate. cbn [bind] in H. injection H as -> ->.
    assert (Hok : runs_ok m rs) by (intros x Hx; apply (Hr x Hx)).
    pose proof (@feed_runs_spec env ho1 m fuel1 rs c L Hwf Hok E) as Hl. pose proof (@feed_runs_ok env ho1 m fuel1 rs c L Hwf Hok E) as HokL.
    split.
    - intros x Hx. apply Hl in Hx. destruct Hx as (r & r' & Hin & Hc & Hs). eapply fair_star; [|exact Hs]. eapply fair_char; [apply Hr; exact Hin|exact Hc].
    - intros ho fuel rs' Hf Hs.
      assert (Hok' : runs_ok m rs') by (intros x Hx; apply Hok, Hs; assumption).
      destruct (@feed_runs_enough ho fuel Hf L c rs') as (l' & E').
      + intros r Hx. apply Hr, Hs. assumption.
      + intros x Hx. apply Hl. apply (same_fed m c _ _ x Hs). assumption.
      + pose proof (@feed_runs_spec env ho m fuel rs' c l' Hwf Hok' E') as Hl'.
        assert (Hsl : same L l') by (intros x; rewrite Hl, Hl'; apply same_fed; assumption).
        exists l'. split; [|assumption]. unfold sim_feed. rewrite E'. cbn [bind]. rewrite <- (accepting_set m L l' HokL Hsl), Ea. reflexivity.
  Qed.

  Lemma str_enough (ho1 : HashOrder) fuel1 (ho : HashOrder) fuel w : factor m <= fuel -> forall rs rs' last L b, (forall r, In r rs -> fair r) -> same rs rs' ->
    @feed_str_from env ho1 fuel1 m rs last w = Val (L, b) -> exists L', feed_str_from fuel m rs' last w = Val (L', b).
  Proof.
    intros Hf. induction w as [|c w IH]; intros rs rs' last L b Hr Hs H; cbn [feed_str_from] in *.
    - rewrite <- (accepting_set m rs rs' (fun x Hx => proj1 (proj2 (proj1 (Hr x Hx)))) Hs).
      destruct last as [b0|]; destruct (sim_accepting m rs) as [b1| |]; try discriminate; cbn [bind] in *; injection H as <- <-; eauto.
    - destruct (sim_feed fuel1 m rs c) as [[l1 a]| |] eqn:E; try discriminate. cbn [bind] in H.
      destruct (feed_enough ho1 fuel1 rs c l1 a Hr E) as [Hok HF].
      destruct (HF ho fuel rs' Hf Hs) as (l' & -> & Hs'). cbn [bind]. exact (IH l1 l' _ _ _ Hok Hs' H).
  Qed.

  Lemma factor_states : nstates m <= factor m.
  Proof. unfold factor. pose proof (Nat.pow_nonzero 5 (nstates m)). nia. Qed.

  Lemma new_enough (ho1 ho : HashOrder) fuel1 fuel rs : factor m <= fuel -> @sim_new ho1 fuel1 m = Val rs ->
    (forall r, In r rs -> fair r) /\ exists rs', sim_new fuel m = Val rs' /\ same rs rs'.
  Proof.
    intros Hf E. split.
    - intros r Hr. apply fair_init. apply (proj2 (sim_new_spec m fuel1 rs Hwf E)). exact Hr.
    - destruct (sim_new_total ho m fuel Hwf) as (rs' & E'); [exact (Nat.le_trans _ _ _ factor_states Hf)|]. exists rs'. split; [exact E'|].
      intros x. rewrite (proj2 (sim_new_spec m fuel1 rs Hwf E)), (proj2 (sim_new_spec m fuel rs' Hwf E')). reflexivity.
  Qed.

  Lemma simulate_enough (ho1 ho : HashOrder) fuel1 fuel w b : factor m <= fuel ->
    @simulate env ho1 fuel1 m w = Val b -> simulate fuel m w = Val b.
  Proof.
    intros Hf H. unfold simulate in *. destruct (sim_new fuel1 m) as [rs| |] eqn:E; try discriminate. cbn [bind] in H.
    destruct (new_enough ho1 ho fuel1 fuel rs Hf E) as [Hr (rs' & -> & Hs)]. cbn [bind]. unfold feed_str in *.
    destruct (@feed_str_from env ho1 fuel1 m rs None w) as [[L b']| |] eqn:E2; try discriminate. cbn [bind] in H. injection H as ->.
    destruct (str_enough ho1 fuel1 ho fuel w Hf rs rs' None L b Hr Hs E2) as (L' & ->). reflexivity.
  Qed.
End Machine.

Section Lex.
  Context {env : Env} {K : Type}.
  Variables (m : nfa) (l : list expr).
  Hypothesis Hm : machine m 2 l.

  Lemma loop_enough (ho1 ho : HashOrder) fuel1 fuel (lx : lexer K) : lx_nfa lx = m -> factor m <= fuel -> forall steps i rs rs' kind o lx',
    (forall r, In r rs -> fair m 2 l r) -> same rs rs' ->
    @lex_loop env ho1 K fuel1 steps lx i rs kind = Val (o, lx') -> lex_loop fuel steps lx i rs' kind = Val (o, lx').
  Proof.
    intros Em Hf. induction steps as [|steps IH]; intros i rs rs' kind o lx' Hr Hs H; cbn [lex_loop] in *;
      assert (Hok : runs_ok (lx_nfa lx) rs) by (rewrite Em; intros x Hx; apply (Hr x Hx));
      destruct (iter_next i) as [[ch|] i1]; try discriminate;
      try (rewrite <- (accepting_set _ rs rs' Hok Hs); exact H).
    rewrite <- (can_feed_set _ rs rs' ch Hok Hs).
    destruct (sim_can_feed (lx_nfa lx) rs ch) as [can| |] eqn:Ec; try discriminate. cbn [bind] in *.
    destruct can; cbn [negb] in *; [|exact H].
    destruct (@sim_feed env ho1 fuel1 (lx_nfa lx) rs ch) as [[L a]| |] eqn:E; try discriminate. cbn [bind] in H.
    rewrite Em in E. destruct (feed_enough m 2 l Hm ho1 fuel1 rs ch L a Hr E) as [Hr' HF].
    destruct (HF ho fuel rs' Hf Hs) as (L' & E' & Hs'). rewrite <- Em in E'. rewrite E'. cbn [bind]. destruct a.
    - rewrite <- (final_states_set _ L L' Hs').
      destruct (hd_error (sim_final_states (lx_nfa lx) L)) as [f|]; try discriminate. cbn [of_option bind] in *.
      destruct (find_token f (lx_tokens lx)) as [g|]; try discriminate. cbn [of_option bind] in *.
      exact (IH _ L L' _ _ _ Hr' Hs' H).
    - exact (IH _ L L' _ _ _ Hr' Hs' H).
  Qed.

  Lemma next_enough (ho1 ho : HashOrder) fuel1 fuel (lx : lexer K) o lx' : lx_nfa lx = m -> factor m <= fuel ->
    @lex_next env ho1 K fuel1 lx = Val (o, lx') -> lex_next fuel lx = Val (o, lx') /\ lx_nfa lx' = m.
  Proof.
    intros Em Hf H. unfold lex_next in *. destruct (@sim_new ho1 fuel1 (lx_nfa lx)) as [rs| |] eqn:E; try discriminate. cbn [bind] in H.
    rewrite Em in E. destruct (new_enough m 2 l Hm ho1 ho fuel1 fuel rs Hf E) as [Hr (rs' & E' & Hs)]. rewrite Em, E'. cbn [bind]. split.
    - exact (loop_enough ho1 ho fuel1 fuel lx Em Hf _ _ rs rs' _ _ _ Hr Hs H).
    - rewrite <- Em. exact (loop_nfa ho1 fuel1 lx _ _ _ _ _ _ H).
  Qed.

  Lemma calls_enough (ho1 ho : HashOrder) fuel1 fuel n : factor m <= fuel -> forall (lx : lexer K) os lx', lx_nfa lx = m ->
    @lex_calls env ho1 K fuel1 n lx = Val (os, lx') -> lex_calls fuel n lx = Val (os, lx').
  Proof.
    intros Hf. induction n as [|n IH]; intros lx os lx' Em H; cbn [lex_calls] in *; [exact H|].
    destruct (@lex_next env ho1 K fuel1 lx) as [[o lx1]| |] eqn:E; try discriminate. cbn [bind] in H.
    destruct (next_enough ho1 ho fuel1 fuel lx o lx1 Em Hf E) as [-> Em1]. cbn [bind].
    destruct (@lex_calls env ho1 K fuel1 n lx1) as [[os1 lx2]| |] eqn:E2; try discriminate. cbn [bind] in H.
    rewrite (IH lx1 os1 lx2 Em1 E2). exact H.
  Qed.
End Lex.

(** ** What the model computes *)
Lemma from_turns {env : Env} e m (ho1 ho : HashOrder) fuel1 fuel w b : nfa_from e = Val m ->
  length (nfa_states m) * 5 ^ length (nfa_states m) <= fuel -> @simulate env ho1 fuel1 m w = Val b -> simulate fuel m w = Val b.
Proof. intros Hf. destruct (nfa_from_ok e m Hf) as [_ Hm]. exact (simulate_enough m 1 [e] Hm ho1 ho fuel1 fuel w b). Qed.

Lemma from_no_panic {env : Env} (ho : HashOrder) e m fuel w : nfa_from e = Val m -> simulate fuel m w <> Panic.
Proof.
  intros Hm E. destruct (nfa_from_ok e m Hm) as [_ Hmm]. pose proof (machine_wf _ _ _ Hmm) as [_ Hwf]. rewrite simulate_text in E.
  destruct (sim_text fuel m w) as [rs| |] eqn:Et; try discriminate.
  - cbn [bind] in E. destruct (sim_text_spec m fuel w rs Hwf Et) as [Hok _].
    destruct (sim_accepting_spec m rs Hok) as (b & Hb & _). congruence.
  - exact (sim_text_no_panic m fuel w Hwf Et).
Qed.

Lemma from_decided {env : Env} e m (ho : HashOrder) fuel w : nfa_from e = Val m ->
  length (nfa_states m) * 5 ^ length (nfa_states m) <= fuel -> simulate fuel m w = Diverge <-> spinning e w.
Proof.
  intros Hm Hf. split; [|intros H; exact (proj2 (matching_never_ends ho e m w Hm) H fuel)].
  intros Hd. apply (matching_never_ends ho e m w Hm). intros fuel1.
  destruct (simulate fuel1 m w) as [b| |] eqn:E; [|exfalso|reflexivity].
  - rewrite (from_turns e m ho ho fuel1 fuel w b Hm Hf E) in Hd. discriminate.
  - exact (from_no_panic ho e m fuel1 w Hm E).
Qed.

Section Built.
  Context {env : Env} {K : Type}.

  Lemma lexer_turns (ts : list (list char * generator K)) input lx (ho1 ho : HashOrder) fuel1 fuel n os lx' :
    build_lexer ts input = Val (inl lx) -> length (nfa_states (lx_nfa lx)) * 5 ^ length (nfa_states (lx_nfa lx)) <= fuel ->
    @lex_calls env ho1 K fuel1 n lx = Val (os, lx') -> lex_calls fuel n lx = Val (os, lx').
  Proof.
    intros Hb Hf H. destruct (CountProofs.built_parsed ts input lx Hb) as (es & Hp).
    destruct (build_state_es ts input lx es Hb Hp) as [_ Hm _ _ _ _].
    exact (calls_enough (lx_nfa lx) es Hm ho1 ho fuel1 fuel n Hf lx os lx' eq_refl H).
  Qed.

  Lemma lexer_decided (ts : list (list char * generator K)) input lx es L n (ho : HashOrder) fuel :
    build_lexer ts input = Val (inl lx) -> parsed ts es -> agreed L es ->
    length (nfa_states (lx_nfa lx)) * 5 ^ length (nfa_states (lx_nfa lx)) <= fuel ->
    (lex_calls fuel n lx = Diverge <->
     exists os s, reaches L es (map snd ts) (starting input) os s /\ length os < n /\ stuck es s).
  Proof.
    intros Hb Hp Ha Hf. rewrite <- (lexing_never_ends ts input lx es L n ho Hb Hp Ha). split; [|auto].
    intros Hd fuel1. destruct (lex_calls fuel1 n lx) as [[os lx']| |] eqn:E; [|exfalso|reflexivity].
    - rewrite (lexer_turns ts input lx ho ho fuel1 fuel n os lx' Hb Hf E) in Hd. discriminate.
    - exact (lexer_no_panic ts input lx ho fuel1 n Hb E).
  Qed.
End Built.
