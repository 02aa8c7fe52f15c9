(** Final forms of the automaton properties and the witnesses of the
    refutations. *)
From Verif Require Import Base RegexModel SpecRegex RegexTokProofs RegexPrintProofs RegexParseProofs RegexProofs NfaModel SpecNfa NfaCompileProofs NfaLangProofs
  NfaSimProofs NfaMachineProofs NfaTermProofs LexerModel NfaProofs NfaCountProofs.

(** ** Builder operations *)

Lemma built_targets m : built m -> targets_ok m.
Proof.
  induction 1 as [fin|b fin _ IH|b s t i b' _ IH H].
  - intros st i ts [<-|[]] [].
  - apply add_state_targets. assumption.
  - eapply add_transition_targets; eassumption.
Qed.

Lemma quant_built b q s t b' i : built b -> insert_quantifier_state b q s t = Val (b', i) -> built b'.
Proof.
  intros Hb. unfold insert_quantifier_state, add_quantified_state. destruct (add_state b false) as [b1 j] eqn:Ea.
  assert (Hb1 : built b1) by (replace b1 with (fst (add_state b false)) by (rewrite Ea; reflexivity); constructor; assumption).
  destruct (add_transition b1 j t (IQuant q)) as [b2| |] eqn:E2; try discriminate. cbn [bind].
  destruct (add_transition b2 s j IEps) as [b3| |] eqn:E3; try discriminate. cbn [bind]. intros [= <- _].
  eapply built_edge; [|exact E3]. eapply built_edge; [|exact E2]. assumption.
Qed.

Lemma compile_built : forall e b s t b', built b -> compile_expr e b s t = Val b' -> built b'.
Proof.
  induction e as [|e IH|e e2 es IH1 IH2| |l r IHl IHr|l q|e q IH] using expr_seq_ind; intros b s t b' Hb H.
  - discriminate.
  - eapply IH; eassumption.
  - rewrite compile_seq in H. destruct (add_state b false) as [b1 j] eqn:Ea.
    assert (Hb1 : built b1) by (replace b1 with (fst (add_state b false)) by (rewrite Ea; reflexivity); constructor; assumption).
    destruct (compile_expr e b1 s j) as [b2| |] eqn:E2; try discriminate. cbn [bind] in H. eapply IH2; [|eassumption]. eapply IH1; eassumption.
  - eapply built_edge; eassumption.
  - cbn in H. destruct (compile_expr l b s t) as [b2| |] eqn:E2; try discriminate. cbn [bind] in H. eapply IHr; [|eassumption]. eapply IHl; eassumption.
  - destruct q as [q|]; cbn in H; [|eapply built_edge; eassumption].
    destruct (insert_quantifier_state b q s t) as [[b1 i]| |] eqn:E1; try discriminate. cbn [bind] in H.
    eapply built_edge; [|eassumption]. eapply quant_built; eassumption.
  - destruct q as [q|]; cbn in H; [|eapply IH; eassumption].
    destruct (insert_quantifier_state b q s t) as [[b1 i]| |] eqn:E1; try discriminate. cbn [bind] in H.
    eapply IH; [|eassumption]. eapply quant_built; eassumption.
Qed.

Lemma compiler_new_built c : compiler_new = Val c -> built (co_nfa c).
Proof. intros H. vm_compute in H. injection H as <-. cbn. apply (built_state (builder_new false) true (built_new false)). Qed.

Lemma nfa_from_built e m : nfa_from e = Val m -> built m.
Proof.
  unfold nfa_from. destruct compiler_new as [c| |] eqn:Ec; try discriminate. cbn [bind]. unfold add_expression.
  destruct (compile_expr e (co_nfa c) (nfa_start (co_nfa c)) (co_final c)) as [b| |] eqn:E; try discriminate. cbn [bind].
  unfold compiler_compile. cbn [co_nfa]. intros H. apply nfa_build_spec in H. destruct H as [-> _].
  eapply compile_built; [|exact E]. apply compiler_new_built. assumption.
Qed.

Lemma get_state_unique m st : wfb m -> In st (nfa_states m) -> get_state m (st_id st) = Some st.
Proof.
  intros Hw Hin. assert (Hnd : NoDup (map st_id (nfa_states m))) by (rewrite Hw; apply seq_NoDup). clear Hw. unfold get_state.
  induction (nfa_states m) as [|s l IH]; [destruct Hin|]. cbn [find map] in *. inversion Hnd; subst. destruct Hin as [->|Hin].
  - rewrite Nat.eqb_refl. reflexivity.
  - destruct (Nat.eqb_spec (st_id s) (st_id st)) as [E|]; [|auto].
    exfalso. apply H1. rewrite E. apply in_map. assumption.
Qed.

Lemma machine_closed m k l : machine m k l -> closed_nfa m.
Proof.
  intros Hm. destruct (machine_wf _ _ _ Hm) as [_ [(st0 & H0) Hwf]]. split.
  - exists st0. apply get_state_id in H0. tauto.
  - intros st i ts t Hst Hi Ht. destruct (Hwf (st_id st) i t) as (st' & H').
    + exists st, ts. split; [apply get_state_unique; [apply Hm|assumption]|auto].
    + exists st'. apply get_state_id in H'. tauto.
Qed.
Lemma machine_fresh m k l : machine m k l -> start_not_entered m.
Proof.
  intros Hm st i ts Hst Hi Ht. rewrite (mc_start _ _ _ Hm) in Ht.
  apply (machine_start_fresh m k l (st_id st) i Hm). exists st, ts. split; [apply get_state_unique; [apply Hm|assumption]|auto].
Qed.
Lemma machine_dead m k l : machine m k l -> targets_ok m -> finals_dead m.
Proof.
  intros Hm Ht st Hst Hf. destruct (st_trans st) as [|[i ts] r] eqn:E; [reflexivity|]. exfalso.
  assert (Hne : ts <> []) by (eapply Ht; [eassumption|rewrite E; left; reflexivity]). destruct ts as [|t ts]; [congruence|].
  apply (machine_final_dead m k l (st_id st) Hm) with (i := i) (t := t).
  - apply (mc_fin _ _ _ Hm). unfold fin_of. rewrite get_state_unique; [cbn; congruence|apply Hm|assumption].
  - exists st, (t :: ts). split; [apply get_state_unique; [apply Hm|assumption]|]. rewrite E. split; left; reflexivity.
Qed.

Section Builders.
  Context {env : Env} {K : Type}.

  Lemma add_token_built (lg : lexgen K) p g lg' : built (co_nfa (lg_compiler lg)) -> add_token lg p g = Val (inl lg') ->
    built (co_nfa (lg_compiler lg')).
  Proof.
    intros Hb. unfold add_token, new_final. destruct (add_state (co_nfa (lg_compiler lg)) true) as [b f] eqn:Ea.
    assert (Hb1 : built b) by (replace b with (fst (add_state (co_nfa (lg_compiler lg)) true)) by (rewrite Ea; reflexivity); constructor; assumption).
    destruct (regex_parse p) as [[e|errs]| |]; try discriminate. cbn [bind]. unfold add_expression. cbn [co_nfa co_final].
    destruct (compile_expr e b (nfa_start b) f) as [b2| |] eqn:E2; try discriminate. cbn [bind]. intros [= <-]. cbn.
    eapply compile_built; eassumption.
  Qed.
  Lemma add_tokens_built ts : forall (lg : lexgen K) lg', built (co_nfa (lg_compiler lg)) -> add_tokens lg ts = Val (inl lg') ->
    built (co_nfa (lg_compiler lg')).
  Proof.
    induction ts as [|[p g] ts IH]; intros lg lg' Hb H; cbn [add_tokens] in H; [injection H as <-; assumption|].
    destruct (add_token lg p g) as [[lg1|errs]| |] eqn:E; try discriminate. cbn [bind] in H.
    eapply IH; [|eassumption]. eapply add_token_built; eassumption.
  Qed.

  Lemma list_sum_le (A B : Type) (f : A -> nat) (g : B -> nat) l l' : Forall2 (fun a b => f a <= g b) l l' ->
    list_sum (map f l) <= list_sum (map g l').
  Proof. induction 1; cbn [map list_sum fold_right]; [lia|]. unfold list_sum in *. cbn [fold_right]. lia. Qed.

  Lemma tokens_state (lg0 lg : lexgen K) ts : lexgen_new = Val lg0 -> add_tokens lg0 ts = Val (inl lg) ->
    exists es, Forall2 (fun t e => regex_parse (fst t) = Val (ParseOk e)) ts es /\
      gen_state lg es (map snd ts) /\ built (co_nfa (lg_compiler lg)).
  Proof.
    intros H0 H. destruct (@gen_new K) as (lg0' & E0 & Hg0).
    assert (lg0' = lg0) as -> by congruence.
    destruct (gen_adds ts lg0 [] [] lg Hg0 H) as (es & Hes & Hg). exists es. split; [assumption|]. split; [exact Hg|].
    eapply add_tokens_built; [|exact H]. unfold lexgen_new in H0. destruct compiler_new as [c| |] eqn:Ec; try discriminate.
    cbn in H0. injection H0 as <-. apply compiler_new_built. assumption.
  Qed.

  Lemma compiled_ok (lg0 lg : lexgen K) ts : lexgen_new = Val lg0 -> add_tokens lg0 ts = Val (inl lg) ->
    exists m, compiler_compile (lg_compiler lg) = Val m /\ closed_nfa m /\ start_not_entered m /\ finals_dead m /\
      length (nfa_states m) <= 2 + list_sum (map (fun t => S (length (fst t))) ts).
  Proof.
    intros H0 H. destruct (tokens_state lg0 lg ts H0 H) as (es & Hes & (Hm & _) & Hb).
    exists (co_nfa (lg_compiler lg)). split; [apply (machine_wf _ _ _ Hm)|]. split; [eapply machine_closed; eassumption|].
    split; [eapply machine_fresh; eassumption|]. split; [eapply machine_dead; [eassumption|]; apply built_targets; assumption|].
    pose proof (mc_size _ _ _ Hm) as Hs. unfold nstates in Hs. rewrite Hs. apply Nat.add_le_mono_l.
    apply list_sum_le. pose proof (mc_ok _ _ _ Hm) as Hok. clear -Hes Hok. revert Hok. induction Hes as [|t e ts es He _ IH]; intros Hok; constructor.
    - apply le_n_S. eapply parsed_size; [eassumption|]. apply Hok. left. reflexivity.
    - apply IH. intros e' H'. apply Hok. right. assumption.
  Qed.

  Lemma stream_kinds_none l : stream_kinds l = None -> In TokPanic l.
  Proof.
    induction l as [|[t|] l IH]; cbn; [discriminate| |auto]. destruct (stream_kinds l); [discriminate|]. auto.
  Qed.

  Lemma add_token_total (lg0 lg : lexgen K) ts p g : lexgen_new = Val lg0 -> add_tokens lg0 ts = Val (inl lg) ->
    (exists x, add_token lg p g = Val x) \/
    (add_token lg p g = Panic /\
     ((overflow_checks = true /\ window_number p) \/ exists ks, kinds_of p = Some ks /\ empty_alternative ks)).
  Proof.
    intros H0 H. destruct (tokens_state lg0 lg ts H0 H) as (es & Hes & Hg & _).
    pose proof (gen_add lg es (map snd ts) p g Hg) as Ha. destruct (regex_parse p) as [[e|errs]| |] eqn:Ep.
    - destruct (has_empty e) eqn:He.
      + right. split; [assumption|]. destruct (regex_parse_ok p e Ep) as (rest & _ & _ & Hgap). specialize (Hgap He).
        destruct (kinds_of p) as [ks|] eqn:Ek.
        * right. exists ks. split; [reflexivity|]. eapply gap_empty_alternative; eassumption.
        * left. apply stream_kinds_none in Ek. eapply tok_stream_panic. exact Ek.
      + left. destruct Ha as (lg' & Ha & _). eauto.
    - left. eauto.
    - right. split; [assumption|]. left. apply regex_parse_panic_window. assumption.
    - destruct Ha.
  Qed.
End Builders.

(** ** One regex *)

Section One.
  Context {env : Env}.

  Lemma regex_terminates e m w : nfa_from e = Val m -> loops_ok e = true ->
    exists N, forall (ho : HashOrder) fuel, N <= fuel -> exists b, simulate fuel m w = Val b.
  Proof.
    intros H Hl. destruct (nfa_from_ok e m H) as [_ Hm]. pose proof (machine_wf _ _ _ Hm) as [_ Hwf].
    destruct (machine_total m 1 [e] w Hm) as (N & HN); [intros e' [<-|[]]; assumption|].
    exists N. intros ho fuel Hf. eapply simulate_total; eassumption.
  Qed.

  Lemma regex_lead (ho : HashOrder) e m fuel w b : nfa_from e = Val m -> lead_ok e = true -> simulate fuel m w = Val b ->
    (b = true <-> lang e w).
  Proof. intros H Hl Hs. rewrite (simulate_impl ho e m fuel w b H Hs). apply impl_lang_lead. assumption. Qed.

  Lemma text_no_empty w : has_empty (text_expr w) = false.
  Proof.
    destruct w as [|a [|b w]]; try reflexivity. cbn. induction w as [|c w IH]; cbn; auto.
  Qed.
  Lemma text_loops w : loops_ok (text_expr w) = true.
  Proof. destruct w as [|a [|b w]]; try reflexivity. cbn. induction w as [|c w IH]; cbn; auto. Qed.
  Lemma text_lead w : lead_ok (text_expr w) = true.
  Proof. destruct w as [|a [|b w]]; try reflexivity. Qed.

  Lemma escaped_matches w : exists e m, regex_parse (escape_text w) = Val (ParseOk e) /\ nfa_from e = Val m /\
    forall v, exists N, forall (ho : HashOrder) fuel, N <= fuel -> exists b, simulate fuel m v = Val b /\ (b = true <-> v = w).
  Proof.
    destruct (nfa_from_machine (text_expr w) (text_no_empty w)) as (m & Hm & _). exists (text_expr w), m.
    split; [apply escaped_parses|]. split; [assumption|]. intros v.
    destruct (regex_terminates _ _ v Hm (text_loops w)) as (N & HN). exists N. intros ho fuel Hf.
    destruct (HN ho fuel Hf) as (b & Hb). exists b. split; [assumption|].
    rewrite (regex_lead ho _ _ _ _ _ Hm (text_lead w) Hb). apply text_lang.
  Qed.

  Lemma orders_agree m m' w (ho1 ho2 : HashOrder) fuel l1 : nfa_build m' = Val m -> @sim_text env ho1 fuel m w = Val l1 ->
    exists N, forall fuel', N <= fuel' -> exists l2, @sim_text env ho2 fuel' m w = Val l2 /\
      sim_accepting m l2 = sim_accepting m l1 /\ (forall c, sim_can_feed m l2 c = sim_can_feed m l1 c) /\
      sim_final_states m l2 = sim_final_states m l1 /\ simulate fuel' m w = @simulate env ho1 fuel m w.
  Proof.
    intros Hb H. apply nfa_build_spec in Hb. destruct Hb as [_ Hwf].
    destruct (text_orders m w ho1 ho2 fuel l1 Hwf H) as (N & HN). exists N. intros fuel' Hf.
    destruct (HN fuel' Hf) as (l2 & E & Hs). destruct (sim_text_spec m fuel w l1 Hwf H) as [Hr _].
    exists l2. split; [assumption|]. split; [symmetry; apply accepting_set; assumption|].
    split; [intros c; symmetry; apply can_feed_set; assumption|].
    split; [symmetry; apply final_states_set; assumption|].
    rewrite !simulate_text, E, H. cbn [bind]. symmetry. apply accepting_set; assumption.
  Qed.

  Lemma can_feed_built (ho : HashOrder) m m' fuel v rs c : built m' -> nfa_build m' = Val m -> sim_text fuel m v = Val rs ->
    exists b, sim_can_feed m rs c = Val b /\
    (forall fuel' l a, sim_feed fuel' m rs c = Val (l, a) -> (b = false <-> l = [])) /\
    (b = false -> forall fuel', sim_feed fuel' m rs c = Val ([], false)) /\
    (b = false -> forall (ho' : HashOrder) fuel' u, simulate fuel' m (v ++ c :: u) <> Val true).
  Proof.
    intros Hb H. apply nfa_build_spec in H. destruct H as [-> Hwf]. apply can_feed_exact; [assumption|]. apply built_targets. assumption.
  Qed.

  (** ** Nested stars *)

  Definition star_star : expr := EGroup (EGroup (ELit (LMatch ca) (Some QAsterisk)) None) (Some QAsterisk).
  Definition ss_nfa : nfa := {| nfa_start := 0; nfa_states := [
    {| st_id := 0; st_fin := false; st_trans := [(IEps, [2])] |};
    {| st_id := 1; st_fin := true; st_trans := [] |};
    {| st_id := 2; st_fin := false; st_trans := [(IQuant QAsterisk, [1]); (IEps, [3])] |};
    {| st_id := 3; st_fin := false; st_trans := [(IQuant QAsterisk, [2]); (ILit (LMatch ca), [3])] |}] |}.
  Definition star_star' : expr := EGroup (ELit (LMatch ca) (Some QAsterisk)) (Some QAsterisk).
  Lemma ss_from : nfa_from star_star' = Val ss_nfa.
  Proof. vm_compute. reflexivity. Qed.

  Lemma ss_edge s i t st ts : get_state ss_nfa s = Some st -> In (i, ts) (st_trans st) -> In t ts -> has_edge ss_nfa (s, i, t).
  Proof. intros. exists st, ts. auto. Qed.

  Definition ss_run (j : nat) : run := {| r_state := 2; r_cnt := [(2, S j); (3, 0)] |}.
  Definition ss_mid (j : nat) : run := {| r_state := 3; r_cnt := [(2, S j); (3, 0)] |}.

  Lemma ss_reach j : after ss_nfa (init ss_nfa) [ca] (ss_run j).
  Proof.
    cbn [after]. exists {| r_state := 3; r_cnt := [] |}, {| r_state := 3; r_cnt := [(3, 1)] |}.
    assert (E23 : has_edge ss_nfa (2, IEps, 3)) by (eapply ss_edge; [reflexivity|right; left; reflexivity|left; reflexivity]).
    assert (E32 : has_edge ss_nfa (3, IQuant QAsterisk, 2)) by (eapply ss_edge; [reflexivity|left; reflexivity|left; reflexivity]).
    split; [|split].
    - split; [reflexivity|]. eapply star_step; [eapply star_step; [constructor|]|].
      + exists IEps. split; [|exact I]. eapply (ss_edge 0 IEps 2); [reflexivity|left; reflexivity|left; reflexivity].
      + exists IEps. split; [exact E23|exact I].
    - exists (LMatch ca), 3. split; [eapply ss_edge; [reflexivity|right; left; reflexivity|left; reflexivity]|]. split; reflexivity.
    - assert (H0 : star (eps_step ss_nfa) {| r_state := 3; r_cnt := [(3, 1)] |} (ss_mid 0)).
      { eapply star_step; [eapply star_step; [constructor|]|].
        - exists (IQuant QAsterisk), 2. split; [exact E32|]. split; [reflexivity|]. cbn. reflexivity.
        - exists IEps, 3. split; [exact E23|]. reflexivity. }
      induction j as [|j IH].
      + eapply star_step; [exact H0|]. exists (IQuant QAsterisk), 2. split; [exact E32|]. split; reflexivity.
      + eapply star_step; [eapply star_step; [exact IH|]|].
        * exists IEps, 3. split; [exact E23|]. reflexivity.
        * exists (IQuant QAsterisk), 2. split; [exact E32|]. split; reflexivity.
  Qed.

  Lemma ss_diverges (ho : HashOrder) fuel : simulate fuel ss_nfa [ca] = Diverge.
  Proof.
    pose proof (nfa_from_ok _ _ ss_from) as [_ Hm]. pose proof (machine_wf _ _ _ Hm) as [_ Hwf].
    rewrite simulate_text. pose proof (sim_text_no_panic ss_nfa fuel [ca] Hwf).
    destruct (sim_text fuel ss_nfa [ca]) as [l| |] eqn:E; [|congruence|reflexivity].
    exfalso. destruct (sim_text_spec ss_nfa fuel [ca] l Hwf E) as [_ Hin].
    assert (Hmax : forall l : list run, exists M, forall r, In r l -> counters_get 2 (r_cnt r) <= M).
    { clear. induction l as [|r l (M & HM)]; [exists 0; intros r []|].
      exists (counters_get 2 (r_cnt r) + M). intros x [<-|Hx]; [lia|]. specialize (HM x Hx). lia. }
    destruct (Hmax l) as (M & HM). pose proof (HM (ss_run M) (proj2 (Hin _) (ss_reach M))) as Hc. cbn in Hc. lia.
  Qed.

  (** ** Miscounted rounds *)

  Definition cb : char := $"b".
  (** [(a*b)+] and [(a*b){2}]. *)
  Definition ab_group (q : quant) : expr :=
    EGroup (EConcat [ELit (LMatch ca) (Some QAsterisk); ELit (LMatch cb) None]) (Some q).

  Lemma order_free m w (b : bool) : wf_nfa m -> (exists fuel, @simulate env id_order fuel m w = Val b) ->
    forall (ho : HashOrder), exists N, forall fuel, N <= fuel -> simulate fuel m w = Val b.
  Proof.
    intros Hwf (f0 & H) ho. rewrite simulate_text in H. destruct (sim_text f0 m w) as [l| |] eqn:E; try discriminate.
    cbn [bind] in H. destruct (text_orders m w id_order ho f0 l Hwf E) as (N & HN). exists N. intros fuel Hf.
    destruct (HN fuel Hf) as (l2 & E2 & Hs). rewrite simulate_text, E2. cbn [bind]. rewrite <- H. symmetry. apply accepting_set; [|assumption].
    apply (@sim_text_spec env id_order m f0 w l Hwf E).
  Qed.

  Lemma ab_lang_one w : lang (EConcat [ELit (LMatch ca) (Some QAsterisk); ELit (LMatch cb) None]) w ->
    exists v, w = v ++ [cb] /\ forall c, In c v -> c = ca.
  Proof.
    intros (x & y & -> & (n & _ & Hx) & (y1 & y2 & -> & (c & -> & Hc) & ->)). cbn in Hc. subst c. exists x. split; [reflexivity|].
    revert x Hx. induction n as [|n IH]; intros x Hx; cbn in Hx; [subst x; intros c []|].
    destruct Hx as (u & v & -> & (c & -> & Hc) & Hv). cbn in Hc. subst c. intros c [<-|H]; [reflexivity|]. eapply IH; eassumption.
  Qed.

  Lemma ab_one : lang (EConcat [ELit (LMatch ca) (Some QAsterisk); ELit (LMatch cb) None]) [cb].
  Proof.
    exists [], [cb]. split; [reflexivity|]. split.
    - exists 0. split; [exact I|reflexivity].
    - exists [cb], []. split; [reflexivity|]. split; [exists cb; split; reflexivity|reflexivity].
  Qed.

  Lemma ab_plus_b : lang (ab_group QPlus) [cb].
  Proof. exists 1. split; [cbn; lia|]. exists [cb], []. split; [reflexivity|]. split; [apply ab_one|reflexivity]. Qed.

  Lemma ab_two_bbb : ~ lang (ab_group (QMax 2)) [cb; cb; cb].
  Proof.
    intros (n & Hn & H). cbn in Hn. assert (n = 2) as -> by lia.
    destruct H as (x & y & E & Hx & (z & y' & -> & Hz & ->)).
    destruct (ab_lang_one x Hx) as (v & -> & Hv), (ab_lang_one z Hz) as (u & -> & Hu). rewrite app_nil_r in E.
    destruct v as [|c v]; [|rewrite <- app_assoc in E; injection E as E _; specialize (Hv c (or_introl eq_refl)); subst; discriminate].
    cbn in E. injection E as E. destruct u as [|c u]; [discriminate|]. injection E as E _.
    specialize (Hu c (or_introl eq_refl)). subst. discriminate.
  Qed.
End One.
