(** Construction of the automata and what the simulator answers on them. *)
From Verif Require Import Base RegexModel SpecRegex RegexTokProofs RegexPrintProofs RegexParseProofs RegexProofs
  NfaModel SpecNfa NfaCompileProofs NfaLangProofs NfaSimProofs NfaMachineProofs NfaTermProofs LexerModel.

(** ** Shape of parsed regexes *)

(** Contains [EEmpty]. *)
Fixpoint has_void (e : expr) : bool :=
  match e with
  | EConcat es => existsb has_void es
  | EEmpty => true
  | EAlt l r => has_void l || has_void r
  | ELit _ _ => false
  | EGroup e _ => has_void e
  end.

Lemma parser_void : forall fuel,
  (forall s e s', p_expression fuel s = POk e s' -> has_void e = false) /\
  (forall s es s', p_sub_expression fuel s = POk es s' -> existsb has_void es = false) /\
  (forall acc s es s', p_sub_loop fuel acc s = POk es s' -> existsb has_void acc = false -> existsb has_void es = false) /\
  (forall s e s', p_sub_item fuel s = POk e s' -> has_void e = false) /\
  (forall s e s', p_group fuel s = POk e s' -> has_void e = false).
Proof.
  induction fuel as [|fuel (IHe & IHs & IHl & IHi & IHg)]; [repeat split; discriminate|].
  split; [|split; [|split; [|split]]].
  - intros s e s'. cbn [p_expression].
    destruct (p_sub_expression fuel s) as [lhs s1| | |] eqn:E1; cbn [pbind]; try discriminate.
    apply IHs in E1.
    assert (Hc : has_void (concat_of lhs) = false).
    { destruct lhs as [|a [|b r]]; cbn in *; [reflexivity| |assumption]. rewrite orb_false_r in E1. assumption. }
    unfold p_peek, p_next. destruct (ps_toks s1) as [|[[k pos]|] r]; try discriminate.
    { intros [= <- _]. assumption. }
    destruct k as [k|o|q|c|]; try (intros [= <- _]; assumption). destruct o; try (intros [= <- _]; assumption).
    destruct (p_expression fuel _) as [rhs s3| | |] eqn:E3; cbn [pbind]; try discriminate. apply IHe in E3.
    intros [= <- _]. cbn. rewrite Hc, E3. reflexivity.
  - intros s es s'. cbn [p_sub_expression]. unfold p_peek.
    destruct (ps_toks s) as [|[t|] r]; try discriminate.
    + intros H. exfalso. eapply err_here_not_ok. exact H.
    + intros H. apply IHl in H; [assumption|reflexivity].
  - intros acc s es s' H Hacc. revert H. cbn [p_sub_loop]. unfold p_peek.
    assert (Hrec : pbind (p_sub_item fuel s) (fun e s' => p_sub_loop fuel (acc ++ [e]) s') = POk es s' ->
              existsb has_void es = false).
    { destruct (p_sub_item fuel s) as [e s1| | |] eqn:Ei; cbn [pbind]; try discriminate. apply IHi in Ei.
      intros H. apply IHl in H; [assumption|]. rewrite existsb_app, Hacc. cbn. rewrite Ei. reflexivity. }
    destruct (ps_toks s) as [|[[k pos]|] r]; try discriminate; [intros [= <- _]; assumption|].
    destruct k as [k|o|q|c|]; try exact Hrec. destruct o; try exact Hrec; intros [= <- _]; assumption.
  - intros s e s'. cbn [p_sub_item]. unfold p_peek.
    assert (Hm : p_match fuel s = POk e s' -> has_void e = false).
    { intros H. destruct (match_ok _ _ _ _ H) as (l & q & -> & _). reflexivity. }
    destruct (ps_toks s) as [|[[k pos]|] r]; try discriminate; try (intros H; exfalso; eapply err_here_not_ok; exact H).
    destruct k as [k|o|q|c|]; try exact Hm. destruct o; try exact Hm. apply IHg.
  - intros s e s'. cbn [p_group]. unfold p_next.
    destruct (ps_toks s) as [|[[k pos]|] r]; try discriminate; try (intros H; exfalso; eapply err_here_not_ok; exact H).
    destruct k as [k|o|q|c|]; try (intros H; exfalso; eapply err_here_not_ok; exact H).
    destruct o; try (intros H; exfalso; eapply err_here_not_ok; exact H).
    destruct (p_expression fuel _) as [e1 s2| | |] eqn:E1; cbn [pbind]; try discriminate. apply IHe in E1.
    destruct (ps_toks s2) as [|[[k2 pos2]|] r2]; try discriminate; try (intros H; exfalso; eapply err_here_not_ok; exact H).
    destruct k2 as [k2|o|q|c|]; try (intros H; exfalso; eapply err_here_not_ok; exact H).
    destruct o; try (intros H; exfalso; eapply err_here_not_ok; exact H).
    destruct (p_quantifier _) as [q s4| | |]; cbn [pbind]; try discriminate. intros [= <- _]. assumption.
Qed.

Lemma size_tokens : forall e, has_void e = false -> has_empty e = false -> size e + 1 <= length (expr_tokens e).
Proof.
  induction e as [|e IH|e e2 es IH1 IH2| |l r IHl IHr|l q|e q IH] using expr_seq_ind; intros Hv He.
  - discriminate.
  - cbn in Hv, He |- *. rewrite orb_false_r in Hv, He. rewrite app_nil_r. auto.
  - rewrite size_seq. cbn in Hv, He. apply orb_false_iff in Hv. apply orb_false_iff in He.
    destruct Hv as [Hv1 Hv2], He as [He1 He2]. specialize (IH1 Hv1 He1). specialize (IH2 Hv2 He2).
    change (expr_tokens (EConcat (e :: e2 :: es))) with (expr_tokens e ++ expr_tokens (EConcat (e2 :: es))).
    rewrite app_length. lia.
  - discriminate.
  - cbn in Hv, He |- *. apply orb_false_iff in Hv. apply orb_false_iff in He. destruct Hv as [Hv1 Hv2], He as [He1 He2].
    specialize (IHl Hv1 He1). specialize (IHr Hv2 He2). rewrite app_length. cbn. lia.
  - cbn [expr_tokens size]. rewrite app_length. pose proof (lit_tokens_pos l). destruct q; cbn; lia.
  - cbn in Hv, He. specialize (IH Hv He). destruct q; cbn [size expr_tokens]; repeat (rewrite app_length; cbn [length]); cbn; lia.
Qed.

Lemma parsed_size {env : Env} w e : regex_parse w = Val (ParseOk e) -> has_empty e = false -> size e <= length w.
Proof.
  intros H He. pose proof (tokens_length w) as Hl. destruct (regex_parse_ok _ _ H) as (rest & Hh & _). apply holds_length in Hh.
  revert H. unfold regex_parse, p_parse, p_peek. cbn [ps_toks]. destruct (tokens_of w) as [|[t|] r] eqn:Et; try discriminate.
  - intros [= <-]. cbn. lia.
  - destruct (p_expression _ _) as [e' s'| | |] eqn:E; try discriminate. intros [= ->].
    apply (proj1 (parser_void _)) in E. pose proof (size_tokens e E He). lia.
Qed.

(** ** Construction *)

Lemma machine_new b : wfb b -> nfa_start b = 0 -> 1 <= nstates b -> (forall x, ~ has_edge b x) ->
  (forall j, fin_of b j = Some true <-> 1 <= j < nstates b) -> machine b (nstates b) [].
Proof.
  intros Hw Hs Hn He Hf. split; try assumption.
  - cbn. lia.
  - intros x. split; [intros H; destruct (He _ H)|]. intros (e & n & f & [] & _).
  - intros j. rewrite Hf. split; [auto|]. intros [H|(e & n & [])]; assumption.
  - intros e [].
Qed.

Lemma machine_add b k l e : machine b k l -> has_empty e = false ->
  exists b', compile_expr e (fst (add_state b true)) 0 (nstates b) = Val b' /\ machine b' k (l ++ [e]).
Proof.
  intros Hm He. destruct (add_state_spec b true (mc_wfb _ _ _ Hm)) as (_ & W1 & N1 & S1 & E1 & F1).
  pose proof (mc_pos _ _ _ Hm) as Hk. pose proof (mc_size _ _ _ Hm) as Hsz.
  destruct (compile_spec e (fst (add_state b true)) 0 (nstates b) He W1 ltac:(lia)) as (b' & Hb' & W2 & N2 & S2 & E2 & F2).
  exists b'. split; [assumption|].
  assert (Hsum : list_sum (map (fun e => S (size e)) (l ++ [e])) = list_sum (map (fun e => S (size e)) l) + S (size e)).
  { rewrite map_app, list_sum_app. cbn. lia. }
  split.
  - assumption.
  - rewrite S2, S1. apply Hm.
  - assumption.
  - rewrite Hsum. lia.
  - intros x. rewrite E2, E1, (mc_edges _ _ _ Hm), placement_app. cbn zeta. rewrite <- Hsz, N1. split.
    + intros [H|(e' & n & f & Hin & H)].
      * exists e, (S (nstates b)), (nstates b). split; [apply in_or_app; right; left; reflexivity|assumption].
      * exists e', n, f. split; [apply in_or_app; left; assumption|assumption].
    + intros (e' & n & f & Hin & H). apply in_app_or in Hin. destruct Hin as [Hin|[[= <- <- <-]|[]]]; [right; eauto|auto].
  - intros j. rewrite F2, F1, N1, placement_app. cbn zeta. rewrite <- Hsz.
    destruct ((S (nstates b) <=? j) && (j <? S (nstates b) + size e)) eqn:Er.
    + apply andb_true_iff in Er. destruct Er as [Er _]. apply Nat.leb_le in Er. split; [discriminate|].
      intros [H|(e' & n & H)]; [lia|]. apply in_app_or in H. destruct H as [H|[[= _ _ <-]|[]]]; [|lia].
      apply placement_in in H. lia.
    + destruct (Nat.eqb_spec j (nstates b)) as [->|Hne].
      * split; [|reflexivity]. intros _. right. exists e, (S (nstates b)). apply in_or_app. right. left. reflexivity.
      * rewrite (mc_fin _ _ _ Hm). split.
        -- intros [H|(e' & n & H)]; [auto|]. right. exists e', n. apply in_or_app. auto.
        -- intros [H|(e' & n & H)]; [auto|]. right. exists e', n. apply in_app_or in H.
           destruct H as [H|[[= _ _ <-]|[]]]; [assumption|congruence].
  - intros e' H. apply in_app_or in H. destruct H as [H|[<-|[]]]; [|assumption]. apply (mc_ok _ _ _ Hm). assumption.
Qed.

Lemma nfa_from_machine e : has_empty e = false -> exists m, nfa_from e = Val m /\ machine m 1 [e].
Proof.
  intros He.
  assert (Hm : machine (builder_new false) 1 []).
  { apply (machine_new (builder_new false)); try reflexivity.
    - intros [[s i] t] (st & ts & H & Hin & _). unfold get_state in H. cbn in H.
      destruct s; [|discriminate]. injection H as <-. destruct Hin.
    - intros j. cbn. destruct j as [|j]; cbn; (split; [discriminate|lia]). }
  destruct (machine_add _ _ _ e Hm He) as (b' & Hb' & Hm'). exists b'. split; [|assumption].
  unfold nfa_from. unfold compiler_new. cbn in Hb' |- *. unfold add_expression. cbn. rewrite Hb'. cbn.
  apply (machine_wf _ _ _ Hm').
Qed.

Lemma nfa_from_panic e : has_empty e = true -> nfa_from e = Panic.
Proof.
  intros He. unfold nfa_from.
  destruct compiler_new_spec as (b0 & E & Hw0 & Hn0 & Hs0 & _). rewrite E. cbn [bind]. unfold add_expression. cbn [co_nfa co_final].
  rewrite (compile_empty e b0 _ 1 He Hw0); [reflexivity|]. rewrite Hs0, Hn0. lia.
Qed.

Lemma nfa_from_ok e m : nfa_from e = Val m -> has_empty e = false /\ machine m 1 [e].
Proof.
  intros H. destruct (has_empty e) eqn:He; [rewrite (nfa_from_panic e He) in H; discriminate|].
  destruct (nfa_from_machine e He) as (m' & H' & Hm). split; [reflexivity|]. congruence.
Qed.

(** ** Token lists *)

Section Tokens.
  Context {env : Env} {K : Type}.
  Notation lexgen := (lexgen K).

  (** The builder after adding tokens with regexes [l] and generators [gs]. *)
  Definition gen_state (lg : lexgen) (l : list expr) (gs : list (generator K)) : Prop :=
    machine (co_nfa (lg_compiler lg)) 2 l /\
    lg_tokens lg = combine (map snd (placement 2 l)) gs /\ length gs = length l.

  Lemma gen_new : exists lg, lexgen_new = Val lg /\ gen_state lg [] [].
  Proof.
    destruct compiler_new_spec as (b & E & Hw & Hn & Hs & He & Hf). unfold lexgen_new. rewrite E. cbn [bind].
    eexists. split; [reflexivity|]. split; [|split; reflexivity]. cbn [lg_compiler co_nfa]. rewrite <- Hn.
    apply machine_new; try assumption; [lia|]. intros j. rewrite Hf, Hn.
    destruct j as [|[|j]]; (split; [try discriminate; lia|try reflexivity; lia]).
  Qed.

  Lemma combine_snoc {A B} (l : list A) (l' : list B) a b : length l = length l' ->
    combine (l ++ [a]) (l' ++ [b]) = combine l l' ++ [(a, b)].
  Proof.
    revert l'. induction l as [|x l IH]; intros [|y l'] H; try discriminate; [reflexivity|].
    cbn in *. rewrite IH by congruence. reflexivity.
  Qed.

  Lemma gen_add lg l gs p g : gen_state lg l gs ->
    match regex_parse p with
    | Val (ParseOk e) =>
        if has_empty e then add_token lg p g = Panic
        else exists lg', add_token lg p g = Val (inl lg') /\ gen_state lg' (l ++ [e]) (gs ++ [g])
    | Val (ParseErr errs) => add_token lg p g = Val (inr errs)
    | Panic => add_token lg p g = Panic
    | Diverge => False
    end.
  Proof.
    intros (Hm & Ht & Hl). pose proof (regex_parse_total p) as Htot.
    unfold add_token, new_final. destruct (add_state (co_nfa (lg_compiler lg)) true) as [b f] eqn:Ea.
    pose proof (add_state_spec (co_nfa (lg_compiler lg)) true (mc_wfb _ _ _ Hm)) as Hsp. rewrite Ea in Hsp. cbn [fst snd] in Hsp.
    destruct Hsp as (-> & W & N & S1 & _).
    destruct (regex_parse p) as [[e|errs]| |]; cbn [bind]; [|reflexivity|reflexivity|congruence].
    unfold add_expression. cbn [co_nfa co_final]. rewrite S1, (mc_start _ _ _ Hm).
    destruct (has_empty e) eqn:He.
    - rewrite (compile_empty e b 0 _ He W); [reflexivity|]. lia.
    - destruct (machine_add _ _ _ e Hm He) as (b' & Hb' & Hm'). rewrite Ea in Hb'. cbn [fst] in Hb'. rewrite Hb'. cbn [bind].
      eexists. split; [reflexivity|]. split; [assumption|]. split; [|rewrite !app_length, Hl; reflexivity].
      cbn [lg_tokens]. rewrite placement_app, map_app. cbn zeta. cbn [map snd].
      rewrite combine_snoc, Ht, (mc_size _ _ _ Hm); [reflexivity|]. rewrite map_length, placement_length. congruence.
  Qed.

  Lemma gen_adds : forall ts lg l gs lg', gen_state lg l gs -> add_tokens lg ts = Val (inl lg') ->
    exists es, Forall2 (fun t e => regex_parse (fst t) = Val (ParseOk e)) ts es /\ gen_state lg' (l ++ es) (gs ++ map snd ts).
  Proof.
    induction ts as [|[p g] ts IH]; intros lg l gs lg' Hg H; cbn [add_tokens] in H.
    - injection H as <-. exists []. rewrite !app_nil_r. split; [constructor|assumption].
    - pose proof (gen_add lg l gs p g Hg) as Ha. destruct (regex_parse p) as [[e|errs]| |] eqn:Ep;
        [|rewrite Ha in H; discriminate|rewrite Ha in H; discriminate|destruct Ha].
      destruct (has_empty e) eqn:He; [rewrite Ha in H; discriminate|]. destruct Ha as (lg1 & Ha & Hg1). rewrite Ha in H.
      cbn [bind] in H. destruct (IH _ _ _ _ Hg1 H) as (es & Hes & Hg').
      exists (e :: es). rewrite <- app_assoc in Hg'. cbn [map snd]. rewrite <- app_assoc in Hg'. split; [|assumption]. constructor; assumption.
  Qed.
End Tokens.

(** ** Feeding texts *)

Definition finite (P : run -> Prop) : Prop := exists U, forall x, P x -> In x U.

Lemma finite_incl P U : (forall x : run, P x -> In x U) -> exists U', (forall x, P x -> In x U') /\ length U' <= length U.
Proof. intros H. exists U. auto. Qed.

Section Feed.
  Context {env : Env}.

  Section Order.
    Context {ho : HashOrder}.

    Lemma feed_each_spec m fuel w : wf_nfa m -> forall rs l, runs_ok m rs -> feed_each fuel m rs w = Val l ->
      runs_ok m l /\ forall x, In x l <-> after m (fun r => In r rs) w x.
    Proof.
      intros Hwf. induction w as [|c w IH]; intros rs l Hr H; cbn [feed_each] in H.
      - injection H as <-. split; [assumption|]. intros x. reflexivity.
      - unfold sim_feed in H. destruct (feed_runs fuel m rs c) as [rs'| |] eqn:E; try discriminate. cbn [bind] in H.
        pose proof (feed_runs_ok _ _ _ _ _ Hwf Hr E) as Hr'.
        destruct (sim_accepting_spec m rs' Hr') as (b & Hb & _). rewrite Hb in H. cbn [bind] in H.
        destruct (IH _ _ Hr' H) as [H1 H2]. split; [assumption|]. intros x. rewrite H2. cbn [after]. apply after_ext.
        intros y. apply (feed_runs_spec m fuel rs c rs' Hwf Hr E).
    Qed.

    Lemma sim_text_spec m fuel w l : wf_nfa m -> sim_text fuel m w = Val l ->
      runs_ok m l /\ forall x, In x l <-> after m (init m) w x.
    Proof.
      intros Hwf H. unfold sim_text in H. destruct (sim_new fuel m) as [rs| |] eqn:E; try discriminate. cbn [bind] in H.
      destruct (sim_new_spec m fuel rs Hwf E) as [H1 H2]. destruct (feed_each_spec m fuel w Hwf rs l H1 H) as [H3 H4].
      split; [assumption|]. intros x. rewrite H4. apply after_ext. exact H2.
    Qed.

    Lemma feed_each_no_panic m fuel w : wf_nfa m -> forall rs, runs_ok m rs -> feed_each fuel m rs w <> Panic.
    Proof.
      intros Hwf. induction w as [|c w IH]; intros rs Hr; cbn [feed_each]; [discriminate|].
      unfold sim_feed. pose proof (feed_runs_no_panic m fuel rs c Hwf Hr) as Hp.
      destruct (feed_runs fuel m rs c) as [rs'| |] eqn:E; cbn [bind]; [|congruence|discriminate].
      pose proof (feed_runs_ok _ _ _ _ _ Hwf Hr E) as Hr'.
      destruct (sim_accepting_spec m rs' Hr') as (b & Hb & _). rewrite Hb. cbn [bind]. apply IH. assumption.
    Qed.
    Lemma sim_new_no_panic m fuel : wf_nfa m -> sim_new fuel m <> Panic.
    Proof.
      intros Hwf. unfold sim_new. pose proof (static_no_panic m fuel Hwf). destruct (static_closure _ _ _); cbn; congruence.
    Qed.
    Lemma sim_text_no_panic m fuel w : wf_nfa m -> sim_text fuel m w <> Panic.
    Proof.
      intros Hwf. unfold sim_text. pose proof (sim_new_no_panic m fuel Hwf).
      destruct (sim_new fuel m) as [rs| |] eqn:E; cbn [bind]; [|congruence|discriminate].
      apply feed_each_no_panic; [assumption|]. eapply sim_new_spec; eassumption.
    Qed.

    (** [feed_str] is [feed] over and over (C46). *)
    Lemma feed_str_each m fuel w : forall rs last,
      (match last with Some b => sim_accepting m rs = Val b | None => True end) ->
      feed_str_from fuel m rs last w =
      (let! l := feed_each fuel m rs w in let! b := sim_accepting m l in Val (l, b)).
    Proof.
      induction w as [|c w IH]; intros rs last Hl; cbn [feed_str_from feed_each bind].
      - destruct last as [b|]; [rewrite Hl; reflexivity|]. reflexivity.
      - unfold sim_feed. destruct (feed_runs fuel m rs c) as [rs'| |]; cbn [bind]; try reflexivity.
        destruct (sim_accepting m rs') as [b| |] eqn:Eb; cbn [bind]; try reflexivity. apply IH. assumption.
    Qed.

    Lemma simulate_text m fuel w : simulate fuel m w = let! l := sim_text fuel m w in sim_accepting m l.
    Proof.
      unfold simulate, sim_text, feed_str. destruct (sim_new fuel m) as [rs| |]; cbn [bind]; try reflexivity.
      rewrite feed_str_each by exact I. destruct (feed_each fuel m rs w) as [l| |]; cbn [bind]; try reflexivity.
      destruct (sim_accepting m l); reflexivity.
    Qed.

    Lemma simulate_val m fuel w b : wf_nfa m -> simulate fuel m w = Val b ->
      (b = true <-> exists x, after m (init m) w x /\ final m x).
    Proof.
      intros Hwf H. rewrite simulate_text in H. destruct (sim_text fuel m w) as [l| |] eqn:E; try discriminate. cbn [bind] in H.
      destruct (sim_text_spec m fuel w l Hwf E) as [H1 H2]. destruct (sim_accepting_spec m l H1) as (b' & Hb & Hb').
      assert (b' = b) as -> by congruence. rewrite Hb'. split; intros (x & Hx & Hf); exists x; (split; [apply H2|]; assumption).
    Qed.

    (** Feeding works once the fuel covers all the runs on the way. *)
    Lemma feed_each_total m fuel w : wf_nfa m -> forall (R : run -> Prop) rs, runs_ok m rs ->
      (forall x, In x rs <-> R x) ->
      (forall v c u, w = v ++ c :: u -> exists U, (forall x, after m R (v ++ [c]) x -> In x U) /\ length U <= fuel) ->
      exists l, feed_each fuel m rs w = Val l.
    Proof.
      intros Hwf. induction w as [|c w IH]; intros R rs Hr HR HU; cbn [feed_each]; [eauto|].
      destruct (HU [] c w eq_refl) as (U & HU1 & HU2). cbn [app after] in HU1.
      destruct (feed_runs_total m U fuel rs c Hwf Hr) as (rs' & E); [|assumption|].
      { intros x Hx. apply HU1. eapply fed_ext; [|exact Hx]. intros y. symmetry. apply HR. }
      unfold sim_feed. rewrite E. cbn [bind]. pose proof (feed_runs_ok _ _ _ _ _ Hwf Hr E) as Hr'.
      destruct (sim_accepting_spec m rs' Hr') as (b & Hb & _). rewrite Hb. cbn [bind].
      apply (IH (fed m R c)); [assumption| |].
      - intros x. rewrite (feed_runs_spec m fuel rs c rs' Hwf Hr E). apply fed_ext. assumption.
      - intros v c' u ->. exact (HU (c :: v) c' u eq_refl).
    Qed.
  End Order.

  (** A bound on the fuel that depends only on the sets of runs. *)
  Lemma prefix_bound {A} (P : list char -> list A -> Prop) (w : list char) :
    (forall v u, w = v ++ u -> exists U, P v U) ->
    exists N, forall v u, w = v ++ u -> exists U, P v U /\ length U <= N.
  Proof.
    revert P. induction w as [|c w IH]; intros P H.
    - destruct (H [] [] eq_refl) as (U & HU). exists (length U). intros v u E. destruct v; [|discriminate]. eauto.
    - destruct (H [] (c :: w) eq_refl) as (U & HU).
      destruct (IH (fun v U => P (c :: v) U)) as (N & HN).
      { intros v u ->. exact (H (c :: v) u eq_refl). }
      exists (length U + N). intros v u E. destruct v as [|c' v].
      + exists U. split; [assumption|lia].
      + injection E as <- E. destruct (HN v u E) as (U' & HU' & Hl). exists U'. split; [assumption|lia].
  Qed.

  Lemma sim_text_total m w : wf_nfa m -> (forall v u, w = v ++ u -> finite (after m (init m) v)) ->
    exists N, forall (ho : HashOrder) fuel, N <= fuel -> exists l, sim_text fuel m w = Val l.
  Proof.
    intros Hwf Hfin. destruct (prefix_bound (fun v U => forall x, after m (init m) v x -> In x U) w Hfin) as (N & HN).
    exists (length (nfa_states m) + N). intros ho fuel Hf. unfold sim_text.
    destruct (static_closure_total m fuel Hwf) as (ps & Hps); [lia|].
    assert (E : sim_new fuel m = Val (map (fun i => {| r_state := i; r_cnt := [] |}) ps)) by (unfold sim_new; rewrite Hps; reflexivity).
    rewrite E. cbn [bind]. destruct (sim_new_spec m fuel _ Hwf E) as [H1 H2].
    apply (feed_each_total m fuel w Hwf (init m)); [assumption|exact H2|].
    intros v c u ->. destruct (HN (v ++ [c]) u) as (U & HU & Hl); [rewrite <- app_assoc; reflexivity|].
    exists U. split; [assumption|lia].
  Qed.

  Lemma feed_each_prefix {ho : HashOrder} m fuel v : forall u rs l, feed_each fuel m rs (v ++ u) = Val l ->
    exists l', feed_each fuel m rs v = Val l'.
  Proof.
    induction v as [|c v IH]; intros u rs l H; cbn [app feed_each] in *; [eauto|].
    destruct (sim_feed fuel m rs c) as [[rs' b]| |]; try discriminate. cbn [bind] in *. eapply IH. eassumption.
  Qed.
  Lemma sim_text_prefix {ho : HashOrder} m fuel v u l : sim_text fuel m (v ++ u) = Val l ->
    exists l', sim_text fuel m v = Val l'.
  Proof.
    unfold sim_text. destruct (sim_new fuel m); cbn [bind]; try discriminate. apply feed_each_prefix.
  Qed.

  (** The answers depend on the set of runs only. *)
  Lemma accepting_set m l l' : runs_ok m l -> (forall x, In x l <-> In x l') -> sim_accepting m l = sim_accepting m l'.
  Proof.
    intros H E. assert (H' : runs_ok m l') by (intros r Hr; apply H, E, Hr).
    destruct (sim_accepting_spec m l H) as (b & -> & Hb). destruct (sim_accepting_spec m l' H') as (b' & -> & Hb').
    f_equal. apply eq_true_iff_eq. rewrite Hb, Hb'. split; intros (r & Hr & Hf); exists r; (split; [apply E|]; assumption).
  Qed.
  Lemma can_feed_set m l l' c : runs_ok m l -> (forall x, In x l <-> In x l') -> sim_can_feed m l c = sim_can_feed m l' c.
  Proof.
    intros H E. assert (H' : runs_ok m l') by (intros r Hr; apply H, E, Hr).
    destruct (sim_can_feed_spec m l c H) as (b & -> & Hb). destruct (sim_can_feed_spec m l' c H') as (b' & -> & Hb').
    f_equal. apply eq_true_iff_eq. rewrite Hb, Hb'.
    split; intros (r & st & i & ts & Hr & Hf); exists r, st, i, ts; (split; [apply E|]; assumption).
  Qed.
  Lemma final_states_set m l l' : (forall x, In x l <-> In x l') -> sim_final_states m l = sim_final_states m l'.
  Proof.
    intros E. destruct (sim_final_states_spec m l) as [S1 H1], (sim_final_states_spec m l') as [S2 H2].
    eapply sorted_ids_eq; [eassumption|eassumption|]. intros x. rewrite H1, H2.
    split; (intros [Hx (r & Hr & Hs)]; split; [assumption|]; exists r; split; [apply E|]; assumption).
  Qed.

  Lemma text_orders m w (ho1 ho2 : HashOrder) fuel l1 : wf_nfa m -> @sim_text env ho1 fuel m w = Val l1 ->
    exists N, forall fuel', N <= fuel' -> exists l2, @sim_text env ho2 fuel' m w = Val l2 /\
      (forall x, In x l1 <-> In x l2).
  Proof.
    intros Hwf H. destruct (sim_text_total m w Hwf) as (N & HN).
    - intros v u ->. destruct (sim_text_prefix m fuel v u l1 H) as (l & Hl). exists l. intros x Hx.
      apply (sim_text_spec m fuel v l Hwf Hl). assumption.
    - exists N. intros fuel' Hf. destruct (HN ho2 fuel' Hf) as (l2 & Hl2). exists l2. split; [assumption|]. intros x.
      rewrite (proj2 (sim_text_spec m fuel w l1 Hwf H)), (proj2 (sim_text_spec m fuel' w l2 Hwf Hl2)). reflexivity.
  Qed.

  (** ** Termination *)

  (** No run after a part of the text stands at a bad state. *)
  Lemma machine_safe_finite m k l w : machine m k l ->
    (forall v c u x, w = v ++ c :: u -> after m (init m) (v ++ [c]) x -> ~ mbads k l (r_state x)) ->
    exists L, (forall x, In x L <-> after m (init m) w x) /\ forall r, In r L -> vrun m k l r.
  Proof.
    intros Hm. rewrite <- (rev_involutive w). induction (rev w) as [|c v IH]; cbn [rev]; intros Hnb.
    - apply (init_finite m k l Hm).
    - destruct IH as (L & HL & Hv).
      { intros v' c' u x E. apply (Hnb v' c' (u ++ [c])). rewrite E, <- app_assoc. reflexivity. }
      assert (Hfed : forall x, fed m (fun r => In r L) c x <-> after m (init m) (rev v ++ [c]) x).
      { intros x. rewrite after_app. cbn [after]. apply fed_ext. exact HL. }
      destruct (fed_finite m k l Hm L c Hv) as (L' & HL' & Hv').
      { intros x Hx. apply Hfed in Hx. eapply Hnb; [reflexivity|exact Hx]. }
      exists L'. split; [|assumption]. intros x. rewrite HL'. apply Hfed.
  Qed.
  Lemma machine_after_finite m k l w : machine m k l -> (forall e, In e l -> loops_ok e = true) ->
    exists L, (forall x, In x L <-> after m (init m) w x) /\ forall r, In r L -> vrun m k l r.
  Proof. intros Hm Hloops. apply machine_safe_finite; [assumption|]. intros v c u x _ _. apply loops_mbads. assumption. Qed.

  Lemma machine_total m k l w : machine m k l -> (forall e, In e l -> loops_ok e = true) ->
    exists N, forall (ho : HashOrder) fuel, N <= fuel -> exists rs, sim_text fuel m w = Val rs.
  Proof.
    intros Hm Hloops. apply sim_text_total; [apply (machine_wf _ _ _ Hm)|]. intros v u _.
    destruct (machine_after_finite m k l v Hm Hloops) as (L & HL & _). exists L. intros x Hx. apply HL. assumption.
  Qed.

  Lemma simulate_total m w N (ho : HashOrder) fuel : wf_nfa m ->
    (forall (ho : HashOrder) fuel, N <= fuel -> exists rs, sim_text fuel m w = Val rs) -> N <= fuel ->
    exists b, simulate fuel m w = Val b.
  Proof.
    intros Hwf H Hf. rewrite simulate_text. destruct (H ho fuel Hf) as (rs & E). rewrite E. cbn [bind].
    destruct (sim_accepting_spec m rs) as (b & -> & _); [|eauto]. eapply sim_text_spec; eassumption.
  Qed.

  (** ** The language of one regex *)

  Lemma simulate_impl (ho : HashOrder) e m fuel w b : nfa_from e = Val m -> simulate fuel m w = Val b ->
    (b = true <-> impl_lang e w).
  Proof.
    intros H Hs. destruct (nfa_from_ok e m H) as [He Hm]. pose proof (machine_wf _ _ _ Hm) as [_ Hwf].
    rewrite (simulate_val m fuel w b Hwf Hs).
    rewrite <- (machine_lang m 1 [e] e 2 1 w Hm (or_introl eq_refl)).
    split; intros (x & Hx & Hf); exists x; (split; [assumption|]).
    - unfold final in Hf. apply (mc_fin _ _ _ Hm) in Hf. destruct Hf as [Hf|(e' & n & [[= _ _ <-]|[]])]; [lia|reflexivity].
    - unfold final. rewrite Hf. apply (mc_fin _ _ _ Hm). right. exists e, 2. left. reflexivity.
  Qed.

  (** ** [can_feed] *)

  (** Every transition has a destination. *)
  Definition targets_ok (m : nfa) : Prop :=
    forall st i ts, In st (nfa_states m) -> In (i, ts) (st_trans st) -> ts <> [].

  Lemma trans_insert_targets i t l : (forall j ts, In (j, ts) l -> ts <> []) ->
    forall j ts, In (j, ts) (trans_insert i t l) -> ts <> [].
  Proof.
    intros H. induction l as [|[k us] l IH]; cbn [trans_insert]; intros j ts Hin.
    - destruct Hin as [[= _ <-]|[]]. discriminate.
    - destruct (input_eq_dec i k).
      + destruct Hin as [[= _ <-]|Hin]; [|eapply H; right; eassumption].
        intros E. assert (X : In t (set_insert t us)) by (apply set_insert_in; auto). rewrite E in X. destruct X.
      + destruct Hin as [[= <- <-]|Hin]; [eapply H; left; reflexivity|]. eapply IH; [|eassumption].
        intros j' ts' H'. eapply H. right. eassumption.
  Qed.

  Lemma add_transition_targets b s t i b' : targets_ok b -> add_transition b s t i = Val b' -> targets_ok b'.
  Proof.
    intros H. unfold add_transition. destruct (update_state s (trans_insert i t) (nfa_states b)) as [l|] eqn:E; [|discriminate].
    intros [= <-]. unfold targets_ok in *. cbn [nfa_states]. revert l E H.
    induction (nfa_states b) as [|st r IH]; intros l E H; cbn [update_state] in E; [discriminate|].
    destruct (st_id st =? s).
    - injection E as <-. intros st' j ts [<-|Hst] Hin.
      + cbn in Hin. eapply trans_insert_targets; [|exact Hin]. intros j' ts' H'. eapply H; [left; reflexivity|eassumption].
      + eapply H; [right|]; eassumption.
    - destruct (update_state s (trans_insert i t) r) as [r'|] eqn:E'; [|discriminate]. injection E as <-.
      intros st' j ts [<-|Hst] Hin; [eapply H; [left; reflexivity|eassumption]|].
      eapply (IH r' eq_refl); [|eassumption|eassumption]. intros st2 j2 ts2 H2. apply H. right. assumption.
  Qed.
  Lemma add_state_targets b fin : targets_ok b -> targets_ok (fst (add_state b fin)).
  Proof.
    intros H st i ts Hst Hin. cbn in Hst. apply in_app_or in Hst. destruct Hst as [Hst|[<-|[]]]; [eapply H; eassumption|destruct Hin].
  Qed.

  Lemma can_feed_step m rs c : wf_nfa m -> targets_ok m -> runs_ok m rs ->
    exists b, sim_can_feed m rs c = Val b /\ (b = true <-> exists r r', In r rs /\ char_step m c r r').
  Proof.
    intros Hwf Ht Hr. destruct (sim_can_feed_spec m rs c Hr) as (b & Hb & Hb'). exists b. split; [assumption|]. rewrite Hb'. split.
    - intros (r & st & i & ts & Hin & Hst & Hi & Hc). destruct i as [lt| |q]; try discriminate.
      assert (Hts : ts <> []) by (eapply Ht; [apply (get_state_id _ _ _ Hst)|eassumption]).
      destruct ts as [|t ts]; [congruence|]. exists r, (take_transition r t false). split; [assumption|].
      exists lt, t. split; [|split; [exact Hc|reflexivity]]. exists st, (t :: ts). split; [assumption|]. split; [assumption|left; reflexivity].
    - intros (r & r' & Hin & lt & t & (st & ts & Hst & Hi & _) & Hc & _). exists r, st, (ILit lt), ts. auto.
  Qed.

  Lemma dead_feed (ho : HashOrder) m rs c : wf_nfa m -> runs_ok m rs -> (forall r r', In r rs -> ~ char_step m c r r') ->
    forall fuel, feed_runs fuel m rs c = Val [].
  Proof.
    intros Hwf Hr Hd fuel. destruct (feed_runs_total m [] fuel rs c Hwf Hr) as (l & E).
    - intros x (r & r' & Hin & Hc & _). destruct (Hd r r' Hin Hc).
    - cbn. lia.
    - rewrite E. f_equal. destruct l as [|x l]; [reflexivity|]. exfalso.
      destruct (proj1 (feed_runs_spec m fuel rs c _ Hwf Hr E x) (or_introl eq_refl)) as (r & r' & Hin & Hc & _).
      exact (Hd r r' Hin Hc).
  Qed.

  Lemma after_none m u : forall (R : run -> Prop) x, (forall r, ~ R r) -> ~ after m R u x.
  Proof.
    induction u as [|c u IH]; intros R x HR; cbn [after]; [apply HR|]. apply IH. intros r (r1 & r2 & H1 & _). exact (HR _ H1).
  Qed.

  Lemma can_feed_exact (ho : HashOrder) m fuel v rs c : wf_nfa m -> targets_ok m -> sim_text fuel m v = Val rs ->
    exists b, sim_can_feed m rs c = Val b /\
    (forall fuel' l a, sim_feed fuel' m rs c = Val (l, a) -> (b = false <-> l = [])) /\
    (b = false -> forall fuel', sim_feed fuel' m rs c = Val ([], false)) /\
    (b = false -> forall (ho' : HashOrder) fuel' u, simulate fuel' m (v ++ c :: u) <> Val true).
  Proof.
    intros Hwf Ht H. destruct (sim_text_spec m fuel v rs Hwf H) as [Hr Hin].
    destruct (can_feed_step m rs c Hwf Ht Hr) as (b & Hb & Hb'). exists b. split; [assumption|].
    assert (Hdead : b = false -> forall r r', In r rs -> ~ char_step m c r r').
    { intros -> r r' H1 H2. assert (false = true) by (apply Hb'; eauto). discriminate. }
    split; [|split].
    - intros fuel' l a Hf. split.
      + intros Eb. unfold sim_feed in Hf. rewrite (dead_feed ho m rs c Hwf Hr (Hdead Eb)) in Hf. cbn in Hf. congruence.
      + intros ->. unfold sim_feed in Hf. destruct (feed_runs fuel' m rs c) as [l'| |] eqn:E; try discriminate. cbn [bind] in Hf.
        destruct (sim_accepting m l'); try discriminate. cbn [bind] in Hf. injection Hf as -> _.
        destruct b; [|reflexivity]. exfalso. destruct (proj1 Hb' eq_refl) as (r & r' & H1 & H2).
        assert (X : In r' []). { apply (feed_runs_spec m fuel' rs c [] Hwf Hr E). exists r, r'. split; [assumption|]. split; [assumption|constructor]. }
        destruct X.
    - intros Eb fuel'. unfold sim_feed. rewrite (dead_feed ho m rs c Hwf Hr (Hdead Eb)). reflexivity.
    - intros Eb ho' fuel' u Hs. destruct (proj1 (simulate_val m fuel' _ true Hwf Hs) eq_refl) as (x & Hx & _).
      rewrite after_app in Hx. cbn [after] in Hx. eapply after_none; [|exact Hx].
      intros r (r1 & r2 & H1 & H2 & _). apply Hin in H1. exact (Hdead Eb _ _ H1 H2).
  Qed.
End Feed.
