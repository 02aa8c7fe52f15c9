(** The function of SpecAlike.v. *)
From Verif Require Import Base RegexModel SpecRegex NfaModel SpecNfa LexerModel SpecLexer SpecMunch SpecPanic SpecLines GrammarTotal LexerMunch LineProofs
  GrammarModel CfsmModel SlrModel PangoModel PipeProofs FrontProofs SpecKleene KleeneProofs SpecQuery QueryProofs QueryLexer SpecCertify CertifyProofs SpecKinds KindsProofs SpecAlike.

Section Alike.
  Context {env : Env} {K : Type} {dk : DecEq K} (bs : list N) (Hbs : changes bs is_alphabetic).

  Lemma goodb_ok es : goodb bs es = true <-> steady es /\ forall e, In e es -> ~ gapped e /\ loops_ok e = true.
  Proof.
    unfold goodb. rewrite andb_true_iff, forallb_forall, (munching_ok bs Hbs). apply and_iff_compat_l.
    split; intros H e He; specialize (H e He).
    - rewrite andb_true_iff, negb_true_iff in H. destruct H as (H1 & H2). split; [|exact H2]. intros Hg. apply gapb_ok in Hg. congruence.
    - rewrite andb_true_iff, negb_true_iff. destruct H as (H1 & H2). split; [|exact H2]. apply Bool.not_true_iff_false. rewrite gapb_ok. exact H1.
  Qed.

  Lemma in_entries : forall es (gens : list (generator K)) before b p k,
    In (b, p, k) (entries before es gens) <-> exists i, nth_error es i = Some p /\ nth_error gens i = Some k /\ b = before ++ firstn i es.
  Proof.
    induction es as [|x es IH]; intros gens before b p k.
    { cbn. split; [contradiction|]. intros (i & H & _). destruct i; discriminate. }
    destruct gens as [|g gens]; cbn [entries In].
    { split; [contradiction|]. intros (i & _ & H & _). destruct i; discriminate. }
    rewrite IH. split.
    - intros [E|(i & H1 & H2 & ->)].
      + injection E as -> -> ->. exists 0. cbn. rewrite app_nil_r. auto.
      + exists (S i). cbn. rewrite <- app_assoc. auto.
    - intros ([|i] & H1 & H2 & ->); cbn in H1, H2.
      + left. cbn. rewrite app_nil_r. congruence.
      + right. exists i. cbn. rewrite <- app_assoc. auto.
  Qed.

  Lemma four_answers r1 r2 r3 r4 phi : exists_text bs [r1; r2; r3; r4] (fun l => match l with [p; q; r; s] => phi p q r s | _ => false end) = true <->
    exists w p q r s, (p = true <-> words r1 w) /\ (q = true <-> words r2 w) /\ (r = true <-> words r3 w) /\ (s = true <-> words r4 w) /\ phi p q r s = true.
  Proof.
    rewrite (exists_text_ok bs Hbs). split.
    - intros (w & l & H & E). inversion H as [|? p ? l1 Hp H1]; subst. inversion H1 as [|? q ? l2 Hq H2]; subst. inversion H2 as [|? r ? l3 Hr H3]; subst.
      inversion H3 as [|? s ? l4 Hs H4]; subst. inversion H4; subst. exists w, p, q, r, s. auto.
    - intros (w & p & q & r & s & Hp & Hq & Hr & Hs & E). exists w, [p; q; r; s]. split; [|exact E]. repeat constructor; apply Hp || apply Hq || apply Hr || apply Hs.
  Qed.
  Lemma both_first_ok a b : both_first (K := K) bs a b = true <-> exists x, x <> [] /\ impl_lang (snd (fst a)) x /\ ~ matched impl_lang (fst (fst a)) x /\
    impl_lang (snd (fst b)) x /\ ~ matched impl_lang (fst (fst b)) x.
  Proof.
    unfold both_first. rewrite (four_answers _ _ _ _ (fun p q r s => p && negb q && r && negb s)). split.
    - intros (w & p & q & r & s & Hp & Hq & Hr & Hs & E). rewrite !andb_true_iff, !negb_true_iff in E. destruct E as (((-> & ->) & ->) & ->).
      rewrite r_some_ok, r_impl_ok in Hp. rewrite r_matched_ok in Hq, Hs. rewrite r_impl_ok in Hr. exists w.
      destruct (proj1 Hp eq_refl) as (P1 & P2). split; [exact P2|]. split; [exact P1|]. split; [intros X; apply Hq in X; discriminate|].
      split; [apply Hr; reflexivity|intros X; apply Hs in X; discriminate].
    - intros (w & H0 & H1 & H2 & H3 & H4). exists w, true, false, true, false. rewrite r_some_ok, !r_impl_ok, !r_matched_ok.
      repeat match goal with |- _ /\ _ => split end; try tauto; split; intros; first [discriminate|contradiction].
  Qed.

  Lemma alikeb_ok es gens es' gens' : alikeb (K := K) bs es gens es' gens' = true <->
    (forall x, x <> [] -> matched impl_lang es x <-> matched impl_lang es' x) /\
    forall x i i' k k', x <> [] -> first_match impl_lang es x i -> first_match impl_lang es' x i' -> nth_error gens i = Some k -> nth_error gens' i' = Some k' ->
      gen_run k [] = gen_run k' [].
  Proof.
    unfold alikeb. rewrite andb_true_iff, negb_true_iff, (differ_ok bs Hbs).
    assert (HA : (forall w, words (r_some (r_matched es)) w <-> words (r_some (r_matched es')) w) <->
      forall x, x <> [] -> matched impl_lang es x <-> matched impl_lang es' x).
    { split; intros H w; specialize (H w); rewrite !r_some_ok, !r_matched_ok in *; tauto. }
    rewrite HA. apply and_iff_compat_l. rewrite forallb_forall. split.
    - intros H x i i' k k' Hx H1 H2 Hk Hk'. apply first_firstn in H1, H2. destruct H1 as ((p & Hp & H1) & N1). destruct H2 as ((p' & Hp' & H2) & N2).
      assert (I1 : In (firstn i es, p, k) (entries [] es gens)) by (apply in_entries; exists i; auto).
      assert (I2 : In (firstn i' es', p', k') (entries [] es' gens')) by (apply in_entries; exists i'; auto).
      specialize (H _ I1). rewrite forallb_forall in H. specialize (H _ I2). cbn [snd] in H. apply orb_prop in H. destruct H as [H|H]; [apply (eqb_eq (gen_run k []) (gen_run k' [])); exact H|].
      apply negb_true_iff in H. assert (X : both_first bs (firstn i es, p, k) (firstn i' es', p', k') = true); [|congruence].
      apply both_first_ok. exists x. cbn [fst snd]. auto.
    - intros H ((b & p) & k) I1. apply forallb_forall. intros ((b' & p') & k') I2. cbn [snd]. apply orb_true_iff.
      destruct (both_first bs (b, p, k) (b', p', k')) eqn:E; [|right; reflexivity]. left. apply both_first_ok in E. destruct E as (x & Hx & H1 & N1 & H2 & N2). cbn [fst snd] in *.
      apply in_entries in I1, I2. destruct I1 as (i & Hp & Hk & ->). destruct I2 as (i' & Hp' & Hk' & ->). cbn [app] in N1, N2.
      apply (eqb_eq (gen_run k []) (gen_run k' [])). apply (H x i i'); auto; apply first_firstn; eauto.
  Qed.

  Lemma impl_known e w : impl_lang e w \/ ~ impl_lang e w.
  Proof. destruct (word_known (r_impl e) w) as ([|] & H); rewrite r_impl_ok in H; [left; apply H; reflexivity|right; intros X; apply H in X; discriminate]. Qed.
  Lemma matched_first es x : matched impl_lang es x -> exists i, first_match impl_lang es x i.
  Proof.
    intros (e & He & Hx). induction es as [|p es IH]; [contradiction|]. destruct (impl_known p x) as [Hp|Hp].
    - exists 0. split; [exists p; auto|]. intros j q Hj. lia.
    - destruct He as [->|He]; [contradiction|]. destruct (IH He) as (i & (q & Hq & Hqx) & Hi). exists (S i). split; [exists q; auto|].
      intros [|j] r Hj Hr; cbn in Hr; [injection Hr as <-; exact Hp|]. apply (Hi j r); [lia|exact Hr].
  Qed.
  Lemma first_matched es x i : first_match impl_lang es x i -> matched impl_lang es x.
  Proof. intros ((p & Hp & Hx) & _). exists p. split; [exact (nth_error_In _ _ Hp)|exact Hx]. Qed.

  Lemma unit_run (gens : list (generator K)) i k x : forallb unit_kind gens = true -> nth_error gens i = Some k -> gen_run k x = gen_run k [].
  Proof. intros H Hk. rewrite forallb_forall in H. specialize (H k (nth_error_In _ _ Hk)). destruct k; [discriminate|reflexivity]. Qed.

  Section Two.
    Context (es es' : list expr) (gens gens' : list (generator K)) (Hl' : length gens' = length es').
    Context (Hu : forallb unit_kind gens = true) (Hu' : forallb unit_kind gens' = true).
    Context (H : (forall x, x <> [] -> matched impl_lang es x <-> matched impl_lang es' x) /\
      forall x i i' k k', x <> [] -> first_match impl_lang es x i -> first_match impl_lang es' x i' -> nth_error gens i = Some k -> nth_error gens' i' = Some k' ->
        gen_run k [] = gen_run k' []).
    Lemma alike_munches input p tks : munches impl_lang es gens input p tks -> munches impl_lang es' gens' input p tks.
    Proof.
      destruct H as (HM & HK). induction 1 as [p He|p x y i g ts Hx Hne Hf Hg Hlong Hm IH].
      - constructor. intros x y E Hn Hm. apply (He x y E Hn). apply HM; assumption.
      - destruct (matched_first es' x) as (i' & Hf'); [apply HM; [exact Hne|exact (first_matched _ _ _ Hf)]|].
        assert (Hi' : i' < length gens') by (rewrite Hl'; destruct Hf' as ((q & Hq & _) & _); apply nth_error_Some; congruence).
        destruct (nth_error gens' i') as [g'|] eqn:Eg'; [|apply nth_error_None in Eg'; lia].
        replace (gen_run g x) with (gen_run g' x).
        + apply (munch_token impl_lang es' gens' input p x y i' g' ts Hx Hne Hf' Eg'); [|exact IH].
          intros x' y' E Hlen Hmm. apply (Hlong x' y' E Hlen). apply HM; [|exact Hmm]. destruct x'; [cbn in Hlen; lia|discriminate].
        + rewrite (unit_run gens' i' g' x Hu' Eg'), (unit_run gens i g x Hu Hg). symmetry. exact (HK x i i' g g' Hne Hf Hf' Hg Eg').
    Qed.
  End Two.

  (** The first token of a text that is matched is the whole text. *)
  Lemma munch_whole es (gens : list (generator K)) x i k : x <> [] -> first_match impl_lang es x i -> nth_error gens i = Some k ->
    forall tks, munches impl_lang es gens x 0 tks -> exists r, tks = {| lt_kind := gen_run k x; lt_source := x; lt_pos := (0, length x) |} :: r.
  Proof.
    intros Hx Hf Hk tks Hm. inversion Hm as [p He|p u v j g r E Hne Hf' Hg Hlong Hr]; subst; cbn [skipn] in *.
    - exfalso. apply (He x []); [symmetry; apply app_nil_r|exact Hx|exact (first_matched _ _ _ Hf)].
    - assert (v = []) as ->.
      { destruct v as [|c v]; [reflexivity|]. exfalso. apply (Hlong x []); [symmetry; apply app_nil_r| |exact (first_matched _ _ _ Hf)].
        rewrite E, app_length. cbn. lia. }
      rewrite app_nil_r in E. subst u. rewrite (first_match_unique _ _ _ _ _ Hf' Hf), Hk in Hg. injection Hg as <-. exists r. reflexivity.
  Qed.
  Lemma munch_matched es (gens : list (generator K)) x k s q r : munches impl_lang es gens x 0 ({| lt_kind := k; lt_source := s; lt_pos := q |} :: r) ->
    exists i g, first_match impl_lang es s i /\ nth_error gens i = Some g /\ k = gen_run g s.
  Proof. intros H. inversion H; subst. eauto. Qed.

  Lemma tokens_unique (lx : lexer K) tks tks' : tokens_are lx tks -> tokens_are lx tks' -> tks = tks'.
  Proof.
    assert (Hle : forall fuel n m (lx0 : lexer K) os l1 os' l2, n <= m -> lex_calls (ho := id_order) fuel n lx0 = Val (os, l1) ->
      lex_calls (ho := id_order) fuel m lx0 = Val (os', l2) -> os = firstn n os').
    { intros fuel. induction n as [|n IH]; intros m lx0 os l1 os' l2 Hnm E1 E2; [cbn in E1; injection E1 as <- _; reflexivity|].
      destruct m as [|m]; [lia|]. cbn [lex_calls] in E1, E2. apply bind_val in E1, E2. destruct E1 as ((o & l3) & A1 & E1). destruct E2 as ((o' & l4) & A2 & E2).
      rewrite A1 in A2. injection A2 as <- <-. apply bind_val in E1, E2. destruct E1 as ((os1 & l5) & B1 & E1). destruct E2 as ((os2 & l6) & B2 & E2).
      injection E1 as <- _. injection E2 as <- _. cbn [firstn]. f_equal. eapply IH; [|exact B1|exact B2]. lia. }
    assert (Hs : forall l l' : list (ltoken K), length l <= length l' -> map Some l ++ [None] = firstn (S (length l)) (map Some l' ++ [None]) -> l = l').
    { induction l as [|t l IH]; intros [|t' l'] Hn E; cbn in *; try lia; [reflexivity|discriminate|]. injection E as -> E. f_equal. apply IH; [lia|exact E]. }
    intros (N & l1 & HN) (N' & l2 & HN'). pose proof (HN id_order (Nat.max N N') ltac:(lia)) as E. pose proof (HN' id_order (Nat.max N N') ltac:(lia)) as E'.
    destruct (Nat.le_ge_cases (length tks) (length tks')) as [Hl|Hl].
    - apply Hs; [exact Hl|]. eapply Hle; [|exact E|exact E']. lia.
    - symmetry. apply Hs; [exact Hl|]. eapply Hle; [|exact E'|exact E]. lia.
  Qed.

  Lemma good_tokens ts es input : parsed ts es -> goodb bs es = true ->
    exists (lx : lexer K) tks, build_lexer ts input = Val (inl lx) /\ munches impl_lang es (map snd ts) input 0 tks /\ tokens_are lx tks.
  Proof.
    intros Hp Hg. apply goodb_ok in Hg. destruct Hg as (Hs & He). destruct (lexer_builds ts es input Hp (fun e X => proj1 (He e X))) as (lx & Hlx).
    destruct (munch_tokens ts input lx es impl_lang Hlx Hp (or_introl eq_refl) Hs (fun e X => proj2 (He e X))) as (tks & H1 & H2). eauto.
  Qed.

  Lemma parsed_length (ts : list (list char * generator K)) es : parsed ts es -> length ts = length es.
  Proof. induction 1; cbn; congruence. Qed.

  Lemma lexers_alike (ts ts' : list (list char * generator K)) es es' : parsed ts es -> parsed ts' es' -> goodb bs es = true -> goodb bs es' = true ->
    forallb unit_kind (map snd ts) = true -> forallb unit_kind (map snd ts') = true ->
    alikeb bs es (map snd ts) es' (map snd ts') = true <->
    forall input, exists lx lx' tks, build_lexer ts input = Val (inl lx) /\ build_lexer ts' input = Val (inl lx') /\ tokens_are lx tks /\ tokens_are lx' tks.
  Proof.
    intros Hp Hp' Hg Hg' Hu Hu'. assert (Hl : length (map snd ts) = length es) by (rewrite map_length; exact (parsed_length ts es Hp)).
    assert (Hl' : length (map snd ts') = length es') by (rewrite map_length; exact (parsed_length ts' es' Hp')). rewrite alikeb_ok. split.
    - intros H input. destruct (good_tokens ts es input Hp Hg) as (lx & tks & B & M & T). destruct (good_tokens ts' es' input Hp' Hg') as (lx' & tks' & B' & M' & T').
      exists lx, lx', tks. split; [exact B|]. split; [exact B'|]. split; [exact T|].
      rewrite <- (munches_unique _ _ _ _ _ _ (alike_munches es es' _ _ Hl' Hu Hu' H input 0 tks M) tks' M'). exact T'.
    - intros H. assert (HM : forall input, exists tks, munches impl_lang es (map snd ts) input 0 tks /\ munches impl_lang es' (map snd ts') input 0 tks).
      { intros input. destruct (good_tokens ts es input Hp Hg) as (lx & tks & B & M & T). destruct (good_tokens ts' es' input Hp' Hg') as (lx' & tks' & B' & M' & T').
        destruct (H input) as (lx1 & lx1' & u & B1 & B1' & T1 & T1'). rewrite B in B1. injection B1 as <-. rewrite B' in B1'. injection B1' as <-.
        exists u. rewrite (tokens_unique lx u tks T1 T) at 1. rewrite (tokens_unique lx' u tks' T1' T'). auto. }
      assert (Hsome : forall (gs : list (generator K)) (qs : list expr), length gs = length qs -> forall x i, first_match impl_lang qs x i -> exists k, nth_error gs i = Some k).
      { intros gs qs E x i ((q & Hq & _) & _). destruct (nth_error gs i) as [k|] eqn:Ek; [eauto|]. apply nth_error_None in Ek.
        assert (i < length qs) by (apply nth_error_Some; congruence). lia. }
      split.
      + intros x Hx. destruct (HM x) as (tks & M & M'). split; intros Hm; apply matched_first in Hm; destruct Hm as (i & Hf).
        * destruct (Hsome _ _ Hl x i Hf) as (k & Hk). destruct (munch_whole es _ x i k Hx Hf Hk tks M) as (r & ->). apply munch_matched in M'.
          destruct M' as (j & g & Hj & _). exact (first_matched _ _ _ Hj).
        * destruct (Hsome _ _ Hl' x i Hf) as (k & Hk). destruct (munch_whole es' _ x i k Hx Hf Hk tks M') as (r & ->). apply munch_matched in M.
          destruct M as (j & g & Hj & _). exact (first_matched _ _ _ Hj).
      + intros x i i' k k' Hx Hf Hf' Hk Hk'. destruct (HM x) as (tks & M & M'). destruct (munch_whole es _ x i k Hx Hf Hk tks M) as (r & ->).
        destruct (munch_whole es' _ x i' k' Hx Hf' Hk' _ M') as (r' & E). injection E as E _.
        rewrite <- (unit_run _ i k x Hu Hk), <- (unit_run _ i' k' x Hu' Hk'). exact E.
  Qed.
End Alike.

Section Parse.
  Context {env : Env} {V K : Type} {dv : DecEq V} {dk : DecEq K} (bs : list N) (Hbs : changes bs is_alphabetic).
  Lemma parsers_alike (ts ts' : list (list char * generator K)) es es' : parsed ts es -> parsed ts' es' -> goodb bs es = true -> goodb bs es' = true ->
    forallb unit_kind (map snd ts) = true -> forallb unit_kind (map snd ts') = true -> alikeb bs es (map snd ts) es' (map snd ts') = true ->
    forall input, exists lx lx', build_lexer ts input = Val (inl lx) /\ build_lexer ts' input = Val (inl lx') /\
      forall (ho : HashOrder) teq (tb : table V K), exists N, forall fuel, N <= fuel -> parse_lexer teq fuel tb lx = parse_lexer teq fuel tb lx'.
  Proof.
    intros Hp Hp' Hg Hg' Hu Hu' H input.
    destruct (good_tokens bs Hbs ts es input Hp Hg) as (lx & _ & B & _). destruct (good_tokens bs Hbs ts' es' input Hp' Hg') as (lx' & _ & B' & _).
    exists lx, lx'. split; [exact B|]. split; [exact B'|]. intros ho teq tb. apply (goodb_ok bs Hbs) in Hg, Hg'. destruct Hg as (Hs & He). destruct Hg' as (Hs' & He').
    destruct (parse_munch teq tb ts input lx es impl_lang B Hp (or_introl eq_refl) Hs (fun e X => proj2 (He e X))) as (tks & M & N & HN).
    destruct (parse_munch teq tb ts' input lx' es' impl_lang B' Hp' (or_introl eq_refl) Hs' (fun e X => proj2 (He' e X))) as (tks' & M' & N' & HN').
    apply (alikeb_ok bs Hbs) in H. assert (Hl' : length (map snd ts') = length es') by (rewrite map_length; exact (parsed_length ts' es' Hp')).
    pose proof (munches_unique _ _ _ _ _ _ (alike_munches es es' _ _ Hl' Hu Hu' H input 0 tks M) tks' M') as ->.
    exists (Nat.max N N'). intros fuel Hf. rewrite HN, HN' by lia. reflexivity.
  Qed.
End Parse.
