(** The functions of SpecKinds.v. *)
From Verif Require Import Base RegexModel SpecRegex NfaModel SpecNfa LexerModel SpecLexer SpecMunch SpecPanic
  GrammarModel CfsmModel SlrModel PangoModel SpecCfg SpecWrap SpecFront SpecExactness SpecBuildable SpecTextbook SpecKleene KleeneProofs SpecQuery QueryProofs QueryLexer SpecCertify CertifyProofs SpecKinds.

Section Kinds.
  Context {env : Env} {K : Type} (bs : list N) (Hbs : changes bs is_alphabetic).

  Lemma makes_ok before x : makes bs before x = true <-> exists w, impl_lang x w /\ ~ matched impl_lang before w.
  Proof.
    unfold makes, one_only. rewrite (two_answers bs Hbs _ _ (fun a b => a && negb b)). split.
    - intros (w & a & b & Ha & Hb & E). apply andb_prop in E. destruct E as (-> & E). destruct b; [discriminate|]. exists w.
      split; [apply r_impl_ok, Ha; reflexivity|]. intros Hm. apply r_matched_ok, Hb in Hm. discriminate.
    - intros (w & H1 & H2). exists w, true, false. split; [split; [intros _; apply r_impl_ok; exact H1|reflexivity]|]. split; [|reflexivity].
      split; [discriminate|]. intros Hm. apply r_matched_ok in Hm. contradiction.
  Qed.
  Lemma makes_only_ok before x c : makes_only bs before x c = true <-> forall w, impl_lang x w -> ~ matched impl_lang before w -> w = [c].
  Proof.
    assert (Hc : forall w, words (Sym (LMatch c)) w <-> w = [c]).
    { intros w. cbn. split; [intros (d & -> & ->); reflexivity|intros ->; eexists; split; reflexivity]. }
    unfold makes_only. rewrite Bool.negb_true_iff, <- Bool.not_true_iff_false, (three_answers bs Hbs _ _ _ (fun a b d => a && negb b && negb d)). split.
    - intros H w H1 H2. destruct (word_known (Sym (LMatch c)) w) as ([|] & Hd); [apply Hc, Hd; reflexivity|].
      exfalso. apply H. exists w, true, false, false. split; [split; [intros _; apply r_impl_ok; exact H1|reflexivity]|]. split; [|split; [exact Hd|reflexivity]].
      split; [discriminate|]. intros Hm. apply r_matched_ok in Hm. contradiction.
    - intros H (w & a & b & d & Ha & Hb & Hd & E). apply andb_prop in E. destruct E as (E & Ed). apply andb_prop in E. destruct E as (-> & Eb).
      destruct b; [discriminate|]. destruct d; [discriminate|]. assert (X : false = true); [|discriminate]. apply Hd, Hc, H.
      + apply r_impl_ok, Ha. reflexivity.
      + intros Hm. apply r_matched_ok, Hb in Hm. discriminate.
  Qed.

  Lemma kinds_from (teq : K -> K -> bool) o e c : forall es gens before, kindsb bs teq o e c before es gens = true <->
    forall i f x, nth_error gens i = Some (GenUnit f) -> (exists p, nth_error es i = Some p /\ impl_lang p x) -> ~ matched impl_lang (before ++ firstn i es) x ->
      teq o (f tt) = false /\ (teq e (f tt) = true -> x = [c]).
  Proof.
    induction es as [|p es IH]; intros gens before.
    { cbn [kindsb]. split; [|destruct gens; reflexivity]. intros _ i f x _ (q & Hq & _). destruct i; discriminate. }
    destruct gens as [|k gens]; cbn [kindsb].
    { split; [|reflexivity]. intros _ i f x Hi. destruct i; discriminate. }
    rewrite andb_true_iff, IH. clear IH.
    assert (Hstep : forall i, (before ++ [p]) ++ firstn i es = before ++ firstn (S i) (p :: es)) by (intros i; rewrite <- app_assoc; reflexivity).
    split.
    - intros (H0 & H1) [|i] f x Hi (q & Hq & Hx) Hn.
      + injection Hi as ->. injection Hq as <-. cbn [firstn] in Hn. rewrite app_nil_r in Hn. apply andb_prop in H0. destruct H0 as (Ha & Hb). split.
        * destruct (teq o (f tt)); [|reflexivity]. cbn [negb orb] in Ha. apply Bool.negb_true_iff in Ha. assert (X : makes bs before p = true) by (apply makes_ok; eauto). congruence.
        * intros He. rewrite He in Hb. cbn [negb orb] in Hb. exact (proj1 (makes_only_ok before p c) Hb x Hx Hn).
      + rewrite <- Hstep in Hn. exact (H1 i f x Hi (ex_intro _ q (conj Hq Hx)) Hn).
    - intros H. split.
      + destruct k as [f|f]; [reflexivity|]. apply andb_true_intro. split.
        * destruct (teq o (f tt)) eqn:E; [|reflexivity]. cbn [negb orb]. apply Bool.negb_true_iff, Bool.not_true_iff_false. intros Hm. apply makes_ok in Hm.
          destruct Hm as (w & H1 & H2). destruct (H 0 f w eq_refl (ex_intro _ p (conj eq_refl H1))) as (X & _); [cbn [firstn]; rewrite app_nil_r; exact H2|]. congruence.
        * destruct (teq e (f tt)) eqn:E; [|reflexivity]. cbn [negb orb]. apply makes_only_ok. intros w H1 H2.
          destruct (H 0 f w eq_refl (ex_intro _ p (conj eq_refl H1))) as (_ & X); [cbn [firstn]; rewrite app_nil_r; exact H2|]. exact (X E).
      + intros i f x Hi Hq Hn. rewrite Hstep in Hn. exact (H (S i) f x Hi Hq Hn).
  Qed.

  Lemma first_firstn L (es : list expr) x i : first_match L es x i <-> (exists p, nth_error es i = Some p /\ L p x) /\ ~ matched L (firstn i es) x.
  Proof.
    unfold first_match. apply and_iff_compat_l. split.
    - intros H (p & Hp & Hx). apply In_nth_error in Hp. destruct Hp as (j & Hj).
      assert (Hl : j < length (firstn i es)) by (apply nth_error_Some; congruence). rewrite firstn_length in Hl.
      rewrite <- (firstn_skipn i es) in H. apply (H j p); [lia| |exact Hx]. rewrite nth_error_app1; [exact Hj|]. rewrite firstn_length. exact Hl.
    - intros H j p Hj Hp Hx. apply H. exists p. split; [|exact Hx]. apply (nth_error_In _ j).
      assert (Hl : j < length es) by (apply nth_error_Some; congruence).
      rewrite <- (firstn_skipn i es) in Hp. rewrite nth_error_app1 in Hp; [exact Hp|]. rewrite firstn_length. lia.
  Qed.

  Lemma kindsb_ok (teq : K -> K -> bool) o e c es gens : kindsb bs teq o e c [] es gens = true <->
    forall i f x, nth_error gens i = Some (GenUnit f) -> first_match impl_lang es x i -> teq o (f tt) = false /\ (teq e (f tt) = true -> x = [c]).
  Proof.
    rewrite kinds_from. cbn [app]. split; intros H i f x Hi.
    - intros Hf. apply first_firstn in Hf. destruct Hf as (H1 & H2). exact (H i f x Hi H1 H2).
    - intros H1 H2. apply (H i f x Hi). apply first_firstn. split; assumption.
  Qed.
End Kinds.

Section Front.
  Context {env : Env} {V K : Type} {dv : DecEq V} {dk : DecEq K} (bs : list N) (Hbs : changes bs is_alphabetic).
  Context (teq : K -> K -> bool) (Ht : lawful teq) (ts : list (list char * generator K)) (es : list expr) (Hp : parsed ts es).

  Lemma computed_front cs (g : grammar V K) z e o c : build (do_calls cs) = Val g ->
    front_right bs es teq g z e o && kindsb bs teq o e c [] es (map snd ts) = true ->
    (forall s f x, In (s, GenMap f) ts -> matched lang es x -> teq o (f x) = false /\ (teq e (f x) = true -> x = [c])) ->
    exists w, build (do_calls (wrapped cs (g_start g) z e o)) = Val w /\
      forall text, ~ In c text -> exists lx r, build_lexer ts (text ++ [c]) = Val (inl lx) /\
        outcome lang es (map snd ts) g teq z e (text ++ [c]) r /\
        forall (ho : HashOrder) p, exists N, forall fuel, N <= fuel ->
          (let! tb := slr_new teq fuel p w in parse_lexer teq fuel tb lx) = Val r.
  Proof.
    intros Hg H Hm. apply andb_prop in H. destruct H as (Hr & Hk). apply (certified_front bs Hbs teq Ht ts es Hp cs g z e o c Hg Hr).
    assert (HL : forall y, In y es -> forall w, lang y w <-> impl_lang y w).
    { unfold front_right in Hr. rewrite !andb_true_iff in Hr. assert (Hl : lexb bs es = true) by apply Hr. apply (lexb_ok bs Hbs) in Hl. destruct Hl as (_ & Hl).
      intros y Hy w. symmetry. exact (proj2 (proj2 (Hl y Hy)) w). }
    intros i gen x Hi Hf. destruct gen as [f|f]; cbn [gen_run].
    - destruct Hf as ((p & Hpi & Hx) & _). apply nth_error_In, in_map_iff in Hi. destruct Hi as ((s & k) & E & Hi). cbn in E. subst k.
      apply (Hm s f x Hi). exists p. split; [exact (nth_error_In _ _ Hpi)|exact Hx].
    - apply (proj1 (kindsb_ok bs Hbs teq o e c es (map snd ts)) Hk i f x Hi). apply (first_alike lang impl_lang es HL). exact Hf.
  Qed.

  Lemma computed_units cs (g : grammar V K) z e o c : build (do_calls cs) = Val g ->
    front_right bs es teq g z e o && kindsb bs teq o e c [] es (map snd ts) && forallb unit_kind (map snd ts) = true ->
    exists w, build (do_calls (wrapped cs (g_start g) z e o)) = Val w /\
      forall text, ~ In c text -> exists lx r, build_lexer ts (text ++ [c]) = Val (inl lx) /\
        outcome lang es (map snd ts) g teq z e (text ++ [c]) r /\
        forall (ho : HashOrder) p, exists N, forall fuel, N <= fuel ->
          (let! tb := slr_new teq fuel p w in parse_lexer teq fuel tb lx) = Val r.
  Proof.
    intros Hg H. apply andb_prop in H. destruct H as (H & Hu). apply (computed_front cs g z e o c Hg H).
    intros s f x Hi _. exfalso. rewrite forallb_forall in Hu. specialize (Hu _ (in_map snd _ _ Hi)). discriminate.
  Qed.
End Front.
