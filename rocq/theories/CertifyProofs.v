(** The functions of SpecCertify.v recognise right front ends. *)
From Verif Require Import Base RegexModel SpecRegex NfaModel SpecNfa NfaProofs RegexProofs RegexParseProofs RegexPanicProofs LexerModel SpecLexer SpecMunch SpecPanic SpecText
  GrammarModel CfsmModel SlrModel PangoModel SpecCfg SpecWrap SpecFront WrapProofs WrapText PipeProofs TextOutcome FrontProofs
  SpecPossible PossibleFacts SpecExactness ExactnessProofs SpecBuildable BuildableProofs SpecTextbook TextbookProofs SpecKleene SpecQuery QueryProofs QueryLexer SpecCertify.

Lemma gapb_ok e : gapb e = true <-> gapped e.
Proof.
  rewrite gapped_ok. assert (E : gapb e = has_empty e); [|rewrite E; tauto].
  induction e as [es IH| |l r IHl IHr|l q|e q IH] using expr_ind'; cbn [gapb has_empty]; try congruence.
  destruct es as [|x es]; [reflexivity|]. induction IH as [|y l Hy Hl IHl]; cbn [existsb]; [reflexivity|]. congruence.
Qed.

Section Lexer.
  Context {env : Env} (bs : list N) (Hbs : changes bs is_alphabetic).

  Lemma lexb_ok es : lexb bs es = true <->
    steady es /\ forall e, In e es -> ~ gapped e /\ loops_ok e = true /\ forall w, impl_lang e w <-> lang e w.
  Proof.
    unfold lexb. rewrite andb_true_iff, forallb_forall, (munching_ok bs Hbs). apply and_iff_compat_l.
    split; intros H e He; specialize (H e He).
    - rewrite !andb_true_iff, negb_true_iff, (as_written_ok bs Hbs) in H. destruct H as ((H1 & H2) & H3). split; [|auto].
      intros Hg. apply gapb_ok in Hg. congruence.
    - rewrite !andb_true_iff, negb_true_iff, (as_written_ok bs Hbs). destruct H as (H1 & H2 & H3). split; [split; [|exact H2]|exact H3].
      apply Bool.not_true_iff_false. rewrite gapb_ok. exact H1.
  Qed.
  Lemma coverb_ok es : coverb bs es = true <-> forall c, matched impl_lang es [c].
  Proof.
    unfold coverb, one_only. rewrite negb_true_iff, <- Bool.not_true_iff_false, (two_answers bs Hbs _ _ (fun a b => a && negb b)). split.
    - intros H c. destruct (word_known (r_matched es) [c]) as ([|] & Hb); [apply r_matched_ok, Hb; reflexivity|].
      exfalso. apply H. exists [c], true, false. split; [split; [intros _; apply r_char_ok; eauto|reflexivity]|]. split; [exact Hb|reflexivity].
    - intros H (w & a & b & Ha & Hb & E). apply andb_prop in E. destruct E as (-> & E). destruct b; [discriminate|].
      destruct (proj1 (r_char_ok w) (proj1 Ha eq_refl)) as (c & ->). assert (X : false = true) by (apply Hb, r_matched_ok, H). discriminate.
  Qed.

  (** ** Languages that agree on the patterns *)
  Section Alike.
    Context (L L' : expr -> list char -> Prop) (es : list expr) (HL : forall e, In e es -> forall w, L e w <-> L' e w).
    Lemma matched_alike x : matched L es x <-> matched L' es x.
    Proof. split; intros (e & He & H); exists e; (split; [exact He|]); apply (HL e He); exact H. Qed.
    Lemma first_alike x i : first_match L es x i <-> first_match L' es x i.
    Proof.
      split; intros ((e & He & H) & Hf); (split; [exists e; split; [exact He|]; apply (HL e (nth_error_In _ _ He)); exact H|]);
        intros j e' Hj He' Hx; apply (Hf j e' Hj He'); apply (HL e' (nth_error_In _ _ He')); exact Hx.
    Qed.
    Lemma munches_alike {K} (gens : list (generator K)) input p tks : munches L es gens input p tks -> munches L' es gens input p tks.
    Proof.
      induction 1 as [p H|p x y i g ts H1 H2 H3 H4 H5 H6 IH].
      - constructor. intros x y E Hn Hm. apply matched_alike in Hm. exact (H x y E Hn Hm).
      - eapply munch_token; eauto; [apply first_alike; exact H3|]. intros x' y' E Hl Hm. apply matched_alike in Hm. exact (H5 x' y' E Hl Hm).
    Qed.
  End Alike.
  Lemma reads_alike {K} L L' es (gens : list (generator K)) input ks : (forall e, In e es -> forall w, L e w <-> L' e w) ->
    reads_all L es gens input ks -> reads_all L' es gens input ks.
  Proof. intros HL (tks & H1 & H2). exists tks. split; [exact (munches_alike L L' es HL gens _ _ _ H1)|exact H2]. Qed.

  (** ** Nothing is left over *)
  Lemma skipn_plus {A} p (x y input : list A) : skipn p input = x ++ y -> skipn (p + length x) input = y.
  Proof.
    intros H. assert (E : forall n m (l : list A), skipn (n + m) l = skipn m (skipn n l)).
    { induction n as [|n IH]; intros m l; [reflexivity|]. destruct l; [cbn; destruct m; reflexivity|]. cbn. apply IH. }
    rewrite E, H, skipn_app, skipn_all, Nat.sub_diag. reflexivity.
  Qed.
  Lemma munches_all {K} L es (gens : list (generator K)) input p tks : (forall c, matched L es [c]) -> p <= length input ->
    munches L es gens input p tks -> flat_map lt_source tks = skipn p input.
  Proof.
    intros Hc Hp H. induction H as [p H|p x y i g ts H1 H2 H3 H4 H5 H6 IH].
    - destruct (skipn p input) as [|c r] eqn:E; [reflexivity|]. exfalso. apply (H [c] r); [reflexivity|discriminate|apply Hc].
    - cbn [flat_map lt_source]. rewrite H1. f_equal. assert (E : length (skipn p input) = length x + length y) by (rewrite H1; apply app_length).
      rewrite skipn_length in E. rewrite IH by lia. apply (skipn_plus p x y input H1).
  Qed.
End Lexer.

Section Parser.
  Context {V K : Type} {dv : DecEq V} {dk : DecEq K} (teq : K -> K -> bool) (g : grammar V K).
  Lemma new_variable_ok z : new_variable g z = true <-> fresh_variable g z.
  Proof.
    unfold new_variable, fresh_variable. rewrite forallb_forall. split.
    - intros H v bd Hr. apply in_rules in Hr. specialize (H _ Hr). cbn [fst snd] in H. rewrite andb_true_iff, !negb_true_iff in H. destruct H as (H1 & H2). split.
      + intros ->. rewrite (proj2 (eqb_eq z z) eq_refl) in H1. discriminate.
      + intros Hi. apply memb_in in Hi. congruence.
    - intros H [v bd] Hr. apply in_rules in Hr. destruct (H v bd Hr) as (H1 & H2). cbn [fst snd]. rewrite andb_true_iff, !negb_true_iff. split.
      + destruct (eqb v z) eqn:E; [|reflexivity]. apply (eqb_eq v z) in E. destruct (H1 E).
      + destruct (memb (Var z) bd) eqn:E; [|reflexivity]. apply memb_in in E. destruct (H2 E).
  Qed.
  Lemma new_terminal_ok e : new_terminal teq g e = true <-> fresh_terminal teq g e.
  Proof.
    unfold new_terminal, fresh_terminal. rewrite forallb_forall. split.
    - intros H v bd t Hr Ht. apply in_rules in Hr. specialize (H _ Hr). cbn [snd] in H. rewrite forallb_forall in H. specialize (H _ Ht). cbn in H. apply negb_true_iff in H. exact H.
    - intros H [v bd] Hr. apply in_rules in Hr. cbn [snd]. apply forallb_forall. intros [t|u|] Hs; try reflexivity. apply negb_true_iff. eapply H; eauto.
  Qed.
End Parser.

Section Both.
  Context {env : Env} {V K : Type} {dv : DecEq V} {dk : DecEq K} (bs : list N) (Hbs : changes bs is_alphabetic).
  Context (teq : K -> K -> bool) (Ht : lawful teq) (ts : list (list char * generator K)) (es : list expr) (Hp : parsed ts es).

  Lemma certified_texts (g : grammar V K) : built g -> texts_right bs es teq g = true -> forall (ho : HashOrder) p, exists n tb,
    (forall fuel, n <= fuel -> slr_new teq fuel p g = Val tb) /\
    forall input, exists lx tks, build_lexer ts input = Val (inl lx) /\ munches lang es (map snd ts) input 0 tks /\
      (coverb bs es = true -> flat_map lt_source tks = input) /\
      forall x, eventually (fun fuel => parse_lexer teq fuel tb lx) (Val (Some (to_node x))) <-> parses g teq (map lt_kind tks) x.
  Proof.
    intros Hb H ho p. unfold texts_right in H. apply andb_true_iff in H. destruct H as (Hl & Ha). apply (lexb_ok bs Hbs) in Hl. destruct Hl as (Hs & He).
    assert (Hf : epsilon_free g) by (apply freeb_ok; unfold always_exact in Ha; rewrite !andb_true_iff in Ha; apply Ha).
    destruct (proj2 (exact_always g Hb teq Ht (or_introl Hf)) Ha ho p) as (n & tb & Hn & Hx). exists n, tb. split; [exact Hn|]. intros input.
    destruct (lexer_builds ts es input Hp (fun e H => proj1 (He e H))) as (lx & Hlx). exists lx.
    destruct (parse_munch teq tb ts input lx es impl_lang Hlx Hp (or_introl eq_refl) Hs (fun e H => proj1 (proj2 (He e H)))) as (tks & Hm & HN). exists tks.
    split; [exact Hlx|]. split; [exact (munches_alike impl_lang lang es (fun e H => proj2 (proj2 (He e H))) _ _ _ _ Hm)|]. split.
    - intros Hc. exact (munches_all impl_lang es _ input 0 tks (proj1 (coverb_ok bs Hbs es) Hc) (Nat.le_0_l _) Hm).
    - intros x. rewrite (same_eventually _ _ _ HN). exact (Hx (map lt_kind tks) x).
  Qed.

  Lemma certified_front cs (g : grammar V K) z e o c : build (do_calls cs) = Val g -> front_right bs es teq g z e o = true ->
    (forall i gen x, nth_error (map snd ts) i = Some gen -> first_match lang es x i ->
       teq o (gen_run gen x) = false /\ (teq e (gen_run gen x) = true -> x = [c])) ->
    exists w, build (do_calls (wrapped cs (g_start g) z e o)) = Val w /\
      forall text, ~ In c text -> exists lx r, build_lexer ts (text ++ [c]) = Val (inl lx) /\
        outcome lang es (map snd ts) g teq z e (text ++ [c]) r /\
        forall (ho : HashOrder) p, exists N, forall fuel, N <= fuel ->
          (let! tb := slr_new teq fuel p w in parse_lexer teq fuel tb lx) = Val r.
  Proof.
    intros Hg H Hk. unfold front_right in H. rewrite !andb_true_iff, !negb_true_iff in H. destruct H as ((((((Hl & Hc) & Hcl) & Hz) & He) & Ho) & Heo).
    apply (lexb_ok bs Hbs) in Hl. destruct Hl as (Hs & Hes). apply cleanb_ok in Hc. apply new_variable_ok in Hz. apply new_terminal_ok in He. apply new_terminal_ok in Ho.
    assert (HL : forall x, In x es -> forall w, impl_lang x w <-> lang x w) by (intros x Hx; exact (proj2 (proj2 (Hes x Hx)))).
    assert (HL' : forall x, In x es -> forall w, lang x w <-> impl_lang x w) by (intros x Hx w; symmetry; apply HL; exact Hx).
    assert (Hncl : ~ textbook_clash g teq) by (intros X; apply textb_ok in X; congruence).
    destruct (wrapped_builds cs g z e o Hg) as (w & Hw). exists w. split; [exact Hw|].
    intros text Hn. destruct (lexer_builds ts es (text ++ [c]) Hp (fun x Hx => proj1 (Hes x Hx))) as (lx & Hb).
    assert (Hrun : forall (ho : HashOrder) p, exists N r, outcome lang es (map snd ts) g teq z e (text ++ [c]) r /\
        forall fuel, N <= fuel -> (let! tb := slr_new teq fuel p w in parse_lexer teq fuel tb lx) = Val r).
    { intros ho p. destruct (wrapped_new teq Ht cs g w z e o p Hg Hw Hz He Ho Heo) as (n & r0 & Hr0 & [(_ & Hcc)|(tb & -> & _)]); [contradiction|].
      destruct (WrapText.text_exact teq cs g w z e o n p tb ts text c lx es impl_lang Ht Hg Hw Hz Hc (Hr0 n (le_n n)) Hb Hp (or_introl eq_refl) Hs
        (fun x Hx => proj1 (proj2 (Hes x Hx)))) as (N & r & HN & Hr); [|exact Hn|].
      - intros i gen x Hi Hx. apply (Hk i gen x Hi). apply (first_alike impl_lang lang es HL). exact Hx.
      - exists (Nat.max n N), r. split; [|intros fuel Hf; rewrite Hr0 by lia; cbn [bind]; apply HN; lia].
        destruct r as [nd|]; cbn [outcome] in *.
        + destruct Hr as (ks & e' & x & R & R'). exists ks, e', x. split; [exact (reads_alike impl_lang lang es _ _ _ HL R)|exact R'].
        + intros ks e' x R. apply Hr. exact (reads_alike lang impl_lang es _ _ _ HL' R). }
    destruct (Hrun id_order []) as (N & r & Hr & _). exists lx, r. split; [exact Hb|]. split; [exact Hr|].
    intros ho p. destruct (Hrun ho p) as (N' & r' & Hr' & HN'). exists N'.
    replace r with r'; [exact HN'|]. exact (one_outcome teq cs g z e o _ es _ r' r Ht Hg Hc Hncl Hz He Ho Heo Hr' Hr).
  Qed.
End Both.
