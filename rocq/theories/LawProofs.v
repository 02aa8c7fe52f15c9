(** The laws of SpecLaws.v hold for everything the automaton of a regex does. *)
From Verif Require Import Base RegexModel SpecRegex NfaModel SpecNfa SpecSpin SpecLaws NfaLangProofs.

Section Laws.
  Context {env : Env}.

  Definition weq (A B : list char -> Prop) : Prop := forall w, A w <-> B w.

  Lemma cat_eq A A' B B' : weq A A' -> weq B B' -> weq (lang_cat A B) (lang_cat A' B').
  Proof. intros H1 H2 w. unfold lang_cat. split; intros (u & v & E & Hu & Hv); exists u, v; (split; [exact E|]); split; first [apply H1|apply H2]; assumption. Qed.
  Lemma pow_eq A A' n : weq A A' -> weq (lang_pow A n) (lang_pow A' n).
  Proof. intros H. induction n; cbn; [intros w; reflexivity|]. apply cat_eq; assumption. Qed.
  Lemma cat_assoc A B C : weq (lang_cat (lang_cat A B) C) (lang_cat A (lang_cat B C)).
  Proof.
    intros w. split.
    - intros (u & v & -> & (a & b & -> & Ha & Hb) & Hv). exists a, (b ++ v). rewrite app_assoc. split; [reflexivity|]. split; [assumption|].
      exists b, v. auto.
    - intros (u & v & -> & Hu & (b & c & -> & Hb & Hc)). exists (u ++ b), c. rewrite <- app_assoc. split; [reflexivity|]. split; [|assumption].
      exists u, b. auto.
  Qed.
  Lemma cat_or_l A B C w : lang_cat (fun u => A u \/ B u) C w <-> lang_cat A C w \/ lang_cat B C w.
  Proof.
    split.
    - intros (u & v & -> & [H|H] & Hv); [left|right]; exists u, v; auto.
    - intros [(u & v & -> & H & Hv)|(u & v & -> & H & Hv)]; exists u, v; auto.
  Qed.
  Lemma cat_or_r A B C w : lang_cat A (fun u => B u \/ C u) w <-> lang_cat A B w \/ lang_cat A C w.
  Proof.
    split.
    - intros (u & v & -> & Hu & [H|H]); [left|right]; exists u, v; auto.
    - intros [(u & v & -> & Hu & H)|(u & v & -> & Hu & H)]; exists u, v; auto.
  Qed.
  Lemma cat_nil_l A w : lang_cat (fun u => u = []) A w <-> A w.
  Proof. split; [intros (u & v & -> & -> & H); exact H|intros H; exists [], w; auto]. Qed.
  Lemma cat_none A w : lang_cat (fun _ => False) A w <-> False.
  Proof. split; [intros (u & v & _ & [] & _)|intros []]. Qed.
  Lemma cat_none_r A w : lang_cat A (fun _ => False) w <-> False.
  Proof. split; [intros (u & v & _ & _ & [])|intros []]. Qed.
  Lemma cat_and_l (P : Prop) A B w : lang_cat (fun u => P /\ A u) B w <-> P /\ lang_cat A B w.
  Proof. split; [intros (u & v & -> & (H & Hu) & Hv); split; [exact H|]; exists u, v; auto|intros (H & u & v & -> & Hu & Hv); exists u, v; auto]. Qed.

  (** Everything the descriptions of the automaton look at. *)
  Record like (e e' : expr) : Prop := {
    lk_lang : weq (lang e) (lang e');
    lk_skip : skippable e <-> skippable e';
    lk_lit : weq (lit_first e) (lit_first e');
    lk_rep : weq (rep_first e) (rep_first e');
    lk_begun : weq (begun e) (begun e');
    lk_ibegun : weq (impl_begun e) (impl_begun e');
    lk_spins : weq (spins e) (spins e');
    lk_ispins : weq (impl_spins e) (impl_spins e')
  }.

  Lemma like_refl e : like e e.
  Proof. split; try (intros w); reflexivity. Qed.
  Lemma like_sym e e' : like e e' -> like e' e.
  Proof. intros []. split; try (intros w; symmetry; auto); symmetry; auto. Qed.
  Lemma weq_trans A B C : weq A B -> weq B C -> weq A C.
  Proof. intros H H' w. rewrite (H w). apply H'. Qed.
  Lemma like_trans e e' e'' : like e e' -> like e' e'' -> like e e''.
  Proof. intros [] []. split; try (eapply weq_trans; eassumption). tauto. Qed.

  (** One more item in front. *)
  Definition lit_or_rep (e : expr) (u : list char) : Prop := lit_first e u \/ rep_first e u.
  Lemma seq_lang e es w : lang (EConcat (e :: es)) w <-> lang_cat (lang e) (lang (EConcat es)) w.
  Proof. reflexivity. Qed.
  Lemma seq_skip e es : skippable (EConcat (e :: es)) <-> skippable e /\ skippable (EConcat es).
  Proof. reflexivity. Qed.
  Lemma seq_lit e es w : lit_first (EConcat (e :: es)) w <-> lang_cat (lit_first e) (lang (EConcat es)) w.
  Proof. reflexivity. Qed.
  Lemma seq_rep e es w : rep_first (EConcat (e :: es)) w <->
    lang_cat (rep_first e) (lang (EConcat es)) w \/ (skippable e /\ (lit_first (EConcat es) w \/ rep_first (EConcat es) w)).
  Proof. reflexivity. Qed.
  Lemma seq_begun e es w : begun (EConcat (e :: es)) w <-> begun e w \/ lang_cat (lang e) (begun (EConcat es)) w.
  Proof. reflexivity. Qed.
  Lemma seq_ibegun e es w : impl_begun (EConcat (e :: es)) w <->
    impl_begun e w \/ lang_cat (lit_or_rep e) (begun (EConcat es)) w \/ (skippable e /\ impl_begun (EConcat es) w).
  Proof. reflexivity. Qed.
  Lemma seq_spins e es w : spins (EConcat (e :: es)) w <-> spins e w \/ lang_cat (lang e) (spins (EConcat es)) w.
  Proof. reflexivity. Qed.
  Lemma seq_ispins e es w : impl_spins (EConcat (e :: es)) w <->
    impl_spins e w \/ lang_cat (lit_or_rep e) (spins (EConcat es)) w \/ (skippable e /\ impl_spins (EConcat es) w).
  Proof. reflexivity. Qed.

  Lemma or_eq (A A' B B' : Prop) : (A <-> A') -> (B <-> B') -> (A \/ B <-> A' \/ B').
  Proof. tauto. Qed.
  Lemma and_eq (A A' B B' : Prop) : (A <-> A') -> (B <-> B') -> (A /\ B <-> A' /\ B').
  Proof. tauto. Qed.
  Lemma ex_eq {X} (A A' : X -> Prop) : (forall x, A x <-> A' x) -> ((exists x, A x) <-> (exists x, A' x)).
  Proof. intros H. split; intros (x & Hx); exists x; apply H; assumption. Qed.

  Ltac step :=
    match goal with
    | |- weq _ _ => intros ?
    | H : weq ?A ?B |- ?A ?w <-> ?B ?w => apply H
    | H : ?A <-> ?B |- ?A <-> ?B => exact H
    | |- ?A <-> ?A => reflexivity
    | |- (_ \/ _) <-> (_ \/ _) => apply or_eq
    | |- (_ /\ _) <-> (_ /\ _) => apply and_eq
    | |- (exists x, _) <-> (exists y, _) => apply ex_eq; intros ?
    | |- lang_cat _ _ _ <-> lang_cat _ _ _ => apply cat_eq
    | |- lang_pow _ _ _ <-> lang_pow _ _ _ => apply pow_eq
    | |- lit_or_rep _ _ <-> lit_or_rep _ _ => unfold lit_or_rep
    end.
  Ltac solve_weq := cbn beta; repeat (step; cbn beta).

  Lemma like_cons e e' es es' : like e e' -> like (EConcat es) (EConcat es') -> like (EConcat (e :: es)) (EConcat (e' :: es')).
  Proof.
    intros [] []. split; try intros w.
    - rewrite !seq_lang. solve_weq.
    - rewrite !seq_skip. solve_weq.
    - rewrite !seq_lit. solve_weq.
    - rewrite !seq_rep. solve_weq.
    - rewrite !seq_begun. solve_weq.
    - rewrite !seq_ibegun. solve_weq.
    - rewrite !seq_spins. solve_weq.
    - rewrite !seq_ispins. solve_weq.
  Qed.
  Lemma like_both l l' r r' : like l l' -> like r r' -> like (EAlt l r) (EAlt l' r').
  Proof. intros [] []. split; try intros w; cbn [lang skippable lit_first rep_first begun impl_begun spins impl_spins]; solve_weq. Qed.
  Lemma like_in e e' q : like e e' -> like (EGroup e q) (EGroup e' q).
  Proof.
    intros []. destruct q as [q|]; split; try intros w; cbn [lang skippable lit_first rep_first begun impl_begun spins impl_spins lang_quant]; solve_weq.
  Qed.
  Lemma like_set l l' q : (forall c, lit_set l c <-> lit_set l' c) -> like (ELit l q) (ELit l' q).
  Proof.
    intros H.
    destruct q as [q|]; split; try intros w; cbn [lang skippable lit_first rep_first begun impl_begun spins impl_spins lang_quant]; solve_weq;
      apply H.
  Qed.
  Lemma like_count_lit l q q' : (forall n, allowed q n <-> allowed q' n) -> like (ELit l (Some q)) (ELit l (Some q')).
  Proof. intros H. split; try intros w; cbn [lang skippable lit_first rep_first begun impl_begun spins impl_spins lang_quant]; solve_weq; try apply H. Qed.
  Lemma like_count e q q' : (forall n, allowed q n <-> allowed q' n) -> like (EGroup e (Some q)) (EGroup e (Some q')).
  Proof. intros H. split; try intros w; cbn [lang skippable lit_first rep_first begun impl_begun spins impl_spins lang_quant]; solve_weq; try apply H. Qed.

  (** A repeated literal and the same in parentheses. *)
  Lemma pow_snoc A n w : lang_pow A (S n) w <-> lang_cat (lang_pow A n) A w.
  Proof.
    revert w. induction n as [|n IH]; intros w.
    - cbn [lang_pow]. rewrite (cat_nil_l A). split; [intros (u & v & -> & Hu & ->); rewrite app_nil_r; exact Hu|intros H; exists w, []; rewrite app_nil_r; auto].
    - cbn [lang_pow]. rewrite (cat_assoc A (lang_pow A n) A w). apply cat_eq; [intros u; reflexivity|]. intros u. exact (IH u).
  Qed.
  Lemma like_letter l q : like (ELit l (Some q)) (EGroup (ELit l None) (Some q)).
  Proof.
    set (A := fun w => exists c, w = [c] /\ lit_set l c).
    assert (Hb : forall w, (exists n, lang_pow A n w) <-> (exists n, lang_cat (lang_pow A n) (fun w => w = [] \/ A w) w)).
    { intros w. split.
      - intros (n & H). exists n. exists w, []. rewrite app_nil_r. auto.
      - intros (n & H). apply cat_or_r in H. destruct H as [(u & v & -> & Hu & ->)|H].
        + exists n. rewrite app_nil_r. exact Hu.
        + exists (S n). apply pow_snoc. exact H. }
    split; try intros w; cbn [lang skippable lit_first rep_first begun impl_begun spins impl_spins lang_quant]; fold A.
    - reflexivity.
    - reflexivity.
    - reflexivity.
    - split; [intros H; left; exact H|]. intros [H|(n & _ & H)]; [exact H|]. apply cat_none in H. destruct H.
    - apply Hb.
    - split.
      + intros ([|n] & H); [left; left; exact H|]. right. cbn [lang_pow] in H. destruct H as (u & v & -> & Hu & Hv).
        exists u, v. split; [reflexivity|]. split; [left; exact Hu|]. apply Hb. exists n. exact Hv.
      + intros [[->|H]|(u & v & -> & [H|[]] & Hv)].
        * exists 0. reflexivity.
        * exists 1. exists w, []. rewrite app_nil_r. split; [reflexivity|]. split; [exact H|reflexivity].
        * apply Hb in Hv. destruct Hv as (n & Hv). exists (S n). exists u, v. auto.
    - split; [intros []|]. intros (n & u & v & _ & _ & [(_ & (c & E & _))|[]]). discriminate E.
    - split; [intros []|]. intros [[]|(u & v & _ & _ & (n & a & b & _ & _ & [(_ & (c & E & _))|[]]))]. discriminate E.
  Qed.

  (** Sequences. *)
  Lemma like_paren e : like (EGroup e None) e.
  Proof. split; try intros w; reflexivity. Qed.

  Notation seq es := (EConcat es).
  Lemma weq_refl A : weq A A.
  Proof. intros w. reflexivity. Qed.
  Hint Resolve weq_refl : core.

  Lemma seq_first e es w : lit_or_rep (seq (e :: es)) w <-> lang_cat (lit_or_rep e) (lang (seq es)) w \/ (skippable e /\ lit_or_rep (seq es) w).
  Proof. unfold lit_or_rep. rewrite seq_lit, seq_rep, (cat_or_l (lit_first e) (rep_first e) _ w). tauto. Qed.

  Lemma app_lang es es' w : lang (seq (es ++ es')) w <-> lang_cat (lang (seq es)) (lang (seq es')) w.
  Proof.
    revert w. induction es as [|e es IH]; intros w; cbn [app].
    - symmetry. apply (cat_nil_l (lang (seq es'))).
    - rewrite seq_lang, (cat_eq _ _ _ _ (weq_refl _) IH w), <- (cat_assoc _ _ _ w). reflexivity.
  Qed.
  Lemma app_skip es es' : skippable (seq (es ++ es')) <-> skippable (seq es) /\ skippable (seq es').
  Proof. induction es as [|e es IH]; cbn [app]; [cbn; tauto|]. rewrite !seq_skip, IH. tauto. Qed.
  Lemma app_first es es' w : lit_or_rep (seq (es ++ es')) w <->
    lang_cat (lit_or_rep (seq es)) (lang (seq es')) w \/ (skippable (seq es) /\ lit_or_rep (seq es') w).
  Proof.
    revert w. induction es as [|e es IH]; intros w; cbn [app].
    - split; [intros H; right; split; [exact I|exact H]|]. intros [(u & v & _ & [[]|[]] & _)|[_ H]]. exact H.
    - rewrite seq_first, seq_skip, IH, (cat_eq _ _ _ _ (weq_refl (lit_or_rep e)) (app_lang es es') w), <- (cat_assoc _ _ _ w).
      rewrite (cat_eq _ _ _ _ (seq_first e es) (weq_refl _) w), (cat_or_l _ _ _ w), (cat_and_l _ _ _ w). tauto.
  Qed.
  Lemma app_begun es es' w : begun (seq (es ++ es')) w <-> begun (seq es) w \/ lang_cat (lang (seq es)) (begun (seq es')) w.
  Proof.
    revert w. induction es as [|e es IH]; intros w; cbn [app].
    - rewrite (cat_nil_l (begun (seq es')) w). change (begun (seq []) w) with (w = []). split; [auto|]. intros [->|H]; [apply begun_nil|exact H].
    - rewrite !seq_begun, (cat_eq _ _ _ _ (weq_refl (lang e)) IH w), (cat_or_r _ _ _ w), <- (cat_assoc _ _ _ w),
        (cat_eq _ _ _ _ (seq_lang e es) (weq_refl _) w). tauto.
  Qed.
  Lemma app_ibegun es es' w : impl_begun (seq (es ++ es')) w <->
    impl_begun (seq es) w \/ lang_cat (lit_or_rep (seq es)) (begun (seq es')) w \/ (skippable (seq es) /\ impl_begun (seq es') w).
  Proof.
    revert w. induction es as [|e es IH]; intros w; cbn [app].
    - split; [intros H; right; right; split; [exact I|exact H]|]. intros [H|[(u & v & _ & [[]|[]] & _)|[_ H]]]; [|exact H].
      cbn in H. subst w. apply impl_begun_nil.
    - rewrite !seq_ibegun, seq_skip, IH, (cat_eq _ _ _ _ (weq_refl (lit_or_rep e)) (app_begun es es') w), (cat_or_r _ _ _ w), <- (cat_assoc _ _ _ w),
        (cat_eq _ _ _ _ (seq_first e es) (weq_refl _) w), (cat_or_l _ _ _ w), (cat_and_l _ _ _ w). tauto.
  Qed.
  Lemma app_spins es es' w : spins (seq (es ++ es')) w <-> spins (seq es) w \/ lang_cat (lang (seq es)) (spins (seq es')) w.
  Proof.
    revert w. induction es as [|e es IH]; intros w; cbn [app].
    - rewrite (cat_nil_l (spins (seq es')) w). cbn. tauto.
    - rewrite !seq_spins, (cat_eq _ _ _ _ (weq_refl (lang e)) IH w), (cat_or_r _ _ _ w), <- (cat_assoc _ _ _ w),
        (cat_eq _ _ _ _ (seq_lang e es) (weq_refl _) w). tauto.
  Qed.
  Lemma app_ispins es es' w : impl_spins (seq (es ++ es')) w <->
    impl_spins (seq es) w \/ lang_cat (lit_or_rep (seq es)) (spins (seq es')) w \/ (skippable (seq es) /\ impl_spins (seq es') w).
  Proof.
    revert w. induction es as [|e es IH]; intros w; cbn [app].
    - split; [intros H; right; right; split; [exact I|exact H]|]. intros [[]|[(u & v & _ & [[]|[]] & _)|[_ H]]]. exact H.
    - rewrite !seq_ispins, seq_skip, IH, (cat_eq _ _ _ _ (weq_refl (lit_or_rep e)) (app_spins es es') w), (cat_or_r _ _ _ w), <- (cat_assoc _ _ _ w),
        (cat_eq _ _ _ _ (seq_first e es) (weq_refl _) w), (cat_or_l _ _ _ w), (cat_and_l _ _ _ w). tauto.
  Qed.

  Lemma like_flat es es' : es <> [] -> like (seq (seq es :: es')) (seq (es ++ es')).
  Proof.
    intros Hne. split; try intros w.
    - rewrite seq_lang. symmetry. apply app_lang.
    - rewrite seq_skip. symmetry. apply app_skip.
    - destruct es as [|e es]; [congruence|]. cbn [app]. rewrite !seq_lit, (cat_eq _ _ _ _ (seq_lit e es) (weq_refl _) w), (cat_assoc _ _ _ w).
      apply cat_eq; [apply weq_refl|]. intros v. symmetry. apply app_lang.
    - destruct es as [|e es]; [congruence|]. cbn [app]. rewrite !seq_rep, seq_skip.
      rewrite (cat_eq _ _ _ _ (seq_rep e es) (weq_refl _) w), (cat_or_l _ _ _ w), (cat_and_l _ _ _ w), (cat_assoc _ _ _ w).
      rewrite (cat_eq _ _ _ _ (weq_refl (rep_first e)) (app_lang es es') w).
      change (lit_first (seq (es ++ es')) w \/ rep_first (seq (es ++ es')) w) with (lit_or_rep (seq (es ++ es')) w). rewrite app_first.
      change (fun u => lit_first (seq es) u \/ rep_first (seq es) u) with (lit_or_rep (seq es)). unfold lit_or_rep at 3. tauto.
    - rewrite seq_begun. symmetry. apply app_begun.
    - rewrite seq_ibegun. symmetry. apply app_ibegun.
    - rewrite seq_spins. symmetry. apply app_spins.
    - rewrite seq_ispins. symmetry. apply app_ispins.
  Qed.

  Lemma like_one e : like (seq [e]) e.
  Proof.
    split; try intros w.
    - rewrite seq_lang. apply cat_nil_r.
    - cbn. tauto.
    - apply lit_first_single.
    - apply rep_first_single.
    - rewrite seq_begun. change (begun (seq [])) with (lang (seq [])). rewrite cat_nil_r. split; [|auto]. intros [H|H]; [exact H|]. apply lang_begun. exact H.
    - rewrite seq_ibegun. change (begun (seq [])) with (lang (seq [])). rewrite cat_nil_r. cbn [impl_begun]. split; [|auto].
      intros [H|[H|[_ ->]]]; [exact H|apply first_begun; exact H|apply impl_begun_nil].
    - rewrite seq_spins. cbn [spins]. rewrite (cat_none_r (lang e) w). tauto.
    - rewrite seq_ispins. cbn [spins impl_spins]. rewrite (cat_none_r (lit_or_rep e) w). tauto.
  Qed.

  (** Alternatives. *)
  Lemma like_comm l r : like (EAlt l r) (EAlt r l).
  Proof. split; try intros w; cbn [lang skippable lit_first rep_first begun impl_begun spins impl_spins]; tauto. Qed.
  Lemma like_assoc a b c : like (EAlt a (EAlt b c)) (EAlt (EAlt a b) c).
  Proof. split; try intros w; cbn [lang skippable lit_first rep_first begun impl_begun spins impl_spins]; tauto. Qed.
  Lemma like_twice e : like (EAlt e e) e.
  Proof. split; try intros w; cbn [lang skippable lit_first rep_first begun impl_begun spins impl_spins]; tauto. Qed.

  Lemma alt_first l r w : lit_or_rep (EAlt l r) w <-> lit_or_rep l w \/ lit_or_rep r w.
  Proof. unfold lit_or_rep. cbn [lit_first rep_first]. tauto. Qed.

  Lemma like_left l r es : like (seq (EAlt l r :: es)) (EAlt (seq (l :: es)) (seq (r :: es))).
  Proof.
    split; try intros w.
    - rewrite seq_lang. cbn [lang]. rewrite (cat_or_l (lang l) (lang r) _ w). reflexivity.
    - rewrite seq_skip. cbn. tauto.
    - rewrite seq_lit. cbn [lit_first]. rewrite (cat_or_l (lit_first l) (lit_first r) _ w). reflexivity.
    - rewrite seq_rep. cbn [rep_first skippable]. rewrite (cat_or_l (rep_first l) (rep_first r) _ w). tauto.
    - rewrite seq_begun. cbn [begun lang]. rewrite (cat_or_l (lang l) (lang r) _ w). tauto.
    - rewrite seq_ibegun, (cat_eq _ _ _ _ (alt_first l r) (weq_refl _) w), (cat_or_l _ _ _ w).
      change (impl_begun (EAlt (seq (l :: es)) (seq (r :: es))) w) with (impl_begun (seq (l :: es)) w \/ impl_begun (seq (r :: es)) w).
      rewrite !seq_ibegun. cbn [impl_begun skippable]. tauto.
    - rewrite seq_spins. cbn [spins lang]. rewrite (cat_or_l (lang l) (lang r) _ w). tauto.
    - rewrite seq_ispins, (cat_eq _ _ _ _ (alt_first l r) (weq_refl _) w), (cat_or_l _ _ _ w).
      change (impl_spins (EAlt (seq (l :: es)) (seq (r :: es))) w) with (impl_spins (seq (l :: es)) w \/ impl_spins (seq (r :: es)) w).
      rewrite !seq_ispins. cbn [impl_spins skippable]. tauto.
  Qed.

  (** Two items. *)
  Record two (a b : expr) : Prop := {
    tw_lang : weq (lang (seq [a; b])) (lang_cat (lang a) (lang b));
    tw_skip : skippable (seq [a; b]) <-> skippable a /\ skippable b;
    tw_lit : weq (lit_first (seq [a; b])) (lang_cat (lit_first a) (lang b));
    tw_rep : weq (rep_first (seq [a; b])) (fun w => lang_cat (rep_first a) (lang b) w \/ (skippable a /\ lit_or_rep b w));
    tw_begun : weq (begun (seq [a; b])) (fun w => begun a w \/ lang_cat (lang a) (begun b) w);
    tw_ibegun : weq (impl_begun (seq [a; b])) (fun w => impl_begun a w \/ lang_cat (lit_or_rep a) (begun b) w \/ (skippable a /\ impl_begun b w));
    tw_spins : weq (spins (seq [a; b])) (fun w => spins a w \/ lang_cat (lang a) (spins b) w);
    tw_ispins : weq (impl_spins (seq [a; b])) (fun w => impl_spins a w \/ lang_cat (lit_or_rep a) (spins b) w \/ (skippable a /\ impl_spins b w))
  }.
  Lemma two_ok a b : two a b.
  Proof.
    destruct (like_one b) as [H1 H2 H3 H4 H5 H6 H7 H8]. split; try intros w.
    - rewrite seq_lang. solve_weq.
    - rewrite seq_skip, H2. reflexivity.
    - rewrite seq_lit. solve_weq.
    - rewrite seq_rep. unfold lit_or_rep. solve_weq.
    - rewrite seq_begun. solve_weq.
    - rewrite seq_ibegun. solve_weq.
    - rewrite seq_spins. solve_weq.
    - rewrite seq_ispins. solve_weq.
  Qed.
  Lemma like_right e l r : like (seq [e; EAlt l r]) (EAlt (seq [e; l]) (seq [e; r])).
  Proof.
    destruct (two_ok e (EAlt l r)) as [H1 H2 H3 H4 H5 H6 H7 H8], (two_ok e l) as [L1 L2 L3 L4 L5 L6 L7 L8], (two_ok e r) as [R1 R2 R3 R4 R5 R6 R7 R8].
    split; try intros w.
    - rewrite (H1 w). cbn [lang]. rewrite (cat_or_r (lang e) (lang l) (lang r) w), <- (L1 w), <- (R1 w). reflexivity.
    - rewrite H2. change (skippable (EAlt (seq [e; l]) (seq [e; r]))) with (skippable (seq [e; l]) \/ skippable (seq [e; r])). rewrite L2, R2.
      change (skippable (EAlt l r)) with (skippable l \/ skippable r). tauto.
    - rewrite (H3 w). cbn [lang]. rewrite (cat_or_r (lit_first e) (lang l) (lang r) w), <- (L3 w), <- (R3 w). reflexivity.
    - rewrite (H4 w). cbn [lang]. rewrite (cat_or_r (rep_first e) (lang l) (lang r) w), alt_first.
      change (rep_first (EAlt (seq [e; l]) (seq [e; r])) w) with (rep_first (seq [e; l]) w \/ rep_first (seq [e; r]) w). rewrite (L4 w), (R4 w). tauto.
    - rewrite (H5 w). cbn [begun]. rewrite (cat_or_r (lang e) (begun l) (begun r) w).
      change (begun (EAlt (seq [e; l]) (seq [e; r])) w) with (begun (seq [e; l]) w \/ begun (seq [e; r]) w). rewrite (L5 w), (R5 w). tauto.
    - rewrite (H6 w). cbn [begun]. rewrite (cat_or_r (lit_or_rep e) (begun l) (begun r) w).
      change (impl_begun (EAlt (seq [e; l]) (seq [e; r])) w) with (impl_begun (seq [e; l]) w \/ impl_begun (seq [e; r]) w). rewrite (L6 w), (R6 w).
      change (impl_begun (EAlt l r) w) with (impl_begun l w \/ impl_begun r w). tauto.
    - rewrite (H7 w). cbn [spins]. rewrite (cat_or_r (lang e) (spins l) (spins r) w).
      change (spins (EAlt (seq [e; l]) (seq [e; r])) w) with (spins (seq [e; l]) w \/ spins (seq [e; r]) w). rewrite (L7 w), (R7 w). tauto.
    - rewrite (H8 w). cbn [spins]. rewrite (cat_or_r (lit_or_rep e) (spins l) (spins r) w).
      change (impl_spins (EAlt (seq [e; l]) (seq [e; r])) w) with (impl_spins (seq [e; l]) w \/ impl_spins (seq [e; r]) w). rewrite (L8 w), (R8 w).
      change (impl_spins (EAlt l r) w) with (impl_spins l w \/ impl_spins r w). tauto.
  Qed.

  Lemma same_like e e' : same e e' -> like e e'.
  Proof.
    induction 1; eauto using like_refl, like_sym, like_trans, like_cons, like_both, like_in, like_set, like_count_lit, like_count, like_letter,
      like_paren, like_one, like_flat, like_comm, like_assoc, like_twice, like_left, like_right.
  Qed.

  (** What the lexer looks at. *)
  Record alike (e e' : expr) : Prop := {
    al_lang : weq (impl_lang e) (impl_lang e');
    al_begun : weq (impl_begun e) (impl_begun e');
    al_spin : weq (spinning e) (spinning e')
  }.
  Lemma like_alike e e' : like e e' -> alike e e'.
  Proof.
    intros []. split.
    - intros w. unfold impl_lang. solve_weq.
    - assumption.
    - intros w. unfold spinning. solve_weq.
  Qed.

  Lemma plus_alike l : alike (ELit l (Some QPlus)) (seq [ELit l None; ELit l (Some QAsterisk)]).
  Proof.
    set (A := fun w => exists c, w = [c] /\ lit_set l c).
    destruct (two_ok (ELit l None) (ELit l (Some QAsterisk))) as [H1 H2 H3 H4 H5 H6 H7 H8]. split.
    - intros w. unfold impl_lang. rewrite H2, (H3 w), (H4 w). cbn [skippable lit_first rep_first lang lang_quant allowed]. fold A.
      rewrite (cat_none (lang_quant (Some QAsterisk) A) w). split.
      + intros [[H _]|[[]|(n & _ & (u & v & -> & Hu & Hv))]]; [lia|]. right. left. exists u, v. split; [reflexivity|]. split; [exact Hu|]. exists n. split; [exact I|exact Hv].
      + intros [[[[] _] _]|[(u & v & -> & Hu & (n & _ & Hv))|[[]|[[] _]]]]. right. right. exists n. split; [lia|]. exists u, v. auto.
    - intros w. rewrite (H6 w). change (impl_begun (ELit l (Some QPlus)) w) with (exists n, lang_pow A n w).
      change (impl_begun (ELit l None) w) with (w = [] \/ A w). change (skippable (ELit l None)) with False. split.
      + intros ([|n] & H); [left; left; exact H|]. destruct H as (u & v & -> & Hu & Hv). right. left. exists u, v.
        split; [reflexivity|]. split; [left; exact Hu|]. exists n. exact Hv.
      + intros [[->|H]|[(u & v & -> & [Hu|[]] & (n & Hv))|[[] _]]].
        * exists 0. reflexivity.
        * exists 1, w, []. rewrite app_nil_r. repeat split; exact H.
        * exists (S n), u, v. auto.
    - intros w. unfold spinning. split.
      + intros (u & v & _ & []).
      + intros (u & v & _ & H). apply (H8 u) in H. destruct H as [[]|[(a & b & _ & _ & [])|[[] _]]].
  Qed.
  Lemma alike_sym e e' : alike e e' -> alike e' e.
  Proof. intros []. split; intros w; symmetry; auto. Qed.
  Lemma alike_trans e e' e'' : alike e e' -> alike e' e'' -> alike e e''.
  Proof. intros [] []. split; eapply weq_trans; eassumption. Qed.
  Lemma pattern_alike e e' : same_pattern e e' -> alike e e'.
  Proof. induction 1; eauto using like_alike, same_like, plus_alike, alike_sym, alike_trans. Qed.
End Laws.
