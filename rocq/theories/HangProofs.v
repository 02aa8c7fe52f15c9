(** The function of [SpecHang.v] is right. *)
From Verif Require Import Base RegexModel SpecRegex NfaModel SpecNfa NfaCompileProofs NfaLangProofs SpecSpin NfaSpin SpecHang RegexProofs
  LexerModel SpecLexer SpecCalls SpecStuck LexerProofs LexerWitness DecideProofs DecideLexer TurnProofs ExactProofs.
From Verif Require CountProofs.

Lemma expr_list_ind (P : expr -> Prop) : P (EConcat []) -> (forall e es, P e -> P (EConcat es) -> P (EConcat (e :: es))) -> P EEmpty ->
  (forall l r, P l -> P r -> P (EAlt l r)) -> (forall l q, P (ELit l q)) -> (forall e q, P e -> P (EGroup e q)) -> forall e, P e.
Proof.
  intros H0 H1 H2 H3 H4 H5. apply expr_ind'; auto. intros es H. induction H; auto.
Qed.

Definition some_text (L : list char -> Prop) : Prop := exists w, L w.

Lemma some_cat L1 L2 : some_text (lang_cat L1 L2) <-> some_text L1 /\ some_text L2.
Proof.
  split.
  - intros (w & u & v & _ & H1 & H2). split; eexists; eassumption.
  - intros [(u & H1) (v & H2)]. exists (u ++ v), u, v. auto.
Qed.
Lemma some_or (L1 L2 : list char -> Prop) : some_text (fun w => L1 w \/ L2 w) <-> some_text L1 \/ some_text L2.
Proof. split; [intros (w & [H|H]); [left|right]; exists w; assumption|intros [(w & H)|(w & H)]; exists w; auto]. Qed.
Lemma some_and (P : Prop) (L : list char -> Prop) : some_text (fun w => P /\ L w) <-> P /\ some_text L.
Proof. split; [intros (w & H1 & H2); split; [assumption|exists w; assumption]|intros [H1 (w & H2)]; exists w; auto]. Qed.
Lemma some_iff (L L' : list char -> Prop) : (forall w, L w <-> L' w) -> some_text L <-> some_text L'.
Proof. intros H. split; intros (w & Hw); exists w; apply H; assumption. Qed.
Lemma some_not : some_text (fun _ => False) <-> False.
Proof. split; [intros (w & []) | tauto]. Qed.
Lemma some_nil : some_text (fun w => w = []) <-> True.
Proof. split; [auto|]. exists []. reflexivity. Qed.
Lemma some_pow L n : some_text L -> some_text (lang_pow L n).
Proof. intros H. induction n as [|n IH]; cbn [lang_pow]; [apply some_nil; exact I|]. apply some_cat. auto. Qed.

Lemma count_some q : some_count q = true <-> exists n, allowed q n.
Proof.
  destruct q as [| | |m|m|a b]; cbn; split; try reflexivity.
  - exists 0. exact I. - exists 1. lia. - exists 1. lia. - exists (N.to_nat m). lia. - exists (N.to_nat m). lia.
  - intros H. apply N.leb_le in H. exists (N.to_nat a). lia.
  - intros (n & H). apply N.leb_le. lia.
Qed.
Lemma count_more q : more_count q = true <-> exists n, allowed q (S n).
Proof.
  destruct q as [| | |m|m|a b]; cbn -[N.of_nat N.ltb N.leb]; split; try reflexivity.
  - exists 0. exact I. - exists 0. lia. - exists 0. lia.
  - intros H. apply N.ltb_lt in H. exists (N.to_nat m - 1). lia.
  - intros (n & H). apply N.ltb_lt. lia.
  - exists (N.to_nat m). lia.
  - intros H. apply andb_true_iff in H. destruct H as [H1 H2]. apply N.leb_le in H1. apply N.ltb_lt in H2. exists (N.to_nat b - 1). lia.
  - intros (n & H). apply andb_true_iff. split; [apply N.leb_le|apply N.ltb_lt]; lia.
Qed.

Lemma quant_some q L : some_text (lang_quant (Some q) L) <-> allowed q 0 \/ (some_text L /\ exists n, allowed q n).
Proof.
  cbn [lang_quant]. split.
  - intros (w & [|n] & Ha & H); [auto|]. right. cbn in H. destruct H as (u & v & _ & H & _). split; [exists u; exact H|eauto].
  - intros [H|[H (n & Ha)]]; [exists [], 0; auto; split; [exact H|reflexivity]|]. destruct (some_pow L n H) as (w & Hw). exists w, n. auto.
Qed.

Section Hang.
  Context {env : Env}.
  Variable fits : lit -> bool.

  Lemma one_some l : some_text (fun w => exists c, w = [c] /\ lit_set l c) <-> exists c, lit_set l c.
  Proof. split; [intros (w & c & _ & H); eauto|intros (c & H); exists [c], c; auto]. Qed.

  Lemma filled_spec : forall e, told fits e -> (filled fits e = true <-> some_text (lang e)).
  Proof.
    induction e as [|e es IHe IHes| |l r IHl IHr|l q|e q IH] using expr_list_ind; intros Ht.
    - cbn. rewrite some_nil. tauto.
    - destruct Ht as [H1 H2]. change (filled fits (EConcat (e :: es))) with (filled fits e && filled fits (EConcat es)).
      rewrite andb_true_iff, (some_iff _ _ (lang_seq e es)), some_cat, IHe, IHes by assumption. reflexivity.
    - cbn. rewrite some_nil. tauto.
    - destruct Ht as [H1 H2]. cbn [filled lang]. rewrite orb_true_iff, some_or, IHl, IHr by assumption. reflexivity.
    - cbn [told] in Ht. destruct q as [q|]; cbn [filled lang].
      + rewrite quant_some, orb_true_iff, andb_true_iff, satisfied_allowed, Ht, one_some, count_some. reflexivity.
      + exact (iff_trans Ht (iff_sym (one_some l))).
    - cbn [told] in Ht. destruct q as [q|]; cbn [filled lang].
      + rewrite quant_some, orb_true_iff, andb_true_iff, satisfied_allowed, (IH Ht), count_some. reflexivity.
      + exact (IH Ht).
  Qed.

  Lemma lit_front_spec : forall e, told fits e -> (lit_front fits e = true <-> some_text (lit_first e)).
  Proof.
    induction e as [|e es IHe IHes| |l r IHl IHr|l q|e q IH] using expr_list_ind; intros Ht.
    - cbn. rewrite some_not. split; [discriminate|tauto].
    - destruct Ht as [H1 H2]. change (lit_front fits (EConcat (e :: es))) with (lit_front fits e && filled fits (EConcat es)).
      rewrite andb_true_iff, (some_iff _ _ (lit_first_seq e es)), some_cat, IHe, (filled_spec (EConcat es)) by assumption. reflexivity.
    - cbn. rewrite some_not. split; [discriminate|tauto].
    - destruct Ht as [H1 H2]. cbn [lit_front lit_first]. rewrite orb_true_iff, some_or, IHl, IHr by assumption. reflexivity.
    - cbn [told] in Ht. destruct q as [q|]; cbn [lit_front lit_first]; [rewrite some_not; split; [discriminate|tauto]|]. rewrite one_some. exact Ht.
    - cbn [told] in Ht. destruct q as [q|]; cbn [lit_front lit_first]; [rewrite some_not; split; [discriminate|tauto]|]. exact (IH Ht).
  Qed.

  Lemma rep_filled : forall e, some_text (rep_first e) -> some_text (lang e).
  Proof.
    induction e as [|e es IHe IHes| |l r IHl IHr|l q|e q IH] using expr_list_ind.
    - cbn. rewrite some_not. tauto.
    - rewrite (some_iff _ _ (lang_seq e es)), (some_iff _ _ (rep_first_seq e es)), some_or, some_and, some_or, !some_cat.
      intros [[H1 H2]|[H1 H2]]; [auto|]. split; [exists []; apply skippable_lang; exact H1|]. destruct H2 as [(w & H2)|H2]; [exists w; apply lit_first_lang; exact H2|auto].
    - cbn. rewrite some_not. tauto.
    - cbn [rep_first lang]. rewrite !some_or. tauto.
    - destruct q as [q|]; cbn [rep_first lang]; [|rewrite some_not; tauto]. intros (w & n & H). exists w, (S n). exact H.
    - destruct q as [q|]; cbn [rep_first lang]; [|exact IH]. rewrite some_or. intros [(w & n & Ha & u & v & _ & H1 & H2)|(w & n & Ha & u & v & _ & H1 & H2)].
      + exists (u ++ v), (S n). split; [exact Ha|]. exists u, v. split; [reflexivity|]. split; [apply lit_first_lang; exact H1|exact H2].
      + exists v, n. auto.
  Qed.

  Lemma rep_front_spec : forall e, told fits e -> (rep_front fits e = true <-> some_text (rep_first e)).
  Proof.
    induction e as [|e es IHe IHes| |l r IHl IHr|l q|e q IH] using expr_list_ind; intros Ht.
    - cbn. rewrite some_not. split; [discriminate|tauto].
    - destruct Ht as [H1 H2].
      change (rep_front fits (EConcat (e :: es))) with ((rep_front fits e && filled fits (EConcat es)) || (may_skip e && (lit_front fits (EConcat es) || rep_front fits (EConcat es)))).
      rewrite orb_true_iff, !andb_true_iff, orb_true_iff, (some_iff _ _ (rep_first_seq e es)), some_or, some_and, some_or, some_cat, IHe, IHes,
        (filled_spec (EConcat es)), (lit_front_spec (EConcat es)), may_skip_skippable by assumption. reflexivity.
    - cbn. rewrite some_not. split; [discriminate|tauto].
    - destruct Ht as [H1 H2]. cbn [rep_front rep_first]. rewrite orb_true_iff, some_or, IHl, IHr by assumption. reflexivity.
    - cbn [told] in Ht. destruct q as [q|]; cbn [rep_front rep_first]; [|rewrite some_not; split; [discriminate|tauto]].
      rewrite andb_true_iff, Ht, count_more, <- one_some. split.
      + intros [H (n & Ha)]. destruct (some_pow _ (S n) H) as (w & Hw). exists w, n. auto.
      + intros (w & n & Ha & u & v & _ & H & _). split; [exists u; exact H|eauto].
    - cbn [told] in Ht. destruct q as [q|]; cbn [rep_front rep_first]; [|exact (IH Ht)].
      rewrite some_or, orb_true_iff, !andb_true_iff, (IH Ht), (lit_front_spec e Ht), count_more, (filled_spec (EGroup e (Some q)) Ht). split.
      + intros [[H (n & Ha)]|[H (w & n & Ha & Hw)]].
        * left. assert (Hl : some_text (lang e)) by (destruct H as (u & H); exists u; apply lit_first_lang; exact H).
          destruct H as (u & H), (some_pow _ n Hl) as (v & Hv). exists (u ++ v), n. split; [exact Ha|]. exists u, v. auto.
        * right. destruct H as (u & H). exists (u ++ w), n. split; [exact Ha|]. exists u, w. auto.
      + intros [(w & n & Ha & u & v & _ & H1 & H2)|(w & n & Ha & u & v & _ & H1 & H2)].
        * left. split; [exists u; exact H1|eauto].
        * right. split; [exists u; exact H1|]. exists v, n. auto.
  Qed.

  Lemma front_spec e : told fits e -> (front fits e = true <-> some_text (fun u => lit_first e u \/ rep_first e u)).
  Proof. intros Ht. unfold front. rewrite orb_true_iff, some_or, lit_front_spec, rep_front_spec by exact Ht. reflexivity. Qed.

  Lemma inside_spec : forall e, told fits e -> (inside fits e = true <-> some_text (spins e)).
  Proof.
    induction e as [|e es IHe IHes| |l r IHl IHr|l q|e q IH] using expr_list_ind; intros Ht.
    - cbn. rewrite some_not. split; [discriminate|tauto].
    - destruct Ht as [H1 H2]. change (inside fits (EConcat (e :: es))) with (inside fits e || (filled fits e && inside fits (EConcat es))).
      rewrite orb_true_iff, andb_true_iff, (some_iff _ _ (spins_seq e es)), some_or, some_cat, IHe, IHes, (filled_spec e) by assumption. reflexivity.
    - cbn. rewrite some_not. split; [discriminate|tauto].
    - destruct Ht as [H1 H2]. cbn [inside spins]. rewrite orb_true_iff, some_or, IHl, IHr by assumption. reflexivity.
    - cbn. rewrite some_not. split; [discriminate|tauto].
    - cbn [told] in Ht. destruct q as [q|]; cbn [inside spins]; [|exact (IH Ht)].
      rewrite orb_true_iff, nullable_spec, (IH Ht). split.
      + intros [H|(w & H)]; [exists []|exists w]; exists 0; [exists [], []|exists [], w]; (split; [reflexivity|]; split; [reflexivity|]); auto.
      + intros (w & n & u & v & _ & _ & [[_ H]|H]); [auto|right; exists v; exact H].
  Qed.

  Lemma hangs_spec : forall e, told fits e -> (hangs fits e = true <-> some_text (impl_spins e)).
  Proof.
    induction e as [|e es IHe IHes| |l r IHl IHr|l q|e q IH] using expr_list_ind; intros Ht.
    - cbn. rewrite some_not. split; [discriminate|tauto].
    - destruct Ht as [H1 H2].
      change (hangs fits (EConcat (e :: es))) with (hangs fits e || (front fits e && inside fits (EConcat es)) || (may_skip e && hangs fits (EConcat es))).
      rewrite !orb_true_iff, !andb_true_iff, (some_iff _ _ (impl_spins_seq e es)), !some_or, some_and, some_cat, IHe, IHes, (front_spec e), (inside_spec (EConcat es)), may_skip_skippable by assumption. tauto.
    - cbn. rewrite some_not. split; [discriminate|tauto].
    - destruct Ht as [H1 H2]. cbn [hangs impl_spins]. rewrite orb_true_iff, some_or, IHl, IHr by assumption. reflexivity.
    - cbn. rewrite some_not. split; [discriminate|tauto].
    - cbn [told] in Ht. destruct q as [q|]; [|exact (IH Ht)]. 
      change (hangs fits (EGroup e (Some q))) with (hangs fits e || (front fits e && inside fits (EGroup e (Some q)))).
      change (some_text (impl_spins (EGroup e (Some q)))) with
        (some_text (fun w => impl_spins e w \/ lang_cat (fun u => lit_first e u \/ rep_first e u) (spins (EGroup e (Some q))) w)).
      rewrite orb_true_iff, andb_true_iff, some_or, some_cat, (IH Ht), (front_spec e Ht), (inside_spec (EGroup e (Some q)) Ht). reflexivity.
  Qed.

  Lemma hangs_spinning e : told fits e -> (hangs fits e = true <-> exists w, spinning e w).
  Proof.
    intros Ht. rewrite (hangs_spec e Ht). split.
    - intros (w & Hw). exists w, w, []. rewrite app_nil_r. auto.
    - intros (w & u & v & _ & Hu). exists u. exact Hu.
  Qed.

  (** ** Matching and lexing *)
  Lemma matching_hangs e m : nfa_from e = Val m -> told fits e ->
    (hangs fits e = true <-> exists w, forall (ho : HashOrder) fuel, simulate fuel m w = Diverge).
  Proof.
    intros Hm Ht. rewrite (hangs_spinning e Ht). split; intros (w & Hw); exists w.
    - intros ho. apply (matching_never_ends ho e m w Hm). exact Hw.
    - apply (matching_never_ends id_order e m w Hm). apply Hw.
  Qed.

  Lemma matching_safe e m : nfa_from e = Val m -> told fits e -> hangs fits e = false -> forall w (ho : HashOrder) fuel,
    length (nfa_states m) * 5 ^ length (nfa_states m) <= fuel -> exists b, simulate fuel m w = Val b.
  Proof.
    intros Hm Ht Hh w ho fuel Hf. destruct (simulate fuel m w) as [b| |] eqn:E; [eauto|exfalso|exfalso].
    - exact (from_no_panic ho e m fuel w Hm E).
    - apply (from_decided e m ho fuel w Hm Hf) in E. assert (Hx : hangs fits e = true) by (apply (hangs_spinning e Ht); eauto). congruence.
  Qed.

  Lemma other_input {K : Type} (ts : list (list char * generator K)) input lx input' : build_lexer ts input = Val (inl lx) ->
    exists lx', build_lexer ts input' = Val (inl lx') /\ lx_nfa lx' = lx_nfa lx.
  Proof.
    unfold build_lexer. destruct (@lexgen_new K) as [lg0| |]; try discriminate. cbn [bind].
    destruct (add_tokens lg0 ts) as [[lg|errs]| |]; try discriminate. cbn [bind]. unfold tokenize.
    destruct (compiler_compile (lg_compiler lg)) as [m| |]; try discriminate. cbn [bind]. intros E. injection E as <-. eauto.
  Qed.

  Lemma lexing_hangs {K : Type} (ts : list (list char * generator K)) es input lx : build_lexer ts input = Val (inl lx) -> parsed ts es ->
    (forall e, In e es -> told fits e) ->
    (existsb (hangs fits) es = true <->
     exists input' lx' n, build_lexer ts input' = Val (inl lx') /\ forall (ho : HashOrder) fuel, lex_calls fuel n lx' = Diverge).
  Proof.
    intros Hb Hp Ht. rewrite existsb_exists. split.
    - intros (e & He & Hh). apply (hangs_spinning e (Ht e He)) in Hh. destruct Hh as (w & Hw).
      destruct (other_input ts input lx w Hb) as (lx' & Hb' & _). exists w, lx', 1. split; [exact Hb'|]. intros ho.
      apply (lexing_never_ends ts w lx' es impl_lang 1 ho Hb' Hp (or_introl eq_refl)).
      exists [], (starting w). split; [constructor|]. split; [cbn; lia|]. exists e. split; [exact He|].
      unfold ahead, starting. cbn [h_back h_rest app]. rewrite letters_places. exact Hw.
    - intros (w & lx' & n & Hb' & Hd).
      destruct (proj1 (lexing_never_ends ts w lx' es impl_lang n id_order Hb' Hp (or_introl eq_refl)) (Hd id_order)) as (os & s & _ & _ & e & He & Hs).
      exists e. split; [exact He|]. apply (hangs_spinning e (Ht e He)). eauto.
  Qed.

  Lemma lexing_safe {K : Type} (ts : list (list char * generator K)) es input lx : build_lexer ts input = Val (inl lx) -> parsed ts es ->
    (forall e, In e es -> told fits e) -> existsb (hangs fits) es = false -> forall n (ho : HashOrder) fuel,
    length (nfa_states (lx_nfa lx)) * 5 ^ length (nfa_states (lx_nfa lx)) <= fuel -> exists r, lex_calls fuel n lx = Val r.
  Proof.
    intros Hb Hp Ht Hh n ho fuel Hf. destruct (lex_calls fuel n lx) as [r| |] eqn:E; [eauto|exfalso|exfalso].
    - exact (lexer_no_panic ts input lx ho fuel n Hb E).
    - apply (lexer_decided ts input lx es impl_lang n ho fuel Hb Hp (or_introl eq_refl) Hf) in E. destruct E as (os & s & _ & _ & e & He & Hs).
      assert (Hx : existsb (hangs fits) es = true) by (apply existsb_exists; exists e; split; [exact He|apply (hangs_spinning e (Ht e He)); eauto]). congruence.
  Qed.
End Hang.
