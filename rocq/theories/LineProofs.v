(** Lexing a text in parts. *)
From Verif Require Import Base RegexModel SpecRegex NfaModel SpecNfa LexerModel SpecLexer SpecMunch SpecLines LexerWitness LexerMunch LexerRef.

Section Parts.
  Context {env : Env} {K : Type} (L : expr -> list char -> Prop) (es : list expr) (gens : list (generator K)).

  Lemma skipn_shift {A} (q p : nat) (l : list A) : skipn (q + p) l = skipn p (skipn q l).
  Proof. revert l. induction q as [|q IH]; intros [|x l]; cbn; auto. destruct p; reflexivity. Qed.

  Lemma munches_later input q p tks : munches L es gens (skipn q input) p tks -> munches L es gens input (q + p) (map (later q) tks).
  Proof.
    induction 1 as [p He|p x y i g ts Hx Hne Hf Hg Hl _ IH].
    - constructor. intros x y Hx. rewrite skipn_shift in Hx. exact (He x y Hx).
    - cbn [map]. unfold later at 1. cbn [lt_kind lt_source lt_pos fst snd]. rewrite Nat.add_assoc in *.
      apply (munch_token L es gens input (q + p) x y i g); auto.
      + rewrite skipn_shift. exact Hx.
      + intros x' y'. rewrite skipn_shift. apply Hl.
  Qed.

  Lemma munches_after input tks1 : forall p tks2, munches L es gens input p (tks1 ++ tks2) ->
    munches L es gens input (p + length (flat_map lt_source tks1)) tks2.
  Proof.
    induction tks1 as [|t tks1 IH]; intros p tks2 H; [rewrite Nat.add_0_r; exact H|]. cbn [app] in H.
    inversion H as [|p' x y i g ts' Hx Hne Hf Hg Hl Hm E1 E2]; subst. cbn [flat_map lt_source]. rewrite app_length, Nat.add_assoc.
    apply IH. exact Hm.
  Qed.

  Variable c : char.
  Hypothesis Hbreak : breaks es c.
  Hypothesis Hfeed : forall x, matched L es x -> feedable es x.

  Lemma no_crossing r y x z : r ++ c :: y = x ++ z -> r <> [] -> length r < length x -> ~ matched L es x.
  Proof.
    intros E Hr Hlt Hm. apply Hfeed in Hm.
    assert (exists w, x = (r ++ [c]) ++ w) as (w & ->).
    { apply app_eq_app in E. destruct E as (w & [[E1 E2]|[E1 E2]]); [subst r; rewrite app_length in Hlt; lia|].
      subst x. destruct w as [|c' w]; [rewrite app_nil_r in Hlt; lia|]. cbn in E2. injection E2 as <- _. exists w. rewrite <- app_assoc. reflexivity. }
    apply feedable_app in Hm. exact (Hbreak r Hr Hm).
  Qed.

  Lemma skipn_in {A} p (u v : list A) : p <= length u -> skipn p (u ++ v) = skipn p u ++ v.
  Proof. intros H. rewrite skipn_app. replace (p - length u) with 0 by lia. reflexivity. Qed.

  Lemma munches_break u v p tks : munches L es gens u p tks -> p <= length u ->
    (p + length (flat_map lt_source tks) = length u -> forall tks', munches L es gens (u ++ c :: v) (length u) tks' ->
      munches L es gens (u ++ c :: v) p (tks ++ tks')) /\
    (p + length (flat_map lt_source tks) <> length u -> munches L es gens (u ++ c :: v) p tks).
  Proof.
    induction 1 as [p He|p x y i g ts Hx Hne Hf Hg Hl _ IH]; intros Hp.
    - cbn [flat_map length app]. rewrite Nat.add_0_r. split; [intros -> tks' H; exact H|]. intros Hn. constructor.
      intros x y Hx Hne Hm. rewrite skipn_in in Hx by exact Hp.
      assert (Hr : skipn p u <> []) by (intros X; apply (f_equal (@length _)) in X; rewrite skipn_length in X; cbn in X; lia).
      destruct (Nat.le_gt_cases (length x) (length (skipn p u))) as [Hle|Hgt]; [|exact (no_crossing _ _ _ _ Hx Hr Hgt Hm)].
      apply app_eq_app in Hx. destruct Hx as (w & [[E1 E2]|[E1 E2]]); [exact (He x w E1 Hne Hm)|].
      subst x. rewrite app_length in Hle. destruct w; [|cbn in Hle; lia]. rewrite app_nil_r in *. exact (He (skipn p u) [] (eq_sym (app_nil_r _)) Hr Hm).
    - assert (Hlen : p + length x <= length u).
      { apply (f_equal (@length _)) in Hx. rewrite skipn_length, app_length in Hx. destruct x; [congruence|]. cbn in *. lia. }
      destruct (IH Hlen) as [IH1 IH2]. cbn [flat_map lt_source app]. rewrite app_length, Nat.add_assoc.
      assert (Hone : forall tks', munches L es gens (u ++ c :: v) (p + length x) tks' ->
        munches L es gens (u ++ c :: v) p ({| lt_kind := gen_run g x; lt_source := x; lt_pos := (p, p + length x) |} :: tks')).
      { intros tks' H'. apply (munch_token L es gens (u ++ c :: v) p x (y ++ c :: v) i g); auto.
        - rewrite skipn_in, Hx by exact Hp. rewrite <- app_assoc. reflexivity.
        - intros x' y' Hx' Hlt Hm. rewrite skipn_in in Hx' by exact Hp.
          assert (Hr : skipn p u <> []) by (rewrite Hx; destruct x; [congruence|discriminate]).
          destruct (Nat.le_gt_cases (length x') (length (skipn p u))) as [Hle|Hgt]; [|exact (no_crossing _ _ _ _ Hx' Hr Hgt Hm)].
          apply app_eq_app in Hx'. destruct Hx' as (w & [[E1 E2]|[E1 E2]]); [exact (Hl x' w E1 Hlt Hm)|].
          subst x'. rewrite app_length in Hle. destruct w; [|cbn in Hle; lia]. rewrite app_nil_r in *.
          exact (Hl (skipn p u) [] (eq_sym (app_nil_r _)) Hlt Hm). }
      split; auto.
  Qed.
End Parts.

Section Lexers.
  Context {env : Env} {K : Type}.

  Lemma munch_tokens (ts : list (list char * generator K)) input lx es L :
    build_lexer ts input = Val (inl lx) -> parsed ts es -> agreed L es -> steady es -> (forall e, In e es -> loops_ok e = true) ->
    exists tks, munches L es (map snd ts) input 0 tks /\ tokens_are lx tks.
  Proof.
    intros Hb Hp Ha Hs Hl. destruct (lexer_munch ts input lx es Hb Hp L Ha Hs Hl) as (tks & Hm & Hc). exists tks. split; [exact Hm|].
    destruct (Hc 0) as (N & rest & lx' & HN). pose proof (HN id_order N (le_n _)) as E. pose proof (calls_length _ _ _ _ _ _ E) as El.
    rewrite app_length, map_length in El. cbn in El. destruct rest; [|cbn in El; lia].
    exists N, lx'. intros ho fuel Hf. rewrite <- (HN ho fuel Hf). f_equal. lia.
  Qed.

  Lemma restart (ts : list (list char * generator K)) input lx es :
    build_lexer ts input = Val (inl lx) -> parsed ts es -> steady es -> (forall e, In e es -> loops_ok e = true) ->
    exists tks, tokens_are lx tks /\
      forall tks1 tks2 lx2, tks = tks1 ++ tks2 ->
        build_lexer ts (skipn (length (flat_map lt_source tks1)) input) = Val (inl lx2) ->
        exists tks2', tokens_are lx2 tks2' /\ tks2 = map (later (length (flat_map lt_source tks1))) tks2'.
  Proof.
    intros Hb Hp Hs Hl. assert (Ha : agreed impl_lang es) by (left; reflexivity).
    destruct (munch_tokens ts input lx es impl_lang Hb Hp Ha Hs Hl) as (tks & Hm & Ht). exists tks. split; [exact Ht|].
    intros tks1 tks2 lx2 -> Hb2. destruct (munch_tokens ts _ lx2 es impl_lang Hb2 Hp Ha Hs Hl) as (tks2' & Hm2 & Ht2).
    exists tks2'. split; [exact Ht2|]. apply munches_after in Hm. apply munches_later in Hm2. rewrite Nat.add_0_r in Hm2.
    symmetry. exact (munches_unique _ _ _ _ _ _ Hm _ Hm2).
  Qed.

  Lemma lines (ts : list (list char * generator K)) es u c v lx lu lv :
    parsed ts es -> steady es -> (forall e, In e es -> loops_ok e = true) -> breaks es c ->
    build_lexer ts (u ++ c :: v) = Val (inl lx) -> build_lexer ts u = Val (inl lu) -> build_lexer ts (c :: v) = Val (inl lv) ->
    exists tu tv, tokens_are lu tu /\ tokens_are lv tv /\
      (flat_map lt_source tu = u -> tokens_are lx (tu ++ map (later (length u)) tv)) /\
      (flat_map lt_source tu <> u -> tokens_are lx tu).
  Proof.
    intros Hp Hs Hl Hbr Hb Hbu Hbv. assert (Ha : agreed impl_lang es) by (left; reflexivity).
    destruct (munch_tokens ts _ lx es impl_lang Hb Hp Ha Hs Hl) as (tks & Hm & Ht).
    destruct (munch_tokens ts _ lu es impl_lang Hbu Hp Ha Hs Hl) as (tu & Hmu & Htu).
    destruct (munch_tokens ts _ lv es impl_lang Hbv Hp Ha Hs Hl) as (tv & Hmv & Htv).
    exists tu, tv. split; [exact Htu|]. split; [exact Htv|].
    destruct (munches_break impl_lang es (map snd ts) c Hbr (fun x => matched_feedable impl_lang ts u lu es x Hbu Hp Ha) u v 0 tu Hmu (Nat.le_0_l _)) as [H1 H2].
    pose proof (munches_later impl_lang es (map snd ts) (u ++ c :: v) (length u) 0 tv) as Hv.
    rewrite skipn_app, skipn_all, Nat.sub_diag, Nat.add_0_r in Hv. specialize (Hv Hmv).
    assert (Hpre : flat_map lt_source tu = firstn (length (flat_map lt_source tu)) u).
    { assert (G : forall p tks0, munches impl_lang es (map snd ts) u p tks0 -> flat_map lt_source tks0 = firstn (length (flat_map lt_source tks0)) (skipn p u)).
      { induction 1 as [p He|p x y i g ts0 Hx Hne Hf Hg Hl' _ IH]; [reflexivity|]. cbn [flat_map lt_source]. rewrite Hx, app_length, firstn_app_2.
        f_equal. rewrite IH at 1. f_equal. rewrite skipn_shift, Hx, skipn_app, skipn_all, Nat.sub_diag. reflexivity. }
      apply (G 0 tu Hmu). }
    cbn [Nat.add] in *. split; intros E.
    - specialize (H1 ltac:(rewrite E; reflexivity) _ Hv). rewrite (munches_unique _ _ _ _ _ _ Hm _ H1). exact Ht.
    - assert (Hn : length (flat_map lt_source tu) <> length u).
      { intros X. apply E. rewrite Hpre, X. apply firstn_all. }
      specialize (H2 Hn). rewrite (munches_unique _ _ _ _ _ _ Hm _ H2). exact Ht.
  Qed.
End Lexers.
