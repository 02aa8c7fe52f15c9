(** The lexer tokenizes by maximal munch. *)
From Verif Require Import Base RegexModel SpecRegex NfaModel SpecNfa LexerModel SpecLexer SpecMunch LexerWitness.

Section Munch.
  Context {env : Env} {K : Type}.

  Lemma first_match_matched L es x i : first_match L es x i -> matched L es x.
  Proof. intros ((e & He & Hx) & _). exists e. split; [eapply nth_error_In; eauto|auto]. Qed.

  Lemma first_match_unique L es x i i' : first_match L es x i -> first_match L es x i' -> i = i'.
  Proof.
    intros ((e & He & Hx) & H) ((e' & He' & Hx') & H'). destruct (Nat.lt_trichotomy i i') as [Hl|[Hl|Hl]]; [|auto|].
    - destruct (H' i e Hl He Hx).
    - destruct (H i' e' Hl He' Hx').
  Qed.

  Lemma app_same_length {A} (x x' y y' : list A) : x ++ y = x' ++ y' -> length x = length x' -> x = x'.
  Proof.
    revert x'. induction x as [|a x IH]; intros [|a' x'] E H; try discriminate; auto. cbn in *. injection E as -> E. f_equal. apply IH; auto.
  Qed.

  Lemma munches_unique L es (gens : list (generator K)) input p ts : munches L es gens input p ts ->
    forall ts', munches L es gens input p ts' -> ts' = ts.
  Proof.
    induction 1 as [p He|p x y i g ts Hx Hne Hf Hg Hl Hm IH]; intros ts' H'; destruct H' as [p He'|p x' y' i' g' ts' Hx' Hne' Hf' Hg' Hl' Hm'].
    - reflexivity.
    - destruct (He x' y' Hx' Hne' (first_match_matched _ _ _ _ Hf')).
    - destruct (He' x y Hx Hne (first_match_matched _ _ _ _ Hf)).
    - assert (x' = x) as ->.
      { apply (app_same_length x' x y' y); [congruence|]. destruct (Nat.lt_trichotomy (length x') (length x)) as [H|[H|H]]; [|auto|].
        - destruct (Hl' x y Hx H (first_match_matched _ _ _ _ Hf)).
        - destruct (Hl x' y' Hx' H (first_match_matched _ _ _ _ Hf')). }
      rewrite (first_match_unique _ _ _ _ _ Hf' Hf) in Hg'. rewrite Hg in Hg'. injection Hg' as ->. f_equal. apply IH. exact Hm'.
  Qed.

  Lemma before_none_app {A} (ts : list A) rest : before_none (map Some ts ++ None :: rest) = ts.
  Proof. induction ts; cbn; [reflexivity|f_equal; auto]. Qed.

  Section Run.
    Context (ts : list (list char * generator K)) (input : list char) (lx : lexer K) (es : list expr).
    Context (Hb : build_lexer ts input = Val (inl lx)) (Hp : parsed ts es).

    Lemma calls_munch L (ho : HashOrder) fuel n tks rest lx' : agreed L es -> steady es ->
      lex_calls fuel n lx = Val (map Some tks ++ None :: rest, lx') -> munches L es (map snd ts) input 0 tks.
    Proof.
      intros Ha Hs E. pose proof (steady_resumable es Hs) as Hr.
      pose proof (lexer_tiles ts input lx es Hb Hp ho fuel n _ lx' Hr E) as Ht. rewrite before_none_app in Ht.
      assert (Hk : forall t, In t tks -> exists i g, first_match L es (lt_source t) i /\ nth_error (map snd ts) i = Some g /\ lt_kind t = gen_run g (lt_source t)).
      { intros t Hi. eapply (lexer_kinds ts input lx es Hb Hp ho fuel n _ lx' t L Ha E). rewrite before_none_app. exact Hi. }
      assert (Hl : forall t, In t tks -> forall x y, skipn (fst (lt_pos t)) input = x ++ y -> length (lt_source t) < length x -> ~ matched L es x).
      { intros t Hi. eapply (lexer_longest ts input lx es Hb Hp ho fuel n _ lx' t L Ha Hr E). rewrite before_none_app. exact Hi. }
      pose proof (lexer_steady_none ts input lx es Hb Hp ho fuel n tks rest lx' L Ha Hs E) as He.
      clear E Hr Hs Ha rest lx'. change (consumed tks) with (0 + consumed tks) in He. revert Ht He Hk Hl. generalize 0 as p.
      induction tks as [|t tks IH]; intros p Ht He Hk Hl.
      - apply munch_end. unfold consumed in He. cbn in He. rewrite Nat.add_0_r in He. exact He.
      - inversion Ht as [|? ? ? Hpos Hne Hsrc Ht']; subst. destruct (Hk t (or_introl eq_refl)) as (i & g & Hf & Hg & Hkind).
        destruct t as [k src pos]. cbn [lt_kind lt_source lt_pos] in *. subst k pos.
        apply munch_token with (y := skipn (length src) (skipn p input)) (i := i); auto.
        + rewrite Hsrc at 1. symmetry. apply firstn_skipn.
        + intros x y Ex. apply (Hl _ (or_introl eq_refl) x y). exact Ex.
        + apply IH; auto.
          * intros x y Ex. apply (He x y). unfold consumed in *. cbn [map list_sum fold_right lt_source]. 
            change (fold_right Nat.add 0) with list_sum. rewrite Nat.add_assoc. exact Ex.
          * intros t Hi. apply Hk. right. exact Hi.
          * intros t Hi. apply Hl. right. exact Hi.
    Qed.

    Lemma calls_length (ho : HashOrder) fuel : forall n (l : lexer K) os lx', lex_calls fuel n l = Val (os, lx') -> length os = n.
    Proof.
      induction n as [|n IH]; intros l os lx'; cbn [lex_calls]; [intros [= <- <-]; reflexivity|].
      destruct (lex_next fuel l) as [[o l1]| |]; cbn [bind]; try discriminate.
      destruct (lex_calls fuel n l1) as [[os' l2]| |] eqn:E; cbn [bind]; try discriminate. intros [= <- <-]. cbn. f_equal. eauto.
    Qed.

    Lemma calls_prefix (ho : HashOrder) fuel m : forall n (l : lexer K) os lx', m <= n -> lex_calls fuel n l = Val (os, lx') ->
      exists l1, lex_calls fuel m l = Val (firstn m os, l1).
    Proof.
      induction m as [|m IH]; intros n l os lx' Hle; [exists l; reflexivity|]. destruct n as [|n]; [lia|]. cbn [lex_calls].
      destruct (lex_next fuel l) as [[o l1]| |]; cbn [bind]; try discriminate.
      destruct (lex_calls fuel n l1) as [[os' l2]| |] eqn:E; cbn [bind]; try discriminate. intros [= <- <-].
      destruct (IH n l1 os' l2 ltac:(lia) E) as (l3 & E3). rewrite E3. cbn. eauto.
    Qed.

    (** A list of calls that is long enough has a [None]. *)
    Lemma first_none {A} (os : list (option A)) : length (somes os) < length os -> exists tks rest, os = map Some tks ++ None :: rest.
    Proof.
      induction os as [|[a|] os IH]; cbn; intros H; [lia| |exists [], os; reflexivity].
      destruct IH as (tks & rest & ->); [lia|]. exists (a :: tks), rest. reflexivity.
    Qed.

    Lemma lexer_munch L : agreed L es -> steady es -> (forall e, In e es -> loops_ok e = true) ->
      exists tks, munches L es (map snd ts) input 0 tks /\
        forall n, exists N rest lx', forall (ho : HashOrder) fuel, N <= fuel ->
          lex_calls fuel (length tks + S n) lx = Val (map Some tks ++ None :: rest, lx').
    Proof.
      intros Ha Hs Hl. destruct (lexer_terminates ts input lx es (S (length input)) Hb Hp Hl) as (N & os & lx' & HN).
      pose proof (HN id_order N (Nat.le_refl _)) as E. pose proof (calls_length _ _ _ _ _ _ E) as Elen.
      destruct (lexer_progress ts input lx id_order N _ os lx' Hb E) as (_ & Hlen & _).
      destruct (first_none os) as (tks & rest & ->); [lia|]. exists tks. split; [eapply (calls_munch L id_order); eauto|].
      intros n. destruct (lexer_terminates ts input lx es (length tks + S n) Hb Hp Hl) as (N2 & os2 & lx2 & HN2).
      exists (Nat.max N N2). assert (exists rest2, os2 = map Some tks ++ None :: rest2) as (rest2 & ->).
      { pose proof (HN id_order (Nat.max N N2) ltac:(lia)) as E1. pose proof (HN2 id_order (Nat.max N N2) ltac:(lia)) as E2.
        assert (H1 : S (length tks) <= S (length input)) by (rewrite <- Elen, app_length, map_length; cbn; lia).
        assert (H2 : S (length tks) <= length tks + S n) by lia.
        destruct (calls_prefix _ _ (S (length tks)) _ _ _ _ H1 E1) as (l1 & P1).
        destruct (calls_prefix _ _ (S (length tks)) _ _ _ _ H2 E2) as (l2 & P2). rewrite P1 in P2.
        assert (P3 : forall (a b : list (option (ltoken K))) (c d : lexer K), Val (a, c) = Val (b, d) -> b = a) by congruence. apply P3 in P2.
        exists (skipn (S (length tks)) os2). rewrite <- (firstn_skipn (S (length tks)) os2) at 1. rewrite P2.
        rewrite firstn_app, map_length. replace (S (length tks) - length tks) with 1 by lia.
        rewrite firstn_all2 by (rewrite map_length; lia). cbn. rewrite <- app_assoc. reflexivity. }
      exists rest2, lx2. intros ho fuel Hf. apply HN2. lia.
    Qed.
  End Run.
End Munch.
