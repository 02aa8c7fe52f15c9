(** Proofs of the exact conditions for lexing (C98). *)
From Verif Require Import Base RegexModel SpecRegex SpecPanic RegexPanicProofs NfaModel SpecNfa LexerModel SpecLexer SpecMunch SpecCalls SpecExact LexerWitness LexerRef FrontProofs.
From Verif Require LexerMunch LexerProofs.

Section Exact.
  Context {env : Env} {K : Type}.

  Lemma letters_places w : letters (places w) = w.
  Proof.
    unfold letters, places. generalize 0. induction w as [|c w IH]; intros n; cbn; [reflexivity|]. f_equal. apply IH.
  Qed.

  Lemma letters_app x y : letters (x ++ y) = letters x ++ letters y.
  Proof. apply map_app. Qed.

  Variables (ts : list (list char * generator K)) (es : list expr) (L : expr -> list char -> Prop).
  Hypothesis Hp : parsed ts es.
  Hypothesis Ha : agreed L es.

  Lemma empty_calls os : forall f, calls L es (map snd ts) {| h_from := f; h_junk := []; h_back := []; h_rest := [] |} os -> Forall (fun o => o = None) os.
  Proof.
    induction os as [|o os IH]; intros f H; [constructor|]. inversion H as [|? ? s1 ? Hc Hr]; subst.
    inversion Hc as [u v c r i g E Hu|v c r E|i g Hne|Hf Ho]; subst; cbn in *.
    - destruct u; [congruence|discriminate].
    - destruct v; discriminate.
    - congruence.
    - constructor; eauto.
  Qed.

  (** A text that can be fed but is not matched gives [None] for ever. *)
  Lemma unmatched_calls input os : feedable es input -> ~ matched L es input -> calls L es (map snd ts) (starting input) os ->
    Forall (fun o => o = None) os.
  Proof.
    intros Hf Hm H. destruct os as [|o os]; [constructor|]. inversion H as [|? ? s1 ? Hc Hr]; subst.
    pose proof (letters_places input) as El.
    inversion Hc as [u v c r i g E Hu Hfe Hn|v c r E Hfe Hn|i g Hne Hi Hg|Hfe Ho]; subst; unfold ahead in *; cbn [h_from h_junk h_back h_rest starting app] in *.
    - exfalso. rewrite app_assoc in E, Hn. eapply (whole_stop es); [exact E| |exact Hn]. rewrite El. exact Hf.
    - exfalso. eapply (whole_stop es); [exact E| |exact Hn]. rewrite El. exact Hf.
    - exfalso. apply Hm. rewrite El in Hi. eapply LexerMunch.first_match_matched; eauto.
    - constructor; auto. eapply empty_calls; eauto.
  Qed.

  Lemma unsteady_none input lx (ho : HashOrder) fuel n os lx' :
    build_lexer ts input = Val (inl lx) -> feedable es input -> ~ matched L es input -> lex_calls fuel n lx = Val (os, lx') ->
    os = repeat None n.
  Proof.
    intros Hb Hf Hm H. destruct (lexer_calls ts input lx es ho fuel n os lx' L Hb Hp Ha H) as [Hl Hc].
    pose proof (unmatched_calls input os Hf Hm Hc) as HF. rewrite <- Hl. clear -HF.
    induction HF as [|o os E HF IH]; cbn; congruence.
  Qed.

  Hypothesis Hgap : forall e, In e es -> ~ gapped e.
  Hypothesis Hloop : forall e, In e es -> loops_ok e = true.

  Lemma token_needed :
    steady es <->
    forall input lx (ho : HashOrder) fuel n tks rest lx', build_lexer ts input = Val (inl lx) ->
      lex_calls fuel n lx = Val (map Some tks ++ None :: rest, lx') ->
      forall x y, skipn (consumed tks) input = x ++ y -> x <> [] -> ~ matched L es x.
  Proof.
    split.
    - intros Hs input lx ho fuel n tks rest lx' Hb H. exact (lexer_steady_none ts input lx es Hb Hp ho fuel n tks rest lx' L Ha Hs H).
    - intros H u c Hu Hm Hf. apply (agreed_matched L es _ Ha). apply (agreed_matched L es _ Ha) in Hm.
      destruct (lexer_builds ts es (u ++ [c]) Hp Hgap) as (lx & Hb).
      destruct (lexer_reference ts (u ++ [c]) lx es 1 L Hb Hp Ha Hloop) as (os & N & lx' & Hl & Hc & HN).
      specialize (HN id_order N (le_n N)). destruct os as [|o [|]]; try discriminate Hl.
      destruct o as [t|].
      + inversion Hc as [|? ? s1 ? Hc1 _]; subst. pose proof (letters_places (u ++ [c])) as El.
        inversion Hc1 as [u' v c' r i g E Hu' Hfe Hn|v c' r E Hfe Hn|i g Hne Hi Hg|Hfe Ho]; subst; unfold ahead in *; cbn [h_from h_junk h_back h_rest starting app] in *.
        * exfalso. rewrite app_assoc in E, Hn. eapply (whole_stop es); [exact E| |exact Hn]. rewrite El. exact Hf.
        * rewrite El in Hi. eapply LexerMunch.first_match_matched; eauto.
      + exfalso. apply (H (u ++ [c]) lx id_order N 1 [] [] lx' Hb HN u [c] eq_refl Hu Hm).
  Qed.

  Lemma munch_needed :
    steady es <->
    forall input lx, build_lexer ts input = Val (inl lx) ->
      exists tks, munches L es (map snd ts) input 0 tks /\
        exists N lx', forall (ho : HashOrder) fuel, N <= fuel -> lex_calls fuel (S (length tks)) lx = Val (map Some tks ++ [None], lx').
  Proof.
    split.
    - intros Hs input lx Hb. destruct (LexerMunch.lexer_munch ts input lx es Hb Hp L Ha Hs Hloop) as (tks & Hm & H). exists tks. split; auto.
      destruct (H 0) as (N & rest & lx' & HN). exists N, lx'. intros ho fuel Hle. specialize (HN ho fuel Hle).
      replace (length tks + 1) with (S (length tks)) in HN by lia. rewrite HN.
      apply LexerMunch.calls_length in HN. rewrite app_length, map_length in HN. cbn in HN. destruct rest; [auto|cbn in HN; lia].
    - intros H u c Hu Hm Hf. apply (agreed_matched L es _ Ha). apply (agreed_matched L es _ Ha) in Hm.
      destruct (lexer_builds ts es (u ++ [c]) Hp Hgap) as (lx & Hb). destruct (H _ _ Hb) as (tks & Hmu & N & lx' & HN).
      specialize (HN id_order N (le_n N)).
      destruct (lexer_calls ts _ lx es id_order N _ _ lx' L Hb Hp Ha HN) as [_ Hc].
      destruct tks as [|t tks].
      + exfalso. inversion Hmu as [p Hno|]; subst. exact (Hno u [c] eq_refl Hu Hm).
      + inversion Hc as [|? ? s1 ? Hc1 _]; subst. pose proof (letters_places (u ++ [c])) as El.
        inversion Hc1 as [u' v c' r i g E Hu' Hfe Hn|v c' r E Hfe Hn|i g Hne Hi Hg|Hfe Ho]; subst; unfold ahead in *; cbn [h_from h_junk h_back h_rest starting app] in *.
        * exfalso. rewrite app_assoc in E, Hn. eapply (whole_stop es); [exact E| |exact Hn]. rewrite El. exact Hf.
        * rewrite El in Hi. eapply LexerMunch.first_match_matched; eauto.
  Qed.

  (** ** The end *)

  Lemma no_match_calls os : forall s, (forall u, u <> [] -> ~ matched L es u) -> calls L es (map snd ts) s os -> Forall (fun o => o = None) os.
  Proof.
    induction os as [|o os IH]; intros s Hno H; [constructor|]. inversion H as [|? ? s1 ? Hc Hr]; subst.
    assert (Hle : forall x : list (nat * char), x <> [] -> letters x <> []) by (intros [|]; [congruence|discriminate]).
    constructor; [|eauto]. inversion Hc as [u v c r i g E Hu Hfe Hn Hi|v c r E|i g Hne Hi|Hf Ho]; subst; auto.
    - destruct (Hno (letters u)); eauto. eapply LexerMunch.first_match_matched; eauto.
    - destruct (Hno (letters (ahead s))); eauto. eapply LexerMunch.first_match_matched; eauto.
  Qed.

  Lemma call_none s s' : call L es (map snd ts) s None s' ->
    (exists v c, dead_end L es v c) \/ (h_junk s' = [] /\ h_back s' = [] /\ h_rest s' = []).
  Proof.
    intros H. inversion H as [|v c r E Hf Hn Hl| |Hf Ho]; subst; [left|right; auto].
    exists (letters v), (snd c). split; auto. split; [rewrite letters_app in Hn; exact Hn|].
    intros v1 v2 Ev Hne. unfold letters in Ev. apply map_eq_app in Ev. destruct Ev as (w1 & w2 & -> & <- & <-).
    apply (Hl w1 w2 eq_refl). intros ->. apply Hne. reflexivity.
  Qed.

  Lemma end_needed :
    (forall v c u, dead_end L es v c -> u <> [] -> ~ matched L es u) <->
    forall input lx (ho : HashOrder) fuel n tks rest lx', build_lexer ts input = Val (inl lx) ->
      lex_calls fuel n lx = Val (map Some tks ++ None :: rest, lx') -> Forall (fun o => o = None) rest.
  Proof.
    split.
    - intros Hno input lx ho fuel n tks rest lx' Hb H. destruct (lexer_calls ts input lx es ho fuel n _ lx' L Hb Hp Ha H) as [_ Hc].
      clear H. revert Hc. generalize (starting input). induction tks as [|t tks IH]; intros s Hc.
      + inversion Hc as [|? ? s1 ? Hc1 Hr]; subst. destruct (call_none _ _ Hc1) as [(v & c & Hd)|(E1 & E2 & E3)].
        * eapply no_match_calls; [|exact Hr]. eauto.
        * destruct s1 as [f j b r]. cbn in E1, E2, E3. subst. eapply empty_calls; eauto.
      + inversion Hc; subst. eauto.
    - intros H v c u (Hf & Hn & Hv) Hu Hm.
      destruct (lexer_builds ts es (v ++ c :: u) Hp Hgap) as (lx & Hb).
      destruct (lexer_reference ts _ lx es 2 L Hb Hp Ha Hloop) as (os & N & lx' & Hl & Hc & HN).
      specialize (HN id_order N (le_n N)). destruct os as [|o1 [|o2 [|]]]; try discriminate Hl.
      inversion Hc as [|? ? s1 ? Hc1 Hr]; subst. inversion Hr as [|? ? s2 ? Hc2 _]; subst. clear Hc Hr.
      pose proof (letters_places (v ++ c :: u)) as El. unfold letters in El. apply map_eq_app in El.
      destruct El as (pv & pr & Epl & Ev & Er). apply map_eq_cons in Er. destruct Er as (pc & pu & -> & Ec & Eu).
      pose proof (fun x => matched_feedable L ts _ lx es x Hb Hp Ha) as Hfeed.
      assert (Hc0 : call L es (map snd ts) (starting (v ++ c :: u)) None
        {| h_from := 0; h_junk := [] ++ pv ++ [pc]; h_back := back_after (starting (v ++ c :: u)) (length (pv ++ [pc]));
           h_rest := rest_after (starting (v ++ c :: u)) (length (pv ++ [pc])) |}).
      { apply (call_vain L es (map snd ts) (starting (v ++ c :: u)) pv pc pu).
        - exact Epl.
        - unfold letters. rewrite Ev. exact Hf.
        - unfold letters. rewrite map_app. cbn. rewrite Ev, Ec. exact Hn.
        - intros v1 v2 E Hne. cbn. apply (Hv (letters v1) (letters v2)).
          + rewrite <- Ev, E. apply map_app.
          + destruct v1; [congruence|discriminate]. }
      destruct (call_unique L es (map snd ts) Hfeed _ _ _ _ _ Hc0 Hc1) as [<- <-].
      assert (Eahead : ahead {| h_from := 0; h_junk := [] ++ pv ++ [pc]; h_back := back_after (starting (v ++ c :: u)) (length (pv ++ [pc]));
           h_rest := rest_after (starting (v ++ c :: u)) (length (pv ++ [pc])) |} = pu).
      { unfold ahead, back_after, rest_after. cbn [h_back h_rest starting]. rewrite skipn_nil. cbn [app length]. rewrite Nat.sub_0_r, Epl.
        replace (pv ++ pc :: pu) with ((pv ++ [pc]) ++ pu) by (rewrite <- app_assoc; reflexivity).
        rewrite skipn_app, skipn_all, Nat.sub_diag. reflexivity. }
      pose proof (Hfeed u Hm) as Hfu.
      assert (HS : exists t, o2 = Some t).
      { inversion Hc2 as [u' v' c' r i g E Hu' Hfe Hn'|v' c' r E Hfe Hn'|i g Hne Hi Hg|Hfe Ho]; subst; eauto; exfalso; rewrite Eahead in *.
        - eapply (whole_stop es); [exact E| |exact Hn']. exact Hfu.
        - destruct Ho as [E|Ho]; [|exact (Ho Hm)]. apply Hu. rewrite E. reflexivity. }
      destruct HS as (t & ->).
      pose proof (H _ _ id_order N 2 [] [Some t] lx' Hb HN) as HF. inversion HF; subst. discriminate.
  Qed.
End Exact.
