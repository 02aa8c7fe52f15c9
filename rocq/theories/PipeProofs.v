(** The parser on a text. *)
From Verif Require Import Base RegexModel SpecRegex NfaModel SpecNfa LexerModel SpecLexer SpecMunch LexerWitness LexerMunch
  GrammarModel CfsmModel SlrModel PangoModel SpecCfg GrammarTotal SlrRun SlrAll SlrFinal.

Section Pipe.
  Context {env : Env} {ho : HashOrder} {V K : Type} {dv : DecEq V} {dt : DecEq K}.
  Variable teq : K -> K -> bool.

  Lemma calls_delivers fuel : forall (tks : list (ltoken K)) (lx : lexer K) lx',
    lex_calls fuel (S (length tks)) lx = Val (map Some tks ++ [None], lx') -> delivers (next_kind fuel) lx (map lt_kind tks).
  Proof.
    induction tks as [|t tks IH]; intros lx lx' H.
    - cbn [length lex_calls] in H. destruct (lex_next fuel lx) as [[o l1]| |] eqn:E; cbn [bind length lex_calls] in H; try discriminate.
      cbn in H. injection H as -> ->. eapply delivers_end. unfold next_kind. rewrite E. reflexivity.
    - cbn [length] in H. remember (S (length tks)) as k. cbn [lex_calls] in H. apply bind_val in H. destruct H as ([o l1] & E & H). apply bind_val in H. destruct H as ([os l2] & E2 & H).
      cbn [map app] in H.
      assert (Hi : o = Some t /\ os = map Some tks ++ [None]) by (split; congruence). destruct Hi as [-> ->].
      subst k. cbn [map]. eapply delivers_tok; [unfold next_kind; rewrite E; reflexivity|]. eapply IH. exact E2.
  Qed.

  Lemma parse_munch (tb : table V K) ts input (lx : lexer K) es L :
    build_lexer ts input = Val (inl lx) -> parsed ts es -> agreed L es -> steady es -> (forall e, In e es -> loops_ok e = true) ->
    exists tks, munches L es (map snd ts) input 0 tks /\
      exists N, forall fuel, N <= fuel -> parse_lexer teq fuel tb lx = parse teq fuel tb (map lt_kind tks).
  Proof.
    intros Hb Hp Ha Hs Hl. destruct (lexer_munch ts input lx es Hb Hp L Ha Hs Hl) as (tks & Hm & Hn). exists tks. split; [assumption|].
    destruct (Hn 0) as (N & rest & lx' & HN). exists N. intros fuel Hf. pose proof (HN ho fuel Hf) as E.
    assert (rest = []) as ->.
    { pose proof (calls_length _ _ _ _ _ _ E) as El. rewrite app_length, map_length in El. cbn in El. destruct rest; [reflexivity|]. cbn in El. lia. }
    replace (length tks + 1) with (S (length tks)) in E by lia. apply calls_delivers in E.
    unfold parse_lexer. rewrite (parse_from_ploop teq tb (next_kind fuel) fuel lx _ E), parse_ploop. reflexivity.
  Qed.

  Lemma parse_text fuel p (tb : table V K) (g : grammar V K) ts input (lx : lexer K) es L :
    lawful teq -> built g -> epsilon_free g -> start_at_front g -> all_reachable g -> (forall v bd, rule g v bd -> productive g v) ->
    (forall v bd, rule g v bd -> v = g_start g \/ exists t, followed_by g v t) -> entry_sure g (g_start g) ->
    slr_new teq fuel p g = Val tb ->
    build_lexer ts input = Val (inl lx) -> parsed ts es -> agreed L es -> steady es -> (forall e, In e es -> loops_ok e = true) ->
    exists tks, munches L es (map snd ts) input 0 tks /\
      exists N r, (forall fuel', N <= fuel' -> parse_lexer teq fuel' tb lx = Val r) /\
        match r with
        | Some n => exists x, parses g teq (map lt_kind tks) x /\ n = to_node x
        | None => forall x, parses g teq (map lt_kind tks) x -> ~ ends_in_leaf x
        end.
  Proof.
    intros Ht Hg Heps Hfr Hall Hpr Hfo He Hnew Hb Hp Ha Hs Hl.
    destruct (parse_munch tb ts input lx es L Hb Hp Ha Hs Hl) as (tks & Hm & N & HN). exists tks. split; [assumption|].
    destruct (parse_terminates teq Ht g Hg fuel p tb (map lt_kind tks) Heps (or_introl Hall) Hnew) as (N2 & r & Hr & HN2).
    assert (Hr' : exists o, r = Val o).
    { destruct r as [o| |]; [eauto| |congruence]. exfalso.
      exact (parse_no_panic teq Ht g Hg fuel p tb N2 (map lt_kind tks) Heps Hall Hpr Hfo He Hnew (HN2 N2 (le_n _))). }
    destruct Hr' as (o & ->). exists (Nat.max N N2), o. split.
    - intros fuel' Hf. rewrite HN by lia. apply HN2. lia.
    - destruct o as [n|].
      + exact (parse_derivation teq Ht g Hg fuel p tb N2 _ n Heps Hfr Hnew (HN2 N2 (le_n _))).
      + intros x Hx Hend. destruct (parse_complete teq Ht g Hg fuel p tb _ x Heps Hnew He Hx Hend) as (N3 & HN3).
        specialize (HN3 (Nat.max N2 N3) ltac:(lia)). rewrite HN2 in HN3 by lia. discriminate.
  Qed.
End Pipe.
