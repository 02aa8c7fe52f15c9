(** Proofs about the shortest texts with a token after the first [None] (C130). *)
From Verif Require Import Base RegexModel SpecRegex SpecPanic NfaModel SpecNfa SpecKleene KleeneProofs LexerModel SpecLexer SpecMunch SpecCalls
  SpecExact LexerWitness LexerRef FrontProofs ExactProofs SpecQuery QueryProofs QueryLexer SpecFind FindProofs DropProofs SpecLate.
From Verif Require LexerMunch.

Section Found.
  Context {env : Env} (bs : list N) (Hbs : changes bs is_alphabetic).

  Lemma stop_text_ok es : match stop_text bs es with
    | Some w => (exists v c, w = v ++ [c] /\ dead_end impl_lang es v c) /\ forall w', (exists v c, w' = v ++ [c] /\ dead_end impl_lang es v c) -> length w <= length w'
    | None => forall w, ~ exists v c, w = v ++ [c] /\ dead_end impl_lang es v c
    end.
  Proof.
    apply (find_triple bs Hbs _ _ _ (fun a b c => a && negb b && negb c)). intros w a b c Ha Hb Hc. unfold dead_end. split.
    - intros E. apply andb_prop in E. destruct E as [E Ec]. apply andb_prop in E. destruct E as [-> Eb]. destruct b; [discriminate|]. destruct c; [discriminate|].
      destruct Ha as [Ha _]. destruct (Ha eq_refl) as (u & v & -> & Hu & Hv). apply r_char_ok in Hv. destruct Hv as (d & ->). exists u, d. split; [reflexivity|].
      split; [apply r_feedable_ok; exact Hu|]. split.
      + intros Hx. apply r_feedable_ok, Hb in Hx. discriminate.
      + intros v1 v2 E Hne Hm. assert (Hx : false = true); [|discriminate]. apply Hc. exists v1, (v2 ++ [d]). split; [rewrite E, <- app_assoc; reflexivity|].
        split; [apply r_some_ok; split; [apply r_matched_ok; exact Hm|exact Hne]|].
        destruct (v2 ++ [d]) as [|x y] eqn:Ex; [destruct v2; discriminate|]. exists [x], y. split; [reflexivity|]. split; [apply r_char_ok; eauto|apply star_any].
    - intros (v & d & -> & Hf & Hn & Hp). apply andb_true_intro. split; [apply andb_true_intro; split|].
      + apply Ha. exists v, [d]. split; [reflexivity|]. split; [apply r_feedable_ok; exact Hf|apply r_char_ok; eauto].
      + destruct b; [|reflexivity]. exfalso. apply Hn, r_feedable_ok, Hb. reflexivity.
      + destruct c; [|reflexivity]. exfalso. destruct Hc as [Hc _]. destruct (Hc eq_refl) as (u & t & E & Hu & (x & y & -> & Hx & _)).
        apply r_some_ok in Hu. destruct Hu as [Hu Hne]. apply r_matched_ok in Hu. apply r_char_ok in Hx. destruct Hx as (e & ->).
        destruct y as [|z y _] using rev_ind.
        * apply app_inj_tail in E. destruct E as [<- _]. apply (Hp v [] (eq_sym (app_nil_r v)) Hne Hu).
        * rewrite !app_assoc in E. apply app_inj_tail in E. destruct E as [E _]. rewrite <- app_assoc in E. exact (Hp u _ E Hne Hu).
  Qed.

  Lemma token_text_ok es : match token_text bs es with
    | Some w => (w <> [] /\ matched impl_lang es w) /\ forall w', w' <> [] /\ matched impl_lang es w' -> length w <= length w'
    | None => forall w, ~ (w <> [] /\ matched impl_lang es w)
    end.
  Proof. apply (find_pair bs Hbs _ _ (fun a b => a)). intros w a b Ha _. rewrite Ha, r_some_ok, r_matched_ok. tauto. Qed.
End Found.

Section Late.
  Context {env : Env} {K : Type} (bs : list N) (Hbs : changes bs is_alphabetic) (ts : list (list char * generator K)) (es : list expr).

  Lemma token_ahead L os : forall s t, calls L es (map snd ts) s os -> In (Some t) os -> exists u, u <> [] /\ matched L es u /\ length u <= length (ahead s).
  Proof.
    assert (Hle : forall x : list (nat * char), x <> [] -> letters x <> []) by (intros [|]; [congruence|discriminate]).
    induction os as [|o os IH]; intros s t H Hi; [destruct Hi|]. inversion H as [|? ? s1 ? Hc Hr]; subst.
    inversion Hc as [u v c r i g E Hu Hfe Hn Hf|v c r E|i g Hne Hf|Hf Ho]; subst.
    - exists (letters u). split; [auto|]. split; [eapply LexerMunch.first_match_matched; eauto|]. rewrite E, app_length. unfold letters. rewrite map_length. lia.
    - destruct Hi as [Hi|Hi]; [discriminate|]. destruct (IH _ t Hr Hi) as (u & X1 & X2 & X3). exists u. split; [exact X1|]. split; [exact X2|].
      unfold ahead, back_after, rest_after in *. cbn [h_back h_rest] in X3. rewrite app_length, !skipn_length in X3. rewrite app_length. lia.
    - exists (letters (ahead s)). split; [auto|]. split; [eapply LexerMunch.first_match_matched; eauto|]. unfold letters. rewrite map_length. lia.
    - destruct Hi as [Hi|Hi]; [discriminate|]. destruct (IH _ t Hr Hi) as (u & X1 & _ & X3). cbn in X3. destruct u; [congruence|cbn in X3; lia].
  Qed.

  Lemma ahead_less L s o s' : call L es (map snd ts) s o s' -> length (ahead s') <= length (ahead s).
  Proof.
    intros Hc. inversion Hc as [u v c r i g E|v c r E|i g Hne|Hf]; subst; unfold ahead, back_after, rest_after in *; cbn [h_back h_rest]; [| |cbn; lia|cbn; lia].
    - apply (f_equal (@length _)) in E. rewrite !app_length in *. cbn [length] in *. rewrite !skipn_length, ?app_length in *. cbn [length] in *. lia.
    - rewrite !app_length, !skipn_length. lia.
  Qed.
  Lemma dead_ahead L tks os t : forall s, calls L es (map snd ts) s (map Some tks ++ None :: os) -> In (Some t) os ->
    exists v c u, dead_end L es v c /\ (u <> [] /\ matched L es u) /\ length (v ++ [c]) + length u <= length (ahead s).
  Proof.
    induction tks as [|k tks IH]; intros s H Hi; cbn [map app] in H; inversion H as [|? ? s1 ? Hc1 Hr]; subst.
    - destruct (token_ahead L os s1 t Hr Hi) as (u & Hu & Hm & Hle).
      inversion Hc1 as [|v c r E Hf Hn Hl| |Hf Ho]; subst.
      + exists (letters v), (snd c), u. split; [|split; [split; assumption|]].
        * split; [exact Hf|]. split; [rewrite letters_app in Hn; exact Hn|]. intros v1 v2 Ev Hne. unfold letters in Ev. apply map_eq_app in Ev.
          destruct Ev as (w1 & w2 & -> & <- & <-). apply (Hl w1 w2 eq_refl). intros ->. apply Hne. reflexivity.
        * apply (f_equal (@length _)) in E. unfold ahead, back_after, rest_after in *. cbn [h_back h_rest] in Hle. unfold letters.
          rewrite !app_length in *. rewrite !skipn_length, ?app_length in Hle. rewrite map_length. cbn [length] in *. lia.
      + cbn in Hle. destruct u; [congruence|cbn in Hle; lia].
    - destruct (IH s1 Hr Hi) as (v & c & u & Hd & Hu & Hle). exists v, c, u. split; [exact Hd|]. split; [exact Hu|]. pose proof (ahead_less L s _ s1 Hc1). lia.
  Qed.

  Hypothesis Hp : parsed ts es.
  Hypothesis Hgap : forall e, In e es -> ~ gapped e.
  Hypothesis Hloop : forall e, In e es -> loops_ok e = true.

  Lemma late_calls v c u : dead_end impl_lang es v c -> u <> [] -> matched impl_lang es u ->
    exists lx N lx' t, build_lexer ts (v ++ c :: u) = Val (inl lx) /\ forall (ho : HashOrder) fuel, N <= fuel -> lex_calls fuel 2 lx = Val ([None; Some t], lx').
  Proof.
    intros (Hf & Hn & Hv) Hu Hm. destruct (lexer_builds ts es (v ++ c :: u) Hp Hgap) as (lx & Hb).
    destruct (lexer_reference ts _ lx es 2 impl_lang Hb Hp (or_introl eq_refl) Hloop) as (os & N & lx' & Hl & Hc & HN).
    destruct os as [|o1 [|o2 [|]]]; try discriminate Hl.
    inversion Hc as [|? ? s1 ? Hc1 Hr]; subst. inversion Hr as [|? ? s2 ? Hc2 _]; subst. clear Hc Hr.
    pose proof (letters_places (v ++ c :: u)) as El. unfold letters in El. apply map_eq_app in El.
    destruct El as (pv & pr & Epl & Ev & Er). apply map_eq_cons in Er. destruct Er as (pc & pu & -> & Ec & Eu).
    pose proof (fun x => matched_feedable impl_lang ts _ lx es x Hb Hp (or_introl eq_refl)) as Hfeed.
    assert (Hc0 : call impl_lang es (map snd ts) (starting (v ++ c :: u)) None
      {| h_from := 0; h_junk := [] ++ pv ++ [pc]; h_back := back_after (starting (v ++ c :: u)) (length (pv ++ [pc]));
         h_rest := rest_after (starting (v ++ c :: u)) (length (pv ++ [pc])) |}).
    { apply (call_vain impl_lang es (map snd ts) (starting (v ++ c :: u)) pv pc pu).
      - exact Epl.
      - unfold letters. rewrite Ev. exact Hf.
      - unfold letters. rewrite map_app. cbn. rewrite Ev, Ec. exact Hn.
      - intros v1 v2 E Hne. cbn. apply (Hv (letters v1) (letters v2)).
        + rewrite <- Ev, E. apply map_app.
        + destruct v1; [congruence|discriminate]. }
    destruct (call_unique impl_lang es (map snd ts) Hfeed _ _ _ _ _ Hc0 Hc1) as [<- <-].
    assert (Eahead : ahead {| h_from := 0; h_junk := [] ++ pv ++ [pc]; h_back := back_after (starting (v ++ c :: u)) (length (pv ++ [pc]));
         h_rest := rest_after (starting (v ++ c :: u)) (length (pv ++ [pc])) |} = pu).
    { unfold ahead, back_after, rest_after. cbn [h_back h_rest starting]. rewrite skipn_nil. cbn [app length]. rewrite Nat.sub_0_r, Epl.
      replace (pv ++ pc :: pu) with ((pv ++ [pc]) ++ pu) by (rewrite <- app_assoc; reflexivity).
      rewrite skipn_app, skipn_all, Nat.sub_diag. reflexivity. }
    pose proof (Hfeed u Hm) as Hfu.
    assert (HS : exists t, o2 = Some t).
    { inversion Hc2 as [u' v' c' r i g E Hu' Hfe Hn'|v' c' r E Hfe Hn'|i g Hne Hi Hg|Hfe Ho]; subst; eauto; exfalso; rewrite Eahead in *.
      - eapply (whole_stop es); [exact E| |exact Hn']. exact Hfu.
      - destruct Ho as [E|Ho]; [|exact (Ho Hm)]. apply Hu. rewrite E. reflexivity. }
    destruct HS as (t & ->). exists lx, N, lx', t. split; [exact Hb|exact HN].
  Qed.

  Lemma shortest_late :
    let late n w := exists lx N lx' tks os t, build_lexer ts w = Val (inl lx) /\ In (Some t) os /\
      forall (ho : HashOrder) fuel, N <= fuel -> lex_calls fuel n lx = Val (map Some tks ++ None :: os, lx') in
    match late_text bs es with
    | Some w => late 2 w /\ forall n w', late n w' -> length w <= length w'
    | None => forall n w, ~ late n w
    end.
  Proof.
    intros late.
    assert (Hfrom : forall n w, late n w -> exists v c u, dead_end impl_lang es v c /\ (u <> [] /\ matched impl_lang es u) /\ length (v ++ [c]) + length u <= length w).
    { intros n w (lx & N & lx' & tks & os & t & Hb & Hi & HN). specialize (HN id_order N (le_n N)).
      destruct (lexer_calls ts w lx es id_order N n _ lx' impl_lang Hb Hp (or_introl eq_refl) HN) as [_ Hc].
      destruct (dead_ahead impl_lang tks os t (starting w) Hc Hi) as (v & c & u & Hd & Hu & Hle). exists v, c, u. split; [exact Hd|]. split; [exact Hu|].
      replace (length w) with (length (letters (places w))) by (rewrite letters_places; reflexivity). unfold letters. rewrite map_length. exact Hle. }
    unfold late_text. pose proof (stop_text_ok bs Hbs es) as HS. pose proof (token_text_ok bs Hbs es) as HT.
    destruct (stop_text bs es) as [d|].
    2:{ intros n w X. destruct (Hfrom n w X) as (v & c & u & Hd & _). apply (HS (v ++ [c])). eauto. }
    destruct (token_text bs es) as [k|].
    2:{ intros n w X. destruct (Hfrom n w X) as (v & c & u & _ & Hu & _). exact (HT u Hu). }
    destruct HS as ((v & c & -> & Hd) & Hmin). destruct HT as ((Hk & Hm) & Hmin'). split.
    - rewrite <- app_assoc. cbn [app]. destruct (late_calls v c k Hd Hk Hm) as (lx & N & lx' & t & Hb & HN). exists lx, N, lx', [], [Some t], t.
      split; [exact Hb|]. split; [left; reflexivity|exact HN].
    - intros n w' X. destruct (Hfrom n w' X) as (v' & c' & u' & Hd' & Hu' & Hle). rewrite (app_length (v ++ [c])).
      specialize (Hmin (v' ++ [c']) (ex_intro _ v' (ex_intro _ c' (conj eq_refl Hd')))). specialize (Hmin' u' Hu'). lia.
  Qed.
End Late.
