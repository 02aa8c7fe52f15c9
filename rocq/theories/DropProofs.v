(** Proofs about the shortest texts of which a lexer drops a token (C129). *)
From Verif Require Import Base RegexModel SpecRegex SpecPanic NfaModel SpecNfa SpecKleene KleeneProofs LexerModel SpecLexer SpecMunch SpecCalls
  SpecExact LexerWitness LexerRef FrontProofs ExactProofs SpecQuery QueryProofs QueryLexer SpecFind FindProofs.
From Verif Require LexerMunch.

Section Triples.
  Context {env : Env} (bs : list N) (Hbs : changes bs is_alphabetic).

  Lemma find_triple r s t phi (P : list char -> Prop) :
    (forall w a b c, (a = true <-> words r w) -> (b = true <-> words s w) -> (c = true <-> words t w) -> phi a b c = true <-> P w) ->
    match find_text bs [r; s; t] (fun l => match l with [a; b; c] => phi a b c | _ => false end) with
    | Some w => P w /\ forall w', P w' -> length w <= length w'
    | None => forall w, ~ P w
    end.
  Proof.
    intros HP. pose proof (find_text_ok bs Hbs [r; s; t] (fun l => match l with [a; b; c] => phi a b c | _ => false end)) as H.
    assert (Hk : forall w, P w -> exists l, answers [r; s; t] w l /\ match l with [a; b; c] => phi a b c | _ => false end = true).
    { intros w Hw. destruct (word_known r w) as (a & Ha). destruct (word_known s w) as (b & Hb). destruct (word_known t w) as (c & Hc). exists [a; b; c].
      split; [constructor; [exact Ha|constructor; [exact Hb|constructor; [exact Hc|constructor]]]|]. apply (HP w a b c Ha Hb Hc). exact Hw. }
    destruct (find_text bs [r; s; t] _) as [w|].
    - destruct H as ((l & Hl & E) & Hmin). split.
      + inversion Hl as [|? a ? l1 Ha H1]; subst. inversion H1 as [|? b ? l2 Hb H2]; subst. inversion H2 as [|? c ? l3 Hc H3]; subst. inversion H3; subst.
        apply (HP w a b c Ha Hb Hc). exact E.
      + intros w' Hw'. destruct (Hk w' Hw') as (l' & Hl' & E'). exact (Hmin w' l' Hl' E').
    - intros w Hw. destruct (Hk w Hw) as (l & Hl & E). rewrite (H w l Hl) in E. discriminate.
  Qed.

  (** Where a longer match was hoped for in vain. *)
  Definition vain (es : list expr) (w : list char) : Prop :=
    exists u c, w = u ++ [c] /\ u <> [] /\ matched impl_lang es u /\ feedable es w /\ ~ matched impl_lang es w.

  Lemma dropped_ok es : match dropped bs es with
    | Some w => vain es w /\ forall w', vain es w' -> length w <= length w'
    | None => forall w, ~ vain es w
    end.
  Proof.
    apply (find_triple _ _ _ (fun a b c => a && b && negb c)). intros w a b c Ha Hb Hc. rewrite r_feedable_ok in Hb. rewrite r_matched_ok in Hc. split.
    - intros E. apply andb_prop in E. destruct E as [E Ec]. apply andb_prop in E. destruct E as [-> ->]. destruct c; [discriminate|].
      destruct Ha as [Ha _]. destruct (Ha eq_refl) as (u & v & E & Hu & Hv). apply r_char_ok in Hv. destruct Hv as (d & ->). rewrite r_some_ok, r_matched_ok in Hu.
      exists u, d. split; [exact E|]. split; [apply Hu|]. split; [apply Hu|]. split; [apply Hb; reflexivity|]. intros X. apply Hc in X. discriminate.
    - intros (u & d & E & Hne & Hm & Hf & Hn). apply andb_true_intro. split; [apply andb_true_intro; split|].
      + apply Ha. exists u, [d]. split; [exact E|]. rewrite r_some_ok, r_matched_ok. split; [tauto|apply r_char_ok; eauto].
      + apply Hb. exact Hf.
      + destruct c; [|reflexivity]. exfalso. apply Hn, Hc. reflexivity.
  Qed.

  Lemma none_steady es : dropped bs es = None <-> steady es.
  Proof.
    pose proof (dropped_ok es) as H. split.
    - intros E. rewrite E in H. intros u c Hu Hm Hf. destruct (word_known (r_matched es) (u ++ [c])) as ([|] & Hb); rewrite r_matched_ok in Hb; [apply Hb; reflexivity|].
      exfalso. apply (H (u ++ [c])). exists u, c. repeat match goal with |- _ /\ _ => split end; auto. intros X. apply Hb in X. discriminate.
    - intros Hs. destruct (dropped bs es) as [w|]; [|reflexivity]. destruct H as ((u & c & -> & Hu & Hm & Hf & Hn) & _). exfalso. exact (Hn (Hs u c Hu Hm Hf)).
  Qed.

  Lemma vain_within es x : x <> [] -> matched impl_lang es x -> forall y, feedable es (x ++ y) -> ~ matched impl_lang es (x ++ y) ->
    exists w, vain es w /\ length w <= length (x ++ y).
  Proof.
    intros Hx Hm y. induction y as [|c y IH] using rev_ind; intros Hf Hn; [rewrite app_nil_r in Hn; contradiction|].
    rewrite app_assoc in Hf, Hn. destruct (word_known (r_matched es) (x ++ y)) as (b & Hb). rewrite r_matched_ok in Hb. destruct b.
    - exists ((x ++ y) ++ [c]). split; [|rewrite <- app_assoc; lia]. exists (x ++ y), c. split; [reflexivity|]. split; [destruct x; [congruence|discriminate]|].
      split; [apply Hb; reflexivity|]. split; assumption.
    - destruct IH as (w & Hw & Hl); [exact (feedable_app _ _ _ Hf)|intros X; apply Hb in X; discriminate|].
      exists w. split; [exact Hw|]. rewrite app_length in Hl |- *. rewrite app_length. lia.
  Qed.
End Triples.

Section Drops.
  Context {env : Env} {K : Type} (bs : list N) (Hbs : changes bs is_alphabetic) (ts : list (list char * generator K)) (es : list expr).
  Hypothesis Hp : parsed ts es.
  Hypothesis Hgap : forall e, In e es -> ~ gapped e.
  Hypothesis Hloop : forall e, In e es -> loops_ok e = true.

  Lemma shortest_drop :
    let begins w := exists x y, w = x ++ y /\ x <> [] /\ matched impl_lang es x in
    let silent n w := exists lx N lx', build_lexer ts w = Val (inl lx) /\ forall (ho : HashOrder) fuel, N <= fuel -> lex_calls fuel n lx = Val (repeat None n, lx') in
    match dropped bs es with
    | Some w => begins w /\ (forall n, silent n w) /\ forall w', begins w' -> silent 1 w' -> length w <= length w'
    | None => forall w, begins w -> ~ silent 1 w
    end.
  Proof.
    intros begins silent.
    assert (Hto : forall w, vain es w -> begins w /\ forall n, silent n w).
    { intros w (u & c & -> & Hu & Hm & Hf & Hn). split; [exists u, [c]; auto|]. intros n. destruct (lexer_builds ts es (u ++ [c]) Hp Hgap) as (lx & Hb).
      destruct (lexer_reference ts (u ++ [c]) lx es n impl_lang Hb Hp (or_introl eq_refl) Hloop) as (os & N & lx' & Hl & _ & HN). exists lx, N, lx'. split; [exact Hb|].
      intros ho fuel Hle. rewrite (HN ho fuel Hle). do 2 f_equal.
      exact (unsteady_none ts es impl_lang Hp (or_introl eq_refl) (u ++ [c]) lx ho fuel n os lx' Hb Hf Hn (HN ho fuel Hle)). }
    assert (Hfrom : forall w, begins w -> silent 1 w -> exists v, vain es v /\ length v <= length w).
    { intros w (x & y & E & Hx & Hm) (lx & N & lx' & Hb & HN). specialize (HN id_order N (le_n N)).
      destruct (lexer_calls ts w lx es id_order N 1 _ lx' impl_lang Hb Hp (or_introl eq_refl) HN) as [_ Hc].
      pose proof (matched_feedable impl_lang ts w lx es x Hb Hp (or_introl eq_refl) Hm) as Hfx.
      cbn [repeat] in Hc. inversion Hc as [|? ? s1 ? Hc1 _]; subst. pose proof (letters_places (x ++ y)) as El.
      inversion Hc1 as [|v c r E Hf Hn Hl| |Hf Ho]; subst; unfold ahead in *; cbn [h_from h_junk h_back h_rest starting app] in *.
      - exfalso. assert (E1 : x ++ y = letters v ++ snd c :: letters r) by (rewrite <- El, E; apply map_app).
        assert (E2 : letters (v ++ [c]) = letters v ++ [snd c]) by apply map_app. rewrite E2 in Hn.
        destruct (Nat.le_gt_cases (length x) (length (letters v))) as [Hle|Hgt].
        + assert (Ex : firstn (length x) (letters v) = x).
          { apply (f_equal (firstn (length x))) in E1. rewrite !firstn_app, Nat.sub_diag, firstn_all in E1. cbn [firstn] in E1. rewrite app_nil_r in E1.
            replace (length x - length (letters v)) with 0 in E1 by lia. cbn [firstn] in E1. rewrite app_nil_r in E1. auto. }
          assert (Ev : firstn (length x) v ++ skipn (length x) v = v) by apply firstn_skipn.
          apply (Hl (firstn (length x) v) (skipn (length x) v)); [symmetry; exact Ev|intros X; apply Hx; rewrite <- Ex; unfold letters; rewrite firstn_map, X; reflexivity|].
          unfold letters in Ex |- *. rewrite firstn_map in Ex. cbn [app]. rewrite Ex. exact Hm.
        + apply Hn. apply (feedable_app es _ (skipn (S (length (letters v))) x)).
          replace ((letters v ++ [snd c]) ++ skipn (S (length (letters v))) x) with x; [exact Hfx|].
          apply (f_equal (firstn (S (length (letters v))))) in E1. rewrite firstn_app in E1. replace (S (length (letters v)) - length x) with 0 in E1 by lia.
          rewrite firstn_O, app_nil_r, firstn_app in E1. rewrite (firstn_all2 (letters v)) in E1 by lia. replace (S (length (letters v)) - length (letters v)) with 1 in E1 by lia. rewrite firstn_cons, firstn_O in E1.
          rewrite <- E1. symmetry. apply firstn_skipn.
      - rewrite El in Hf, Ho. destruct Ho as [Ho|Ho]; [rewrite Ho in El; destruct x; [congruence|discriminate]|]. exact (vain_within es x Hx Hm y Hf Ho). }
    pose proof (dropped_ok bs Hbs es) as H. destruct (dropped bs es) as [w|].
    - destruct H as (Hw & Hmin). destruct (Hto w Hw) as (H1 & H2). split; [exact H1|]. split; [exact H2|]. intros w' B S. destruct (Hfrom w' B S) as (v & Hv & Hl). specialize (Hmin v Hv). lia.
    - intros w B S. destruct (Hfrom w B S) as (v & Hv & _). exact (H v Hv).
  Qed.

  Lemma none_munches :
    dropped bs es = None <->
    forall input lx, build_lexer ts input = Val (inl lx) ->
      exists tks, munches impl_lang es (map snd ts) input 0 tks /\
        exists N lx', forall (ho : HashOrder) fuel, N <= fuel -> lex_calls fuel (S (length tks)) lx = Val (map Some tks ++ [None], lx').
  Proof. rewrite (none_steady bs Hbs es). exact (munch_needed ts es impl_lang Hp (or_introl eq_refl) Hgap Hloop). Qed.
End Drops.
