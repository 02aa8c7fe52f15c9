(** Proofs about the shortest texts that a lexer misreads (C131). *)
From Verif Require Import Base RegexModel SpecRegex NfaModel SpecNfa GrammarModel SpecKleene KleeneProofs LexerModel SpecLexer SpecMunch SpecLists SpecLines LexerMunch SpecQuery QueryProofs QueryLexer
  SpecKinds KindsProofs SpecAlike AlikeProofs SpecFind.
From Coq Require Import Lia.
From Verif Require Import FindProofs SpecMisread.

Section Lexers.
  Context {env : Env} {K : Type} {dk : DecEq K} (bs : list N) (Hbs : changes bs is_alphabetic).

  (** The lexer takes a text that is not empty for what is meant. *)
  Definition meant_at (es : list expr) (gens : list (generator K)) (es' : list expr) (gens' : list (generator K)) (x : list char) : Prop :=
    (matched impl_lang es x <-> matched lang es' x) /\
    forall i i' k k', first_match impl_lang es x i -> first_match lang es' x i' -> nth_error gens i = Some k -> nth_error gens' i' = Some k' ->
      gen_run k [] = gen_run k' [].

  Lemma written_known e w : lang e w \/ ~ lang e w.
  Proof. destruct (word_known (r_lang e) w) as ([|] & H); rewrite r_lang_ok in H; [left; apply H; reflexivity|right; intros X; apply H in X; discriminate]. Qed.
  Lemma written_first es x : matched lang es x -> exists i, first_match lang es x i.
  Proof.
    intros (e & He & Hx). induction es as [|p es IH]; [contradiction|]. destruct (written_known p x) as [Hp|Hp].
    - exists 0. split; [exists p; auto|]. intros j q Hj. lia.
    - destruct He as [->|He]; [contradiction|]. destruct (IH He) as (i & (q & Hq & Hqx) & Hi). exists (S i). split; [exists q; auto|].
      intros [|j] r Hj Hr; cbn in Hr; [injection Hr as <-; exact Hp|]. apply (Hi j r); [lia|exact Hr].
  Qed.
  Lemma first_written es x i : first_match lang es x i -> matched lang es x.
  Proof. intros ((p & Hp & Hx) & _). exists p. split; [exact (nth_error_In _ _ Hp)|exact Hx]. Qed.
  Lemma written_whole es (gens : list (generator K)) x i k : x <> [] -> first_match lang es x i -> nth_error gens i = Some k ->
    forall tks, munches lang es gens x 0 tks -> exists r, tks = {| lt_kind := gen_run k x; lt_source := x; lt_pos := (0, length x) |} :: r.
  Proof.
    intros Hx Hf Hk tks Hm. inversion Hm as [p He|p u v j g r E Hne Hf' Hg Hlong Hr]; subst; cbn [skipn] in *.
    - exfalso. apply (He x []); [symmetry; apply app_nil_r|exact Hx|exact (first_written _ _ _ Hf)].
    - assert (v = []) as ->.
      { destruct v as [|c v]; [reflexivity|]. exfalso. apply (Hlong x []); [symmetry; apply app_nil_r| |exact (first_written _ _ _ Hf)].
        rewrite E, app_length. cbn. lia. }
      rewrite app_nil_r in E. subst u. rewrite (first_match_unique _ _ _ _ _ Hf' Hf), Hk in Hg. injection Hg as <-. exists r. reflexivity.
  Qed.
  Lemma written_matched es (gens : list (generator K)) x k s q r : munches lang es gens x 0 ({| lt_kind := k; lt_source := s; lt_pos := q |} :: r) ->
    exists i g, first_match lang es s i /\ nth_error gens i = Some g /\ k = gen_run g s.
  Proof. intros H. inversion H; subst. eauto. Qed.
  Lemma written_kind_ok w : forall es (gens : list (generator K)) l, length gens = length es -> answers (map r_lang es) w l ->
    match first_kind gens l with
    | Some v => exists i k, first_match lang es w i /\ nth_error gens i = Some k /\ v = gen_run k []
    | None => ~ matched lang es w
    end.
  Proof.
    induction es as [|e es IH]; intros gens l Hl Ha.
    { destruct gens; [|discriminate]. cbn. intros (e & [] & _). }
    destruct gens as [|k gens]; [discriminate|]. inversion Ha as [|? b ? l1 Hb Ha1]; subst. cbn [first_kind]. rewrite r_lang_ok in Hb. destruct b.
    - exists 0, k. split; [|auto]. split; [exists e; split; [reflexivity|apply Hb; reflexivity]|]. intros j q Hj. lia.
    - assert (Hn : ~ lang e w) by (intros X; apply Hb in X; discriminate). specialize (IH gens l1 ltac:(cbn in Hl; lia) Ha1).
      destruct (first_kind gens l1) as [v|].
      + destruct IH as (i & k' & ((q & Hq & Hx) & Hi) & Hk & ->). exists (S i), k'. split; [|auto]. split; [exists q; auto|].
        intros [|j] r Hj Hr; cbn in Hr; [injection Hr as <-; exact Hn|]. apply (Hi j r); [lia|exact Hr].
      + intros (q & [<-|Hq] & Hx); [contradiction|]. apply IH. exists q. auto.
  Qed.

  Lemma misread_ok es gens es' gens' : length gens = length es -> length gens' = length es' ->
    match misread bs es gens es' gens' with
    | Some w => (w <> [] /\ ~ meant_at es gens es' gens' w) /\ forall x, x <> [] -> ~ meant_at es gens es' gens' x -> length w <= length x
    | None => forall x, x <> [] -> meant_at es gens es' gens' x
    end.
  Proof.
    intros Hl Hl'. unfold misread. set (rs := _ :: _). set (phi := fun _ => _).
    assert (HP : forall w l, answers rs w l -> exists b c, phi l = b && negb c /\ (b = true <-> w <> []) /\ (c = true <-> meant_at es gens es' gens' w)).
    { intros w l H. inversion H as [|? b ? l1 Hb H1]; subst. rewrite not_empty_ok in Hb. apply answers_app in H1. rewrite map_length in H1. destruct H1 as (A & B).
      apply (first_kind_ok w es gens _ Hl) in A. apply (written_kind_ok w es' gens' _ Hl') in B. unfold phi. eexists b, _. split; [reflexivity|]. split; [exact Hb|].
      set (f1 := first_kind gens _) in *. set (f2 := first_kind gens' _) in *. rewrite (eqb_eq f1 f2).
      unfold meant_at. destruct f1 as [v|], f2 as [v'|].
      - destruct A as (i & k & Hf & Hk & ->). destruct B as (i' & k' & Hf' & Hk' & ->). split.
        + intros E. injection E as E. split; [split; intros _; eapply LexerMunch.first_match_matched; eassumption|]. intros j j' q q' Hj Hj' Hq Hq'.
          rewrite (first_match_unique _ _ _ _ _ Hj Hf), Hk in Hq. rewrite (first_match_unique _ _ _ _ _ Hj' Hf'), Hk' in Hq'. injection Hq as <-. injection Hq' as <-. exact E.
        + intros (_ & X). f_equal. eapply X; eassumption.
      - destruct A as (i & k & Hf & _). split; [discriminate|]. intros (X & _). exfalso. apply B, X. eapply LexerMunch.first_match_matched; eassumption.
      - destruct B as (i & k & Hf & _). split; [discriminate|]. intros (X & _). exfalso. apply A, X. eapply LexerMunch.first_match_matched; eassumption.
      - split; [|reflexivity]. intros _. split; [tauto|]. intros i i' k k' Hf. exfalso. apply A. eapply LexerMunch.first_match_matched; eassumption. }
    pose proof (find_text_ok bs Hbs rs phi) as H. destruct (find_text bs rs phi) as [w|].
    - destruct H as ((l & Hw & E) & Hmin). destruct (HP w l Hw) as (b & c & E' & Hb & Hc). rewrite E in E'. symmetry in E'. apply andb_prop in E'. destruct E' as (-> & Ec).
      destruct c; [discriminate|]. split; [split; [apply Hb; reflexivity|intros X; apply Hc in X; discriminate]|].
      intros x Hx Hn. apply (Hmin x _ (answers_at rs x)). destruct (HP x _ (answers_at rs x)) as (b' & c' & -> & Hb' & Hc').
      rewrite (proj2 Hb' Hx). destruct c'; [|reflexivity]. exfalso. apply Hn, Hc'. reflexivity.
    - intros x Hx. pose proof (H x _ (answers_at rs x)) as E. destruct (HP x _ (answers_at rs x)) as (b & c & E' & Hb & Hc). rewrite E' in E.
      rewrite (proj2 Hb Hx) in E. apply Hc. destruct c; [reflexivity|discriminate].
  Qed.

  Lemma meant_known es gens es' gens' : length gens = length es -> length gens' = length es' ->
    forall x : list char, x <> [] -> meant_at es gens es' gens' x \/ ~ meant_at es gens es' gens' x.
  Proof.
    intros Hl Hl' x Hx.
    assert (Hfw : (exists i, first_match lang es' x i) \/ ~ matched lang es' x).
    { clear -dk. induction es' as [|e qs IH]; [right; intros (e & [] & _)|]. destruct (written_known e x) as [Y|Y]; [left; apply written_first; exists e; split; [left; reflexivity|exact Y]|].
      destruct IH as [(i & Hi)|IH]; [left; apply written_first; destruct (LexerMunch.first_match_matched _ _ _ _ Hi) as (q & Hq & Hx); exists q; split; [right; exact Hq|exact Hx]|].
      right. intros (q & [<-|Hq] & Hx); [contradiction|]. apply IH. exists q. auto. }
    assert (Hfm : forall qs, (exists i, first_match impl_lang qs x i) \/ ~ matched impl_lang qs x).
    { intros qs. destruct (word_known (r_matched qs) x) as ([|] & H); rewrite r_matched_ok in H; [left; apply matched_first, H; reflexivity|right; intros X; apply H in X; discriminate]. }
    assert (Hsome : forall (gs : list (generator K)) (qs : list expr), length gs = length qs -> forall L i, first_match L qs x i -> exists k, nth_error gs i = Some k).
    { intros gs qs E L i ((q & Hq & _) & _). destruct (nth_error gs i) as [k|] eqn:Ek; [eauto|]. apply nth_error_None in Ek.
      assert (i < length qs) by (apply nth_error_Some; congruence). lia. }
    unfold meant_at. destruct (Hfm es) as [(i & Hf)|Hn], Hfw as [(i' & Hf')|Hn'].
    - destruct (Hsome _ _ Hl _ i Hf) as (k & Hk). destruct (Hsome _ _ Hl' _ i' Hf') as (k' & Hk'). destruct (eqb (gen_run k []) (gen_run k' [])) eqn:E.
      + left. apply (eqb_eq (gen_run k []) (gen_run k' [])) in E. split; [split; intros _; eapply LexerMunch.first_match_matched; eassumption|]. intros j j' q q' Hj Hj' Hq Hq'.
        rewrite (first_match_unique _ _ _ _ _ Hj Hf), Hk in Hq. rewrite (first_match_unique _ _ _ _ _ Hj' Hf'), Hk' in Hq'. injection Hq as <-. injection Hq' as <-. exact E.
      + right. intros (_ & X). specialize (X i i' k k' Hf Hf' Hk Hk'). apply (eqb_eq (gen_run k []) (gen_run k' [])) in X. congruence.
    - right. intros (X & _). apply Hn', X. eapply LexerMunch.first_match_matched; eassumption.
    - right. intros (X & _). apply Hn, X. eapply LexerMunch.first_match_matched; eassumption.
    - left. split; [tauto|]. intros j j' k k' Hj. exfalso. apply Hn. eapply LexerMunch.first_match_matched; eassumption.
  Qed.

  (** ** A text that is misread contains one that is its own first token *)
  Lemma bounded_meant es es' (gens gens' : list (generator K)) input : length gens' = length es' ->
    forallb unit_kind gens = true -> forallb unit_kind gens' = true ->
    (forall x, x <> [] -> length x <= length input -> meant_at es gens es' gens' x) ->
    forall p tks, munches impl_lang es gens input p tks -> munches lang es' gens' input p tks.
  Proof.
    intros Hl' Hu Hu' H. assert (Hlen : forall p (x y : list char), skipn p input = x ++ y -> length x <= length input).
    { intros p x y E. assert (X : length (skipn p input) = length x + length y) by (rewrite E; apply app_length). rewrite skipn_length in X. lia. }
    induction 1 as [p He|p x y i g ts Hx Hne Hf Hg Hlong Hm IH].
    - constructor. intros x y E Hn Hm. apply (He x y E Hn). apply (H x Hn (Hlen _ _ _ E)). exact Hm.
    - destruct (H x Hne (Hlen _ _ _ Hx)) as (HM & HK). destruct (written_first es' x) as (i' & Hf'); [apply HM; exact (LexerMunch.first_match_matched _ _ _ _ Hf)|].
      assert (Hi' : i' < length gens') by (rewrite Hl'; destruct Hf' as ((q & Hq & _) & _); apply nth_error_Some; congruence).
      destruct (nth_error gens' i') as [g'|] eqn:Eg'; [|apply nth_error_None in Eg'; lia].
      replace (gen_run g x) with (gen_run g' x).
      + apply (munch_token lang es' gens' input p x y i' g' ts Hx Hne Hf' Eg'); [|exact IH].
        intros x' y' E Hlt Hmm. apply (Hlong x' y' E Hlt). apply (H x'); [destruct x'; [cbn in Hlt; lia|discriminate]|exact (Hlen _ _ _ E)|exact Hmm].
      + rewrite (unit_run gens' i' g' x Hu' Eg'), (unit_run gens i g x Hu Hg). symmetry. exact (HK i i' g g' Hf Hf' Hg Eg').
  Qed.
  Lemma whole_meant es es' (gens gens' : list (generator K)) x tks : length gens = length es -> length gens' = length es' ->
    forallb unit_kind gens = true -> forallb unit_kind gens' = true -> x <> [] ->
    munches impl_lang es gens x 0 tks -> munches lang es' gens' x 0 tks -> meant_at es gens es' gens' x.
  Proof.
    intros Hl Hl' Hu Hu' Hx M M'.
    assert (Hsome : forall (gs : list (generator K)) (qs : list expr), length gs = length qs -> forall L i, first_match L qs x i -> exists k, nth_error gs i = Some k).
    { intros gs qs E L i ((q & Hq & _) & _). destruct (nth_error gs i) as [k|] eqn:Ek; [eauto|]. apply nth_error_None in Ek.
      assert (i < length qs) by (apply nth_error_Some; congruence). lia. }
    split.
    - split; intros Hm; [apply matched_first in Hm|apply written_first in Hm]; destruct Hm as (i & Hf).
      + destruct (Hsome _ _ Hl _ i Hf) as (k & Hk). destruct (munch_whole es _ x i k Hx Hf Hk tks M) as (r & ->). apply written_matched in M'.
        destruct M' as (j & g & Hj & _). exact (LexerMunch.first_match_matched _ _ _ _ Hj).
      + destruct (Hsome _ _ Hl' _ i Hf) as (k & Hk). destruct (written_whole es' _ x i k Hx Hf Hk tks M') as (r & ->). apply munch_matched in M.
        destruct M as (j & g & Hj & _). exact (LexerMunch.first_match_matched _ _ _ _ Hj).
    - intros i i' k k' Hf Hf' Hk Hk'. destruct (munch_whole es _ x i k Hx Hf Hk tks M) as (r & ->).
      destruct (written_whole es' _ x i' k' Hx Hf' Hk' _ M') as (r' & E). injection E as E _.
      rewrite <- (unit_run _ i k x Hu Hk), <- (unit_run _ i' k' x Hu' Hk'). exact E.
  Qed.

  Lemma shortest_misread (ts : list (list char * generator K)) es es' gens' : parsed ts es -> goodb bs es = true -> length gens' = length es' ->
    forallb unit_kind (map snd ts) = true -> forallb unit_kind gens' = true ->
    let right input := exists lx tks, build_lexer ts input = Val (inl lx) /\ tokens_are lx tks /\ munches lang es' gens' input 0 tks in
    match misread bs es (map snd ts) es' gens' with
    | Some w => ~ right w /\ forall w', ~ right w' -> length w <= length w'
    | None => forall w, right w
    end.
  Proof.
    intros Hp Hg Hl' Hu Hu' right.
    assert (Hl : length (map snd ts) = length es) by (rewrite map_length; exact (parsed_length ts es Hp)).
    assert (Hto : forall w, (forall x, x <> [] -> length x <= length w -> meant_at es (map snd ts) es' gens' x) -> right w).
    { intros w H. destruct (good_tokens bs Hbs ts es w Hp Hg) as (lx & tks & B & M & T).
      exists lx, tks. split; [exact B|]. split; [exact T|]. exact (bounded_meant es es' _ _ w Hl' Hu Hu' H 0 tks M). }
    assert (Hfrom : forall x, x <> [] -> right x -> meant_at es (map snd ts) es' gens' x).
    { intros x Hx (lx1 & v & B1 & T1 & M'). destruct (good_tokens bs Hbs ts es x Hp Hg) as (lx & tks & B & M & T).
      rewrite B in B1. injection B1 as <-. pose proof (tokens_unique lx tks v T T1) as ->. exact (whole_meant es es' _ _ x v Hl Hl' Hu Hu' Hx M M'). }
    pose proof (misread_ok es (map snd ts) es' gens' Hl Hl') as H. destruct (misread bs es (map snd ts) es' gens') as [w|].
    - destruct H as ((Hw & Hn) & Hmin). split; [intros X; exact (Hn (Hfrom w Hw X))|]. intros w' Hd. destruct (Nat.le_gt_cases (length w) (length w')) as [Hle|Hgt]; [exact Hle|].
      exfalso. apply Hd, Hto. intros x Hx Hlx. destruct (meant_known es (map snd ts) es' gens' Hl Hl' x Hx) as [X|X]; [exact X|]. specialize (Hmin x Hx X). lia.
    - intros w. apply Hto. intros x Hx _. exact (H x Hx).
  Qed.
End Lexers.
