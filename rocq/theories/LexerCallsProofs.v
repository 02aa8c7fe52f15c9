(** All the calls of [next] on a lexer. *)
From Verif Require Import Base RegexModel SpecRegex NfaModel SpecNfa NfaCompileProofs NfaLangProofs NfaSimProofs
  NfaMachineProofs NfaTermProofs LexerModel NfaProofs NfaWitness SpecLexer LexerProofs.

Lemma skipn_skipn {A} x y (l : list A) : skipn x (skipn y l) = skipn (x + y) l.
Proof.
  revert l. induction y as [|y IH]; intros l; [rewrite Nat.add_0_r; reflexivity|].
  destruct l as [|a l]; [rewrite !skipn_nil; reflexivity|]. rewrite Nat.add_succ_r. cbn [skipn]. apply IH.
Qed.

Section Calls.
  Context {env : Env} {K : Type}.
  Variables (m : nfa) (es : list expr) (gs : list (generator K)).
  Hypothesis Hm : machine m 2 es.
  Hypothesis Ht : targets_ok m.
  Hypothesis Hgs : length gs = length es.

  Notation toks := (combine (map snd (placement 2 es)) gs).
  Notation mat := (matched impl_lang es).
  Notation live := (live m).

  Let Hwf : wf_nfa m := proj2 (machine_wf _ _ _ Hm).

  Definition ours (lx : lexer K) : Prop := lx_nfa lx = m /\ lx_tokens lx = toks.
  Notation result := (call_result m es gs).

  Lemma emit_keeps lx i k o lx' : emit lx i k = (o, lx') -> ours lx -> ours lx'.
  Proof. unfold emit. destruct k; cbn; intros [= <- <-]; auto. Qed.

  Lemma result_ours lx o lx' : result lx o lx' -> ours lx -> ours lx'.
  Proof.
    intros (b & a & _ & _ & _ & [(_ & _ & k & _ & He)|[(_ & _ & k & _ & He)|(_ & _ & _ & _ & ->)]]) H;
      try (eapply emit_keeps; eassumption). exact H.
  Qed.

  (** A returned token. *)
  Lemma result_some lx t lx' : result lx (Some t) lx' ->
    exists a n i g, 0 < a <= n /\ n <= length (items (lx_iter lx)) /\
      first_match impl_lang es (txt lx a) i /\ nth_error gs i = Some g /\
      t = {| lt_kind := gen_run g (it_source (tok_at lx a)); lt_source := it_source (tok_at lx a); lt_pos := it_pos (tok_at lx a) |} /\
      lx_iter lx' = snd (consume_token (advance n (lx_iter lx) (tok_at lx a) (suf_at lx a n))) /\
      (forall j, a < j <= length (items (lx_iter lx)) -> ~ mat (txt lx j)) /\
      ((n = a /\ n = length (items (lx_iter lx))) \/
       exists b, n = S b /\ a <= b /\ simulated m (txt lx b) /\ ~ live (txt lx n)).
  Proof.
    intros (b & a & Hb & Hf & (Hab & Ha & Hno) & [(Hlt & Hdead & k & Hk & He)|[(Hlt & E & k & Hk & He)|(_ & _ & _ & E & _)]]);
      [| |discriminate].
    - destruct a as [|a]; cbn [kind_at] in Hk.
      { subst k. cbn in He. discriminate. }
      destruct Hk as (i & g & Hi & Hg & ->). cbn [emit consume_token] in He. injection He as <- <-.
      exists (S a), (S b), i, g. split; [lia|]. split; [lia|]. split; [assumption|]. split; [assumption|]. split; [reflexivity|].
      split; [reflexivity|]. split; [|right; exists b; repeat split; auto].
      intros j Hj. destruct (Nat.le_gt_cases j b) as [Hjb|Hjb]; [apply Hno; lia|].
      intros Hmat. apply Hdead. apply (mat_live m es Hm) in Hmat.
      assert (E : txt lx j = txt lx (S b) ++ map snd (skipn (S b) (firstn j (items (lx_iter lx))))).
      { unfold txt. rewrite <- map_app. f_equal. rewrite <- (firstn_skipn (S b) (firstn j _)) at 1. f_equal.
        rewrite firstn_firstn. f_equal. lia. }
      rewrite E in Hmat. exact (live_app m _ _ Hmat).
    - subst a. rename b into a. destruct a as [|a]; cbn [kind_at] in Hk.
      { subst k. cbn in He. discriminate. }
      destruct Hk as (i & g & Hi & Hg & ->). cbn [emit consume_token] in He. injection He as <- <-.
      exists (S a), (S a), i, g. split; [lia|]. split; [lia|]. split; [assumption|]. split; [assumption|]. split; [reflexivity|].
      split; [reflexivity|]. split; [intros j Hj; lia|]. left. split; [reflexivity|lia].
  Qed.

  (** No token. *)
  Lemma result_none lx lx' : result lx None lx' ->
    exists n a, n <= length (items (lx_iter lx)) /\ a <= n /\ lx_iter lx' = advance n (lx_iter lx) (tok_at lx a) (suf_at lx a n) /\
      ((a = 0 /\ 0 < n /\ ~ live (txt lx n) /\ (forall j, 0 < j <= length (items (lx_iter lx)) -> ~ mat (txt lx j))) \/
       (n = length (items (lx_iter lx)) /\ simulated m (txt lx n) /\ (a = 0 \/ mat (txt lx a)) /\
        (forall j, a < j <= n -> ~ mat (txt lx j)) /\ (0 < a -> a < n))).
  Proof.
    intros (b & a & Hb & Hf & (Hab & Ha & Hno) & [(Hlt & Hdead & k & Hk & He)|[(Hlt & E & k & Hk & He)|(Hlt & E & Hmat & _ & ->)]]).
    - destruct a as [|a]; cbn [kind_at] in Hk.
      2:{ destruct Hk as (i & g & _ & _ & ->). discriminate. }
      subst k. injection He as <-. exists (S b), 0. split; [lia|]. split; [lia|]. split; [reflexivity|]. left.
      split; [reflexivity|]. split; [lia|]. split; [assumption|]. intros j Hj. destruct (Nat.le_gt_cases j b) as [Hjb|Hjb]; [apply Hno; lia|].
      intros Hmat. apply Hdead. apply (mat_live m es Hm) in Hmat.
      assert (E : txt lx j = txt lx (S b) ++ map snd (skipn (S b) (firstn j (items (lx_iter lx))))).
      { unfold txt. rewrite <- map_app. f_equal. rewrite <- (firstn_skipn (S b) (firstn j _)) at 1. f_equal.
        rewrite firstn_firstn. f_equal. lia. }
      rewrite E in Hmat. exact (live_app m _ _ Hmat).
    - subst a. rename b into a. destruct a as [|a]; cbn [kind_at] in Hk.
      2:{ destruct Hk as (i & g & _ & _ & ->). discriminate. }
      subst k. injection He as <-. exists 0, 0. split; [lia|]. split; [lia|]. split; [reflexivity|]. right.
      split; [assumption|]. split; [assumption|]. split; [auto|]. split; [intros j Hj; lia|lia].
    - exists b, a. split; [lia|]. split; [lia|]. split; [reflexivity|]. right. split; [assumption|]. split; [assumption|]. split; [assumption|].
      split; [assumption|]. lia.
  Qed.

  (** *** Determinism *)

  Lemma first_match_unique (L : expr -> list char -> Prop) x i j : first_match L es x i -> first_match L es x j -> i = j.
  Proof.
    intros [(e & He & Hx) H1] [(e' & He' & Hx') H2]. destruct (Nat.lt_trichotomy i j) as [H|[H|H]]; [|assumption|].
    - destruct (H2 i e H He Hx).
    - destruct (H1 j e' H He' Hx').
  Qed.

  Lemma kind_unique (lx : lexer K) a k k' : kind_at es gs lx a k -> kind_at es gs lx a k' -> k = k'.
  Proof.
    destruct a as [|a]; cbn [kind_at]; [congruence|]. intros (i & g & Hi & Hg & ->) (i' & g' & Hi' & Hg' & ->).
    pose proof (first_match_unique _ _ _ _ Hi Hi'). subst i'. congruence.
  Qed.

  Lemma txt_le (lx : lexer K) i j : i <= j -> exists y, txt lx j = txt lx i ++ y.
  Proof.
    intros H. exists (map snd (skipn i (firstn j (items (lx_iter lx))))). unfold txt. rewrite <- map_app. f_equal.
    rewrite <- (firstn_skipn i (firstn j _)) at 1. f_equal. rewrite firstn_firstn. f_equal. lia.
  Qed.

  Lemma last_unique (lx : lexer K) a a' b : last_match es lx a b -> last_match es lx a' b -> a = a'.
  Proof.
    intros (H1 & H2 & H3) (H1' & H2' & H3'). destruct (Nat.lt_trichotomy a a') as [H|[H|H]]; [|assumption|].
    - exfalso. destruct H2' as [H2'|H2']; [lia|]. apply (H3 a'); [lia|assumption].
    - exfalso. destruct H2 as [H2|H2]; [lia|]. apply (H3' a); [lia|assumption].
  Qed.

  Lemma result_unique lx o1 l1 o2 l2 : result lx o1 l1 -> result lx o2 l2 -> o1 = o2 /\ l1 = l2.
  Proof.
    intros (b & a & Hb & Hf & Hl & Hr) (b' & a' & Hb' & Hf' & Hl' & Hr').
    assert (b = b') as <-.
    { destruct (Nat.lt_trichotomy b b') as [H|[H|H]]; [|assumption|]; exfalso.
      - assert (Hd : ~ live (txt lx (S b))) by (destruct Hr as [(_ & Hr & _)|[(Hr & _)|(Hr & _)]]; [assumption|lia|lia]).
        destruct (txt_le lx (S b) b' H) as (y & E). apply (simulated_live m es Hm) in Hf'. rewrite E in Hf'. apply Hd, (live_app m _ y Hf').
      - assert (Hd : ~ live (txt lx (S b'))) by (destruct Hr' as [(_ & Hr' & _)|[(Hr' & _)|(Hr' & _)]]; [assumption|lia|lia]).
        destruct (txt_le lx (S b') b H) as (y & E). apply (simulated_live m es Hm) in Hf. rewrite E in Hf. apply Hd, (live_app m _ y Hf). }
    pose proof (last_unique lx _ _ _ Hl Hl'). subst a'.
    destruct Hr as [(H1 & _ & k & Hk & He)|[(H1 & H2 & k & Hk & He)|(H1 & H2 & _ & -> & ->)]];
      destruct Hr' as [(H1' & _ & k' & Hk' & He')|[(H1' & H2' & k' & Hk' & He')|(H1' & H2' & _ & -> & ->)]]; try lia; auto.
    - pose proof (kind_unique _ _ _ _ Hk Hk'). subst k'. rewrite He in He'. injection He' as -> ->. auto.
    - pose proof (kind_unique _ _ _ _ Hk Hk'). subst k'. rewrite He in He'. injection He' as -> ->. auto.
  Qed.

  (** *** One call *)

  Lemma next_val {ho : HashOrder} fuel lx o lx' : ours lx -> lex_next fuel lx = Val (o, lx') -> result lx o lx'.
  Proof.
    intros [H1 H2] H. destruct (next_spec m es gs Hm Ht Hgs lx H1 H2 fuel) as [E|(o1 & l1 & E & Hr)]; [congruence|].
    rewrite E in H. injection H as <- <-. assumption.
  Qed.

  Lemma next_no_panic {ho : HashOrder} fuel lx : ours lx -> lex_next fuel lx <> Panic.
  Proof. intros [H1 H2]. destruct (next_spec m es gs Hm Ht Hgs lx H1 H2 fuel) as [->|(o1 & l1 & -> & Hr)]; discriminate. Qed.

  Lemma calls_no_panic {ho : HashOrder} fuel n : forall lx, ours lx -> lex_calls fuel n lx <> Panic.
  Proof.
    induction n as [|n IH]; intros lx Ho; cbn [lex_calls]; [discriminate|]. pose proof (next_no_panic fuel lx Ho) as Hnp.
    destruct (lex_next fuel lx) as [[o l]| |] eqn:E; cbn [bind]; [|congruence|discriminate].
    pose proof (result_ours _ _ _ (next_val _ _ _ _ Ho E) Ho) as Ho'. specialize (IH l Ho').
    destruct (lex_calls fuel n l) as [[os l2]| |]; cbn [bind]; congruence.
  Qed.

  (** The calls of a successful sequence. *)
  Lemma calls_inv {ho : HashOrder} fuel n lx o os lx' : ours lx -> lex_calls fuel n lx = Val (o :: os, lx') ->
    exists n' l, n = S n' /\ result lx o l /\ ours l /\ lex_calls fuel n' l = Val (os, lx').
  Proof.
    intros Ho. destruct n as [|n]; cbn [lex_calls]; [discriminate|].
    destruct (lex_next fuel lx) as [[o1 l]| |] eqn:E; cbn [bind]; try discriminate.
    destruct (lex_calls fuel n l) as [[os' l2]| |] eqn:E'; cbn [bind]; try discriminate. intros [= -> -> ->].
    pose proof (next_val _ _ _ _ Ho E) as Hr. exists n, l. split; [reflexivity|]. split; [assumption|]. split; [|assumption].
    eapply result_ours; eassumption.
  Qed.

  (** *** Progress *)

  Definition weight (lx : lexer K) : nat :=
    iter_left (lx_iter lx) + length (ii_suffix (lx_iter lx)) + length (it_source (ii_token (lx_iter lx))).

  Lemma result_weight lx o lx' : result lx o lx' ->
    weight lx' + (match o with Some t => length (lt_source t) | None => 0 end) <= weight lx /\
    (forall t, o = Some t -> lt_source t <> []).
  Proof.
    intros H. destruct o as [t|].
    - destruct (result_some _ _ _ H) as (a & n & i & g & Ha & Hn & _ & _ & -> & E & _ & _). split.
      + unfold weight, iter_left. rewrite E. cbn [lt_source consume_token snd advance ii_prev ii_rest ii_suffix ii_token it_source length].
        destruct a as [|a]; [lia|]. cbn [tok_at suf_at it_source]. rewrite !app_length, map_length, txt_length by lia.
        rewrite !skipn_length, firstn_length. rewrite items_length in *. unfold iter_left in *. lia.
      + intros t [= <-]. cbn [lt_source]. destruct a as [|a]; [lia|]. cbn [tok_at it_source]. intros E0.
        apply (f_equal (@length _)) in E0. rewrite !app_length, txt_length in E0 by lia. cbn in E0. lia.
    - split; [|discriminate]. destruct (result_none _ _ H) as (n & a & Hn & Ha & E & _).
      unfold weight, iter_left. rewrite E. cbn [advance ii_prev ii_rest ii_suffix ii_token].
      rewrite items_length in Hn. unfold iter_left in Hn.
      destruct a as [|a]; cbn [tok_at suf_at it_source].
      + rewrite app_length, !skipn_length, firstn_length, items_length. unfold iter_left. lia.
      + rewrite !app_length, map_length, txt_length by (rewrite items_length; unfold iter_left; lia).
        rewrite !skipn_length, firstn_length, items_length. unfold iter_left. lia.
  Qed.

  Lemma calls_weight {ho : HashOrder} fuel os : forall n lx lx', ours lx -> lex_calls fuel n lx = Val (os, lx') ->
    list_sum (map (fun t => length (lt_source t)) (somes os)) <= weight lx /\ forall t, In (Some t) os -> lt_source t <> [].
  Proof.
    induction os as [|o os IH]; intros n lx lx' Ho H; [cbn; split; [lia|tauto]|].
    destruct (calls_inv _ _ _ _ _ _ Ho H) as (n' & l & -> & Hr & Ho' & H'). destruct (IH _ _ _ Ho' H') as [H1 H2].
    destruct (result_weight _ _ _ Hr) as [H3 H4]. destruct o as [t|]; cbn [somes map list_sum] in *.
    - split; [|intros t' [[= ->]|Hin]; auto]. change (length (lt_source t) + list_sum (map (fun t => length (lt_source t)) (somes os)) <= weight lx). lia.
    - split; [lia|]. intros t' [E|Hin]; [discriminate|auto].
  Qed.

  (** *** Kinds *)

  Lemma result_kind lx t lx' : result lx (Some t) lx' ->
    exists junk x i g, lt_source t = junk ++ x /\ x <> [] /\ first_match impl_lang es x i /\ nth_error gs i = Some g /\
      lt_kind t = gen_run g (lt_source t) /\
      junk = it_source (ii_token (lx_iter lx)) ++ map snd (ii_suffix (lx_iter lx)).
  Proof.
    intros H. destruct (result_some _ _ _ H) as (a & n & i & g & Ha & Hn & Hi & Hg & -> & _).
    destruct a as [|a]; [lia|]. cbn [lt_source lt_kind tok_at it_source].
    exists (it_source (ii_token (lx_iter lx)) ++ map snd (ii_suffix (lx_iter lx))), (txt lx (S a)), i, g.
    split; [rewrite <- app_assoc; reflexivity|]. split; [intros E; apply (f_equal (@length _)) in E; rewrite txt_length in E; cbn in E; lia|].
    repeat split; try assumption; apply Hi.
  Qed.

  Lemma calls_kind {ho : HashOrder} fuel os : forall n lx lx' t, ours lx -> lex_calls fuel n lx = Val (os, lx') -> In (Some t) os ->
    exists junk x i g, lt_source t = junk ++ x /\ x <> [] /\ first_match impl_lang es x i /\ nth_error gs i = Some g /\
      lt_kind t = gen_run g (lt_source t).
  Proof.
    induction os as [|o os IH]; intros n lx lx' t Ho H Hin; [destruct Hin|].
    destruct (calls_inv _ _ _ _ _ _ Ho H) as (n' & l & -> & Hr & Ho' & H'). destruct Hin as [->|Hin]; [|eauto].
    destruct (result_kind _ _ _ Hr) as (junk & x & i & g & Hk). exists junk, x, i, g. tauto.
  Qed.

  (** Nothing pending. *)
  Definition fresh (lx : lexer K) : Prop := it_source (ii_token (lx_iter lx)) = [] /\ ii_suffix (lx_iter lx) = [].

  Lemma result_fresh lx t lx' : result lx (Some t) lx' -> fresh lx'.
  Proof. intros H. destruct (result_some _ _ _ H) as (a & n & i & g & Ha & Hn & _ & _ & -> & E & _ & _). unfold fresh. rewrite E. split; reflexivity. Qed.

  Lemma calls_first {ho : HashOrder} fuel os : forall n lx lx' t, ours lx -> fresh lx -> lex_calls fuel n lx = Val (os, lx') ->
    In t (before_none os) ->
    exists i g, first_match impl_lang es (lt_source t) i /\ nth_error gs i = Some g /\ lt_kind t = gen_run g (lt_source t).
  Proof.
    induction os as [|o os IH]; intros n lx lx' t Ho Hf H Hin; [destruct Hin|].
    destruct (calls_inv _ _ _ _ _ _ Ho H) as (n' & l & -> & Hr & Ho' & H'). destruct o as [t'|]; cbn [before_none] in Hin; [|destruct Hin].
    destruct Hin as [->|Hin].
    - destruct (result_kind _ _ _ Hr) as (junk & x & i & g & E & _ & Hi & Hg & Hk & ->).
      destruct Hf as [E1 E2]. rewrite E1, E2 in E. cbn in E. rewrite <- E in Hi. eauto.
    - eapply IH; eauto. eapply result_fresh; eassumption.
  Qed.

  (** *** Tiling *)

  Section Tile.
    Variable input : list char.
    Hypothesis Hres : resumable es.

    Definition ready (lx : lexer K) (p : nat) : Prop :=
      fresh lx /\ fst (it_pos (ii_token (lx_iter lx))) = p /\ p <= length input /\
      items (lx_iter lx) = num p (skipn p input) /\
      ii_count (lx_iter lx) = p + length (ii_prev (lx_iter lx)) /\
      live (removelast (map snd (ii_prev (lx_iter lx)))).

    Lemma ready_txt lx p n : ready lx p -> txt lx n = firstn n (skipn p input).
    Proof. intros (_ & _ & _ & E & _). unfold txt. rewrite E, num_firstn, num_snd. reflexivity. Qed.

    Lemma ready_len lx p : ready lx p -> length (items (lx_iter lx)) = length input - p.
    Proof. intros (_ & _ & _ & E & _). rewrite E, num_length, skipn_length. reflexivity. Qed.

    Lemma nth_num n : forall p l d, n < length l -> fst (nth n (num p l) d) = p + n.
    Proof.
      induction n as [|n IH]; intros p [|c l] d Hn; cbn [length] in Hn; try lia; rewrite num_cons; cbn [nth fst]; [lia|].
      rewrite IH by lia. lia.
    Qed.

    Lemma firstn_skipn_le {A} a n (l : list A) : a <= n -> firstn n l = firstn a l ++ firstn (n - a) (skipn a l).
    Proof. intros H. rewrite <- (firstn_skipn a (firstn n l)) at 1. rewrite firstn_firstn, Nat.min_l by lia. f_equal. apply skipn_firstn_comm. Qed.

    Lemma ready_some lx p t lx' : ready lx p -> result lx (Some t) lx' ->
      lt_pos t = (p, p + length (lt_source t)) /\ lt_source t <> [] /\
      lt_source t = firstn (length (lt_source t)) (skipn p input) /\ ready lx' (p + length (lt_source t)) /\
      (forall x y, skipn p input = x ++ y -> length (lt_source t) < length x -> ~ mat x).
    Proof.
      intros Hrd H. pose proof (ready_len _ _ Hrd) as Hlen. pose proof (fun n => ready_txt lx p n Hrd) as Htxt.
      pose proof Hrd as ((Hsrc & Hsuf) & Hpos & Hp & Hit & Hcnt & Hlive).
      destruct (result_some _ _ _ H) as (a & n & i & g & Ha & Hn & Hi & Hg & -> & E & Hno & Hend).
      cbn [lt_source lt_pos]. assert (Ha' : a <= length (items (lx_iter lx))) by lia.
      assert (Hsource : it_source (tok_at lx a) = firstn a (skipn p input)).
      { destruct a as [|a]; [lia|]. cbn [tok_at it_source]. rewrite Hsrc, Hsuf, Htxt. reflexivity. }
      assert (Hlensrc : length (it_source (tok_at lx a)) = a) by (rewrite Hsource, firstn_length, skipn_length; lia).
      assert (Hposa : it_pos (tok_at lx a) = (p, p + a)).
      { destruct a as [|a]; [lia|]. cbn [tok_at it_pos]. rewrite Hpos, Hit, nth_num by (rewrite skipn_length; lia). f_equal. lia. }
      split; [rewrite Hlensrc; assumption|]. split; [intros E0; rewrite E0 in Hlensrc; cbn in Hlensrc; lia|].
      split; [rewrite Hlensrc; assumption|]. split.
      - rewrite Hlensrc.
        (* all of the handed back characters have been read again *)
        assert (Hprev : length (ii_prev (lx_iter lx)) <= n).
        { destruct Hend as [[_ ->]|(b & -> & Hab & Hfeed & Hdead)].
          - unfold items. rewrite app_length. lia.
          - destruct (Nat.le_gt_cases (length (ii_prev (lx_iter lx))) (S b)) as [|Hlt]; [assumption|]. exfalso. apply Hdead.
            assert (Ep : txt lx (S b) = firstn (S b) (removelast (map snd (ii_prev (lx_iter lx))))).
            { unfold txt, items. rewrite firstn_app. replace (S b - length (ii_prev (lx_iter lx))) with 0 by lia.
              rewrite firstn_O, app_nil_r, <- firstn_map. rewrite removelast_firstn_len, firstn_firstn, map_length. f_equal. lia. }
            rewrite Ep. rewrite <- (firstn_skipn (S b) (removelast _)) in Hlive. exact (live_app m _ _ Hlive). }
        assert (Hsuf' : suf_at lx a n = num (p + a) (firstn (n - a) (skipn (p + a) input))).
        { destruct a as [|a]; [lia|]. cbn [suf_at]. rewrite Hit, num_firstn, num_skipn. f_equal.
          rewrite skipn_firstn_comm, skipn_skipn. f_equal. f_equal. lia. }
        assert (Hrest : skipn (n - length (ii_prev (lx_iter lx))) (ii_rest (lx_iter lx)) = skipn (p + n) input).
        { assert (Er : num (ii_count (lx_iter lx)) (ii_rest (lx_iter lx)) = num (ii_count (lx_iter lx)) (skipn (length (ii_prev (lx_iter lx))) (skipn p input))).
          { rewrite Hcnt, <- num_skipn, <- Hit. unfold items. rewrite skipn_app, skipn_all, Nat.sub_diag. cbn. rewrite Hcnt. reflexivity. }
          apply (f_equal (map snd)) in Er. rewrite !num_snd in Er. rewrite Er, !skipn_skipn. f_equal. lia. }
        unfold ready. rewrite E. cbn [consume_token snd ii_token it_pos fst ii_prev ii_count ii_rest ii_suffix].
        split; [split; rewrite E; reflexivity|].
        cbn [advance ii_token it_pos fst snd ii_prev ii_count ii_rest ii_suffix]. rewrite Hposa. cbn [snd].
        split; [reflexivity|]. split; [lia|]. rewrite Hsuf'.
        assert (Hl : length (firstn (n - a) (skipn (p + a) input)) = n - a) by (rewrite firstn_length, skipn_length; lia).
        split; [|split].
        + unfold items. cbn [ii_prev ii_count ii_rest]. rewrite Hrest, Hcnt.
          rewrite <- (firstn_skipn (n - a) (skipn (p + a) input)) at 2. rewrite num_app, Hl, skipn_skipn. f_equal. f_equal; [lia|]. f_equal. lia.
        + rewrite num_length, Hl, Hcnt. lia.
        + rewrite num_snd. destruct Hend as [[-> _]|(b & -> & Hab & Hfeed & Hdead)].
          * rewrite Nat.sub_diag. cbn. apply live_nil.
          * replace (S b - a) with (S (b - a)) by lia. rewrite removelast_firstn by (rewrite skipn_length; lia).
            apply (feedable_live m es Hm). apply (simulated_live m es Hm), (feedable_live m es Hm) in Hfeed. rewrite Htxt in Hfeed, Hi.
            rewrite (firstn_skipn_le a b _ Hab), skipn_skipn in Hfeed. rewrite (Nat.add_comm a p) in Hfeed.
            apply (Hres (firstn a (skipn p input))).
            -- intros E0. apply (f_equal (@length _)) in E0. rewrite firstn_length, skipn_length in E0. cbn in E0. lia.
            -- destruct Hi as [(e & He & Hx) _]. exists e. split; [eapply nth_error_In; eassumption|assumption].
            -- intros s' r Es Hs'. assert (Hle : length s' <= b - a).
               { apply (f_equal (@length _)) in Es. rewrite app_length, firstn_length in Es. lia. }
               assert (Hs0 : 0 < length s') by (destruct s'; [congruence|cbn; lia]).
               assert (Ex : firstn a (skipn p input) ++ s' = txt lx (a + length s')).
               { rewrite Htxt, (firstn_skipn_le a (a + length s')) by lia. f_equal. rewrite skipn_skipn, (Nat.add_comm a p).
                 replace (a + length s' - a) with (length s') by lia.
                 assert (Es' : firstn (length s') (s' ++ r) = s') by (rewrite firstn_app, Nat.sub_diag, firstn_all; apply app_nil_r).
                 rewrite <- Es, firstn_firstn, Nat.min_l in Es' by lia. congruence. }
               rewrite Ex. apply Hno. lia.
            -- assumption.
      - rewrite Hlensrc. intros x y Exy Hx. assert (Hlx : length x <= length (items (lx_iter lx))).
        { rewrite Hlen. apply (f_equal (@length _)) in Exy. rewrite skipn_length, app_length in Exy. lia. }
        assert (Ex : x = txt lx (length x)) by (rewrite Htxt, Exy, firstn_app, Nat.sub_diag, firstn_all; cbn; rewrite app_nil_r; reflexivity).
        rewrite Ex. apply Hno. lia.
    Qed.

    Lemma ready_none lx p lx' : ready lx p -> result lx None lx' ->
      (iter_left (lx_iter lx') = 0 /\ live (skipn p input) /\
       (skipn p input <> [] -> ~ mat (skipn p input) )) \/
      (~ live (skipn p input) /\ forall x y, skipn p input = x ++ y -> x <> [] -> ~ mat x).
    Proof.
      intros Hrd H. pose proof (ready_len _ _ Hrd) as Hlen. pose proof (fun n => ready_txt lx p n Hrd) as Htxt.
      destruct (result_none _ _ H) as (n & a & Hn & Ha & E & [(-> & Hn0 & Hd & Hno)|(En & Hf & Hma & Hno & Han)]).
      - right. split.
        + intros Hl. apply Hd. rewrite Htxt. rewrite <- (firstn_skipn n (skipn p input)) in Hl. exact (live_app m _ _ Hl).
        + intros x y Exy Hx. assert (Hlx : length x <= length (items (lx_iter lx))).
          { rewrite Hlen. apply (f_equal (@length _)) in Exy. rewrite skipn_length, app_length in Exy. lia. }
          assert (Ex : x = txt lx (length x)) by (rewrite Htxt, Exy, firstn_app, Nat.sub_diag, firstn_all; cbn; rewrite app_nil_r; reflexivity).
          rewrite Ex. apply Hno. destruct x; [congruence|]. cbn [length] in *. lia.
      - left. assert (Et : txt lx n = skipn p input) by (rewrite Htxt, En, Hlen; apply firstn_all2; rewrite skipn_length; lia).
        split; [|split].
        + unfold iter_left. rewrite E. cbn [advance ii_prev ii_rest]. rewrite En, items_length. unfold iter_left. rewrite !skipn_length. lia.
        + rewrite <- Et. apply (simulated_live m es Hm). assumption.
        + intros Hne. rewrite <- Et. apply Hno. assert (n <> 0) by (intros ->; apply Hne; rewrite <- Et; reflexivity). lia.
    Qed.

    Lemma calls_tile {ho : HashOrder} fuel os : forall n lx lx' p, ours lx -> ready lx p -> lex_calls fuel n lx = Val (os, lx') ->
      tiles input p (before_none os).
    Proof.
      induction os as [|o os IH]; intros n lx lx' p Ho Hrd H; [constructor|].
      destruct (calls_inv _ _ _ _ _ _ Ho H) as (n' & l & -> & Hr & Ho' & H'). destruct o as [t|]; cbn [before_none]; [|constructor].
      destruct (ready_some _ _ _ _ Hrd Hr) as (H1 & H2 & H3 & H4 & _). constructor; try assumption. eapply IH; eassumption.
    Qed.

    Lemma calls_longest {ho : HashOrder} fuel os : forall n lx lx' p t, ours lx -> ready lx p -> lex_calls fuel n lx = Val (os, lx') ->
      In t (before_none os) -> forall x y, skipn (fst (lt_pos t)) input = x ++ y -> length (lt_source t) < length x -> ~ mat x.
    Proof.
      induction os as [|o os IH]; intros n lx lx' p t Ho Hrd H Hin; [destruct Hin|].
      destruct (calls_inv _ _ _ _ _ _ Ho H) as (n' & l & -> & Hr & Ho' & H'). destruct o as [t'|]; cbn [before_none] in Hin; [|destruct Hin].
      destruct (ready_some _ _ _ _ Hrd Hr) as (H1 & H2 & H3 & H4 & H5). destruct Hin as [->|Hin]; [rewrite H1; exact H5|].
      eapply IH; eassumption.
    Qed.

    Lemma calls_split {ho : HashOrder} fuel ts o rest : forall n lx lx' p, ours lx -> ready lx p ->
      lex_calls fuel n lx = Val (map Some ts ++ o :: rest, lx') ->
      exists n' l l', ours l /\ ready l (p + consumed ts) /\ result l o l' /\ ours l' /\ lex_calls fuel n' l' = Val (rest, lx').
    Proof.
      induction ts as [|t ts IH]; intros n lx lx' p Ho Hrd H; cbn [map app] in H.
      - destruct (calls_inv _ _ _ _ _ _ Ho H) as (n' & l & -> & Hr & Ho' & H'). exists n', lx, l.
        unfold consumed. cbn. rewrite Nat.add_0_r. auto.
      - destruct (calls_inv _ _ _ _ _ _ Ho H) as (n' & l & -> & Hr & Ho' & H').
        destruct (ready_some _ _ _ _ Hrd Hr) as (_ & _ & _ & Hrd' & _).
        destruct (IH _ _ _ _ Ho' Hrd' H') as (n2 & l2 & l3 & H1 & H2 & H3). exists n2, l2, l3. split; [assumption|]. split; [|assumption].
        replace (p + consumed (t :: ts)) with (p + length (lt_source t) + consumed ts) by (unfold consumed, list_sum; cbn [map fold_right]; lia). assumption.
    Qed.
  End Tile.

  (** *** After the end *)

  Lemma result_at_end lx o lx' : result lx o lx' -> iter_left (lx_iter lx) = 0 -> o = None /\ iter_left (lx_iter lx') = 0.
  Proof.
    intros H H0. destruct o as [t|].
    - destruct (result_some _ _ _ H) as (a & n & i & g & Ha & Hn & _). rewrite items_length in Hn. lia.
    - split; [reflexivity|]. destruct (result_none _ _ H) as (n & a & Hn & Ha & E & _). rewrite E. unfold iter_left in *.
      cbn [advance ii_prev ii_rest]. rewrite !skipn_length. lia.
  Qed.

  Lemma calls_end {ho : HashOrder} fuel os : forall n lx lx', ours lx -> iter_left (lx_iter lx) = 0 -> lex_calls fuel n lx = Val (os, lx') ->
    Forall (fun o => o = None) os.
  Proof.
    induction os as [|o os IH]; intros n lx lx' Ho H0 H; constructor;
      destruct (calls_inv _ _ _ _ _ _ Ho H) as (n' & l & -> & Hr & Ho' & H'); destruct (result_at_end _ _ _ Hr H0); [assumption|]; eauto.
  Qed.

  (** *** Termination *)

  Definition feeds_finite (lx : lexer K) : Prop := forall n, finite (after m (init m) (txt lx n)).

  Lemma txt_all (lx : lexer K) n : length (items (lx_iter lx)) <= n -> txt lx n = txt lx (length (items (lx_iter lx))).
  Proof. intros H. unfold txt. rewrite firstn_all, firstn_all2; [reflexivity|assumption]. Qed.

  Lemma next_total_all lx : ours lx -> feeds_finite lx ->
    exists N, forall (ho : HashOrder) fuel, N <= fuel -> lex_next fuel lx <> Diverge.
  Proof.
    intros [H1 H2] Hfin.
    assert (HN : forall L, exists N, forall n, n <= L -> exists U, (forall r, after m (init m) (txt lx n) r -> In r U) /\ length U <= N).
    { induction L as [|L (N & HN)].
      - destruct (Hfin 0) as (U & HU). exists (length U). intros n Hn. assert (n = 0) as -> by lia. eauto.
      - destruct (Hfin (S L)) as (U & HU). exists (Nat.max N (length U)). intros n Hn. destruct (Nat.eq_dec n (S L)) as [->|].
        + exists U. split; [assumption|lia].
        + destruct (HN n) as (U' & HU' & Hl); [lia|]. exists U'. split; [assumption|lia]. }
    destruct (HN (length (items (lx_iter lx)))) as (N & HN'). exists (length (nfa_states m) + N). intros ho fuel Hf.
    apply (next_total m es gs Hm Hgs lx H1); [lia|].
    intros n. destruct (Nat.le_gt_cases n (length (items (lx_iter lx)))) as [Hn|Hn].
    - destruct (HN' n Hn) as (U & HU & Hl). exists U. split; [assumption|lia].
    - rewrite txt_all by lia. destruct (HN' _ (le_n _)) as (U & HU & Hl). exists U. split; [assumption|lia].
  Qed.

  Lemma next_settled lx : ours lx -> feeds_finite lx ->
    exists N o lx', result lx o lx' /\ forall (ho : HashOrder) fuel, N <= fuel -> lex_next fuel lx = Val (o, lx').
  Proof.
    intros Ho Hfin. destruct (next_total_all lx Ho Hfin) as (N & HN).
    pose proof (HN id_order N (le_n _)) as H0. pose proof (@next_no_panic id_order N lx Ho) as Hp0.
    destruct (@lex_next env id_order K N lx) as [[o lx']| |] eqn:E; try congruence.
    apply (@next_val id_order) in E; [|assumption]. exists N, o, lx'. split; [assumption|]. intros ho fuel Hf.
    specialize (HN ho fuel Hf). pose proof (next_no_panic fuel lx Ho) as Hp. destruct (lex_next fuel lx) as [[o2 l2]| |] eqn:E2; try congruence.
    apply next_val in E2; [|assumption]. destruct (result_unique _ _ _ _ _ E E2) as [-> ->]. reflexivity.
  Qed.

  Lemma result_finite lx o lx' : result lx o lx' -> feeds_finite lx.
  Proof.
    intros (b & a & Hb & Hf & Hl & Hr) n. destruct Hf as (ho & fuel & rs & Hs & _).
    destruct (Nat.le_gt_cases n b) as [Hn|Hn].
    - destruct (txt_le lx n b Hn) as (y & E). rewrite E in Hs. destruct (sim_text_prefix m fuel _ _ _ Hs) as (l & Hl').
      exists l. intros r Hr'. apply (sim_text_spec m fuel _ _ Hwf Hl'). assumption.
    - destruct Hr as [(_ & Hd & _)|Hr].
      + exists []. intros r Hr. destruct Hd. destruct (txt_le lx (S b) n Hn) as (y & E). rewrite E in Hr.
        apply (live_app m _ y). exists r. assumption.
      + assert (Eb : b = length (items (lx_iter lx))) by (destruct Hr as [(Hr & _)|(Hr & _)]; exact Hr).
        rewrite txt_all by lia. rewrite <- Eb. exists rs. intros r Hr'. apply (sim_text_spec m fuel _ _ Hwf Hs). assumption.
  Qed.

  Lemma calls_order (ho1 ho2 : HashOrder) fuel n : forall lx os lx', ours lx -> @lex_calls env ho1 K fuel n lx = Val (os, lx') ->
    exists N, forall fuel', N <= fuel' -> @lex_calls env ho2 K fuel' n lx = Val (os, lx').
  Proof.
    induction n as [|n IH]; intros lx os lx' Ho H; cbn [lex_calls] in *.
    - injection H as <- <-. exists 0. reflexivity.
    - destruct (@lex_next env ho1 K fuel lx) as [[o l]| |] eqn:E; cbn [bind] in H; try discriminate.
      destruct (@lex_calls env ho1 K fuel n l) as [[os' l2]| |] eqn:E2; cbn [bind] in H; try discriminate. injection H as <- <-.
      pose proof (@next_val ho1 _ _ _ _ Ho E) as Hr. destruct (next_settled lx Ho (result_finite _ _ _ Hr)) as (N1 & o' & l' & Hr' & HN1).
      destruct (result_unique _ _ _ _ _ Hr Hr') as [<- <-]. destruct (IH l os' l2 (result_ours _ _ _ Hr Ho) E2) as (N2 & HN2).
      exists (Nat.max N1 N2). intros fuel' Hf. rewrite HN1 by lia. cbn [bind]. rewrite HN2 by lia. reflexivity.
  Qed.

  Lemma calls_total n : (forall e, In e es -> loops_ok e = true) -> forall lx, ours lx ->
    exists N os lx', forall (ho : HashOrder) fuel, N <= fuel -> lex_calls fuel n lx = Val (os, lx').
  Proof.
    intros Hl. induction n as [|n IH]; intros lx Ho; cbn [lex_calls].
    - exists 0, [], lx. reflexivity.
    - assert (Hfin : feeds_finite lx).
      { intros k. destruct (machine_after_finite m 2 es (txt lx k) Hm Hl) as (L & HL & _). exists L. intros x Hx. apply HL. assumption. }
      destruct (next_settled lx Ho Hfin) as (N1 & o & l & Hr & HN1). destruct (IH l (result_ours _ _ _ Hr Ho)) as (N2 & os & l2 & HN2).
      exists (Nat.max N1 N2), (o :: os), l2. intros ho fuel Hf. rewrite HN1 by lia. cbn [bind]. rewrite HN2 by lia. reflexivity.
  Qed.
End Calls.
