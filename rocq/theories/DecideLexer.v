(** When calls of a lexer never return, without double negations. *)
From Verif Require Import Base RegexModel SpecRegex NfaModel SpecNfa NfaCompileProofs NfaLangProofs NfaSimProofs
  NfaMachineProofs NfaTermProofs LexerModel NfaProofs NfaWitness SpecLexer LexerProofs LexerCallsProofs LexerWitness
  SpecCalls LexerRef SpecSpin NfaSpin SpecStuck LexerSpin AskModel SpecAsk LexerAsk DecideProofs.

Lemma matching_never_ends {env : Env} (ho : HashOrder) e m w : nfa_from e = Val m ->
  (forall fuel, simulate fuel m w = Diverge) <-> spinning e w.
Proof.
  intros Hm. destruct (spinning_exact e m w Hm) as (H1 & H2). split; [|intros H fuel; apply H1; exact H].
  intros Hd. destruct (settles_spinning e w) as [H|H]; [exact H|]. destruct (H2 H) as (N & HN). destruct (HN ho N (le_n _)) as (b & E).
  rewrite Hd in E. discriminate.
Qed.

Section Settled.
  Context {env : Env}.
  Variables (es : list expr) (L : expr -> list char -> Prop).
  Hypothesis HL : agreed L es.

  Lemma settles_stuck s : settles (stuck es s).
  Proof. apply settles_member. intros e _. apply settles_spinning. Qed.

  Lemma settles_spun u : settles (spun es u).
  Proof. apply settles_member. intros e _. apply settles_spinning. Qed.

  Lemma settles_L e w : settles (L e w).
  Proof. destruct HL as [-> | [-> _]]; [apply settles_impl_lang|apply settles_lang]. Qed.

  Lemma settles_first x : (exists i, i < length es /\ first_match L es x i) \/ (forall i, ~ first_match L es x i).
  Proof.
    assert (H : forall k, (exists i, i < length es /\ first_match L es x i) \/ (forall j e, j < k -> nth_error es j = Some e -> ~ L e x)).
    { induction k as [|k [H|H]]; [right; intros; lia|left; exact H|]. destruct (nth_error es k) as [e|] eqn:E.
      - destruct (settles_L e x) as [He|He].
        + left. exists k. split; [apply nth_error_Some; congruence|]. split; [exists e; auto|exact H].
        + right. intros j e' Hj Hn. destruct (Nat.eq_dec j k) as [->|Hne]; [congruence|]. apply (H j); [lia|exact Hn].
      - right. intros j e' Hj Hn. destruct (Nat.eq_dec j k) as [->|Hne]; [congruence|]. apply (H j); [lia|exact Hn]. }
    destruct (H (length es)) as [Hy|Hy]; [left; exact Hy|]. right. intros i ((e & En & He) & _).
    assert (Hi : i < length es) by (apply nth_error_Some; congruence). exact (Hy i e Hi En He).
  Qed.
End Settled.

Section Calls.
  Context {env : Env} {K : Type}.
  Variables (m : nfa) (es : list expr) (gs : list (generator K)) (L : expr -> list char -> Prop).
  Hypothesis Hm : machine m 2 es.
  Hypothesis Ht : targets_ok m.
  Hypothesis Hgs : length gs = length es.
  Hypothesis HL : agreed L es.
  Hypothesis Hfeed : forall x, matched L es x -> feedable es x.

  Lemma calls_return_or_not n : forall lx s, ours m es gs lx -> holds lx s ->
    (exists os s', reaches L es gs s os s' /\ length os < n /\ stuck es s') \/
    (exists os N lx', forall (ho : HashOrder) fuel, N <= fuel -> lex_calls fuel n lx = Val (os, lx')).
  Proof.
    induction n as [|n IH]; intros lx s Ho Hh; cbn [lex_calls]; [right; exists [], 0, lx; auto|].
    destruct (settles_stuck es s) as [Hs|Hs]; [left; exists [], s; split; [constructor|]; split; [cbn; lia|exact Hs]|].
    destruct (next_free m es gs Hm Ht Hgs lx s Ho Hh Hs) as (N1 & o & lx1 & Hcr & HN1).
    destruct (refine m es gs L Hm Hgs HL _ _ _ _ Hh Hcr) as (s1 & Hc & Hh1).
    destruct (IH lx1 s1 (result_ours m es gs _ _ _ Hcr Ho) Hh1) as [(os & s' & Hr & Hl & Hst)|(os & N2 & lx2 & HN2)].
    - left. exists (o :: os), s'. split; [econstructor; eassumption|]. split; [cbn; lia|exact Hst].
    - right. exists (o :: os), (Nat.max N1 N2), lx2. intros ho fuel Hf. rewrite HN1 by lia. cbn [bind]. rewrite HN2 by lia. reflexivity.
  Qed.
End Calls.

Section Ask.
  Context {env : Env} {K : Type}.
  Variables (m : nfa) (es : list expr) (gs : list (generator (res K))) (L : expr -> list char -> Prop).
  Hypothesis Hm : machine m 2 es.
  Hypothesis Ht : targets_ok m.
  Hypothesis Hgs : length gs = length es.
  Hypothesis HL : agreed L es.
  Hypothesis Hfeed : forall x, matched L es x -> feedable es x.

  Lemma asks_or_not s u v : ahead s = u ++ v -> (exists r, asks L es gs s u r) \/ (forall r, ~ asks L es gs s u r).
  Proof.
    intros E. destruct u as [|c u]; [right; intros r (H & _); contradiction|].
    destruct (settles_first es L HL (letters (c :: u))) as [(i & Hi & Hf)|Hn].
    - left. destruct (nth_error gs i) as [g|] eqn:Eg; [|apply nth_error_None in Eg; lia].
      eexists. split; [discriminate|]. split; [exists v; exact E|]. exists i, g. split; [exact Hf|]. split; [exact Eg|reflexivity].
    - right. intros r (_ & _ & i & g & Hf & _). exact (Hn i Hf).
  Qed.

  Lemma first_wrong s : (exists u r, wrong L es gs s u r) \/ content L es gs s.
  Proof.
    assert (H : forall j, (exists u r, wrong L es gs s u r) \/ (forall u r, asks L es gs s u r -> length u < j -> returns r)).
    { induction j as [|j [H|H]]; [right; intros; lia|left; exact H|].
      assert (Hcut : forall u r, asks L es gs s u r -> u = firstn (length u) (ahead s)).
      { intros u r (_ & (v & ->) & _). rewrite firstn_app, Nat.sub_diag, firstn_all. cbn. rewrite app_nil_r. reflexivity. }
      destruct (asks_or_not s (firstn j (ahead s)) (skipn j (ahead s)) (eq_sym (firstn_skipn _ _))) as [(r & Hr)|Hn].
      - destruct r as [k| |].
        + right. intros u r' Hu Hl. destruct (Nat.eq_dec (length u) j) as [Ej|Ej]; [|apply (H u r' Hu); lia].
          assert (Eu : u = firstn j (ahead s)) by (rewrite <- Ej; apply (Hcut _ _ Hu)). rewrite Eu in Hu.
          rewrite (asks_unique es gs L _ _ _ _ Hu Hr). exists k. reflexivity.
        + left. eexists _, Panic. split; [exact Hr|]. split; [intros (k & E); discriminate|]. intros u1 u2 r' E Hne Ha. apply (H u1 r' Ha).
          apply (f_equal (@length _)) in E. rewrite firstn_length, app_length in E. assert (0 < length u2) by (destruct u2; [contradiction|cbn; lia]). lia.
        + left. eexists _, Diverge. split; [exact Hr|]. split; [intros (k & E); discriminate|]. intros u1 u2 r' E Hne Ha. apply (H u1 r' Ha).
          apply (f_equal (@length _)) in E. rewrite firstn_length, app_length in E. assert (0 < length u2) by (destruct u2; [contradiction|cbn; lia]). lia.
      - right. intros u r' Hu Hl. destruct (Nat.eq_dec (length u) j) as [Ej|Ej]; [|apply (H u r' Hu); lia].
        assert (Eu : u = firstn j (ahead s)) by (rewrite <- Ej; apply (Hcut _ _ Hu)). rewrite Eu in Hu. destruct (Hn _ Hu). }
    destruct (H (S (length (ahead s)))) as [Hw|Hc]; [left; exact Hw|]. right. intros u r Hu. apply (Hc u r Hu).
    destruct Hu as (_ & (v & E) & _). rewrite E, app_length. lia.
  Qed.

  Lemma calls_hang {ho : HashOrder} n : forall lx s, ours m es gs lx -> holds lx s ->
    (exists N, forall fuel, N <= fuel -> ask_calls fuel n lx = Diverge) ->
    exists os s', asked L es gs s os s' /\ length os < n /\ hangs L es gs s'.
  Proof.
    induction n as [|n IH]; intros lx s Ho Hh (N & HN).
    - specialize (HN N (le_n _)). discriminate.
    - destruct (first_wrong s) as [(u & r & Hw)|Hc].
      + destruct (settles_spun es u) as [Hs|Hs].
        * exists [], s. split; [constructor|]. split; [cbn; lia|]. right. split.
          -- pose proof Hw as ((_ & (v & ->) & _) & _). apply spun_app. exact Hs.
          -- intros (u' & r' & Hw' & Hn). destruct (wrong_unique es gs Hgs L _ _ _ _ _ Hw Hw') as [<- _]. contradiction.
        * destruct (ask_wrong m es gs Hm Ht Hgs L HL Hfeed lx s u r Ho Hh Hw Hs) as (N1 & HN1). specialize (HN (Nat.max N N1) (Nat.le_max_l _ _)).
          specialize (HN1 ho (Nat.max N N1) (Nat.le_max_r _ _)). cbn [ask_calls] in HN. rewrite HN1 in HN.
          exists [], s. split; [constructor|]. split; [cbn; lia|]. left. exists u. split; [|exact Hs].
          destruct r as [k| |]; [destruct (proj1 (proj2 Hw)); exists k; reflexivity|discriminate|exact Hw].
      + destruct (settles_spun es (ahead s)) as [Hs|Hs].
        * exists [], s. split; [constructor|]. split; [cbn; lia|]. right. split; [exact Hs|]. intros (u & r & (Ha & Hr & _) & _). exact (Hr (Hc u r Ha)).
        * destruct (ask_free m es gs Hm Ht Hgs L HL lx s Ho Hh Hs Hc) as (N2 & o2 & o2' & lx2 & s2 & Hcall2 & Hg2 & Ho2 & Hh2 & HN2).
          destruct (IH lx2 s2 Ho2 Hh2) as (os & s' & Ha & Hl & Hh').
          { exists (Nat.max N N2). intros fuel Hf. specialize (HN fuel ltac:(lia)). cbn [ask_calls] in HN. rewrite HN2 in HN by lia. cbn [bind] in HN.
            destruct (ask_calls fuel n lx2) as [[os' l]| |]; [discriminate|discriminate|reflexivity]. }
          exists (o2' :: os), s'. split; [econstructor; eassumption|]. split; [cbn; lia|exact Hh'].
  Qed.
End Ask.

Section Built.
  Context {env : Env} {K : Type}.

  Lemma lexing_never_ends (ts : list (list char * generator K)) input lx es L n (ho : HashOrder) :
    build_lexer ts input = Val (inl lx) -> parsed ts es -> agreed L es ->
    ((forall fuel, lex_calls fuel n lx = Diverge) <->
     exists os s, reaches L es (map snd ts) (starting input) os s /\ length os < n /\ stuck es s).
  Proof.
    intros Hb Hp Ha. split; [|intros (os & s & Hr & Hn & Hs) fuel; exact (lexer_stuck ts input lx es L os s ho fuel n Hb Hp Ha Hr Hs Hn)].
    intros Hd. destruct (build_state_es ts input lx es Hb Hp) as [_ Hm Ht Hl Ho Hi].
    assert (Hh : holds lx (starting input)) by (left; rewrite Hi; repeat split).
    destruct (calls_return_or_not _ _ _ L Hm Ht Hl Ha n lx _ Ho Hh) as [H|(os & N & lx' & HN)]; [exact H|].
    specialize (HN ho N (le_n _)). rewrite Hd in HN. discriminate.
  Qed.

  Lemma asking_never_ends (ts : list (list char * generator (res K))) input lx es L n (ho : HashOrder) :
    build_lexer ts input = Val (inl lx) -> parsed ts es -> agreed L es ->
    ((forall fuel, ask_calls fuel n lx = Diverge) <->
     exists os s, asked L es (map snd ts) (starting input) os s /\ length os < n /\ hangs L es (map snd ts) s).
  Proof.
    intros Hb Hp Ha. split; [|exact (proj1 (proj2 (proj2 (lexer_asked ts input lx es L n ho Hb Hp Ha))))].
    intros Hd. pose proof (fun x => matched_feedable L ts input lx es x Hb Hp Ha) as Hfeed.
    destruct (build_state_es ts input lx es Hb Hp) as [_ Hm Ht Hl Ho Hi].
    assert (Hh : holds lx (starting input)) by (left; rewrite Hi; repeat split).
    apply (calls_hang _ _ _ L Hm Ht Hl Ha Hfeed n lx _ Ho Hh). exists 0. auto.
  Qed.
End Built.
