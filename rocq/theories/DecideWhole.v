(** When parsing a text never ends, exactly. *)
From Verif Require Import Base RegexModel SpecRegex NfaModel SpecNfa NfaCompileProofs NfaLangProofs NfaSimProofs NfaTermProofs NfaProofs NfaWitness NfaMachineProofs LexerModel SpecLexer LexerProofs LexerCallsProofs LexerWitness
  SpecCalls LexerRef SpecSpin SpecStuck LexerSpin GrammarModel CfsmModel SlrModel PangoModel SpecCfg SpecMachine SpecWhole
  GrammarProofs GrammarTotal CfsmProofs FollowProofs CfsmCorrect TableProofs SlrNew SlrTable SlrRun SlrFinal SlrMachine SlrSource SlrLinear
  PipeWhole DecideProofs DecideLexer.

Section Lexing.
  Context {env : Env} {K : Type}.
  Variables (m : nfa) (es : list expr) (gs : list (generator K)) (L : expr -> list char -> Prop).
  Hypothesis Hm : NfaMachineProofs.machine m 2 es.
  Hypothesis Ht : targets_ok m.
  Hypothesis Hgs : length gs = length es.
  Hypothesis HL : agreed L es.

  (** The tokens come to an end or to a point where a pattern spins. *)
  Lemma lexed_far n : forall s lx, length (ahead s) < n -> ours m es gs lx -> holds lx s ->
    exists ks s', lexed L es gs s ks s' /\ (stuck es s' \/ over L es gs s').
  Proof.
    induction n as [|n IH]; intros s lx Hn Ho Hh; [lia|].
    destruct (settles_stuck es s) as [Hs|Hs]; [exists [], s; split; [constructor|left; exact Hs]|].
    destruct (next_free m es gs Hm Ht Hgs lx s Ho Hh Hs) as (N1 & o & lx1 & Hr & HN1).
    destruct (refine m es gs L Hm Hgs HL _ _ _ _ Hh Hr) as (s1 & Hc & Hh1). destruct o as [t|].
    - destruct (IH s1 lx1) as (ks & s' & Hl & Hov).
      + pose proof (call_shorter es gs L Hgs _ _ _ Hc). lia.
      + exact (result_ours m es gs _ _ _ Hr Ho).
      + assumption.
      + exists (lt_kind t :: ks), s'. split; [econstructor; eassumption|assumption].
    - exists [], s. split; [constructor|]. right. split; [assumption|eauto].
  Qed.
End Lexing.

Section Final.
  Context {env : Env} {ho : HashOrder} {V K : Type} {dv : DecEq V} {dt : DecEq K}.
  Variable teq : K -> K -> bool.
  Hypothesis Hteq : lawful teq.

  Lemma whole_never_ends (g : grammar V K) fuel p tb (ts : list (list char * generator K)) input lx es L :
    built g -> slr_new teq fuel p g = Val tb -> build_lexer ts input = Val (inl lx) -> parsed ts es -> agreed L es ->
    ((forall fuel', parse_lexer teq fuel' tb lx = Diverge) <->
     starves L es (map snd ts) teq g (starting input) \/ roams L es (map snd ts) teq g (starting input)).
  Proof.
    intros Hb H Hlx Hp Ha. destruct (slr_new_parts teq Hteq g Hb _ _ _ H) as (c & fs & _ & Hc & Hf & Htb).
    pose proof (built_good g Hb) as Hgood. pose proof (fun x => matched_feedable L ts input lx es x Hlx Hp Ha) as Hfeed.
    destruct (build_state_es ts input lx es Hlx Hp) as [_ Hm Ht Hl Ho Hi].
    assert (Hh : holds lx (starting input)) by (left; rewrite Hi; repeat split).
    destruct (whole_ok teq Hteq g Hgood c Hc fs Hf tb Htb _ es (map snd ts) L Hm Ht Hl Ha Hfeed lx (starting input) Ho Hh ho)
      as (Hacc & Hfail & _ & _ & Hnever & _).
    split; [|exact Hnever]. intros Hd.
    destruct (lexed_far _ es (map snd ts) L Hm Ht Hl Ha (S (length (ahead (starting input)))) (starting input) lx (le_n _) Ho Hh) as (ks & s' & Hk & He).
    destruct (machine_ok teq Hteq g Hgood c Hc fs Hf tb Htb ks) as (M1 & M2 & M3 & _).
    assert (Hend : forall k m, mmoves teq g k (initial ks) m -> snd m = [] -> (over L es (map snd ts) s' -> False) -> starves L es (map snd ts) teq g (starting input)).
    { intros k m Hmv Hsn Hno. destruct He as [He|He]; [|destruct (Hno He)]. exists ks, s', k, m. auto. }
    set (B := (2 * length ks + 1) * (length (g_rules g) + 1) + 1).
    destruct (parse teq B tb ks) as [[n|]| |] eqn:E.
    - destruct (proj1 (M1 n)) as (k & m & Hmv & Hac); [eauto|]. left. apply (Hend k m Hmv); [destruct m; apply Hac|].
      intros Hov. destruct (proj2 (Hacc n)) as (f & Ef); [|rewrite Hd in Ef; discriminate]. exists m. split; [|exact Hac]. exists ks, s', k. auto.
    - destruct (proj1 M2) as (k & m & Hmv & Hst); [exists B; left; exact E|].
      destruct (snd m) as [|t r] eqn:Es.
      + left. apply (Hend k m Hmv Es). intros Hov. destruct (proj2 Hfail) as (f & Ef); [|rewrite Hd in Ef; destruct Ef; discriminate].
        exists m. split; [|exact Hst]. exists ks, s', k. auto.
      + exfalso. destruct (proj2 Hfail) as (f & Ef); [|rewrite Hd in Ef; destruct Ef; discriminate].
        exists m. split; [|exact Hst]. exists ks, s', k. split; [exact Hk|]. split; [exact Hmv|]. left. rewrite Es. discriminate.
    - destruct (proj1 M2) as (k & m & Hmv & Hst); [exists B; right; exact E|].
      destruct (snd m) as [|t r] eqn:Es.
      + left. apply (Hend k m Hmv Es). intros Hov. destruct (proj2 Hfail) as (f & Ef); [|rewrite Hd in Ef; destruct Ef; discriminate].
        exists m. split; [|exact Hst]. exists ks, s', k. auto.
      + exfalso. destruct (proj2 Hfail) as (f & Ef); [|rewrite Hd in Ef; destruct Ef; discriminate].
        exists m. split; [|exact Hst]. exists ks, s', k. split; [exact Hk|]. split; [exact Hmv|]. left. rewrite Es. discriminate.
    - right. exists ks, s'. split; [exact Hk|]. apply M3. intros f. destruct (Nat.le_gt_cases B f) as [Hle|Hgt].
      + rewrite (parse_linear teq Hteq g Hb fuel p tb ks f H Hle). exact E.
      + destruct (parse teq f tb ks) as [o| |] eqn:Ef; [| |reflexivity]; rewrite (parse_stable teq tb _ _ _ Ef ltac:(discriminate) B ltac:(lia)) in E; discriminate.
  Qed.
End Final.
