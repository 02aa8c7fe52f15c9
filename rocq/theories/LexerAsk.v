(** The calls of a lexer whose generators may panic or not return. *)
From Verif Require Import Base RegexModel SpecRegex NfaModel SpecNfa NfaCompileProofs NfaLangProofs NfaSimProofs
  NfaMachineProofs NfaTermProofs LexerModel NfaProofs NfaWitness SpecLexer LexerProofs LexerCallsProofs LexerWitness
  SpecCalls LexerRef SpecSpin NfaSpin SpecStuck LexerSpin AskModel SpecAsk.

(** ** The answers of the generators, in the order in which they are asked *)
Section Split.
  Context {env : Env} {ho : HashOrder} {K : Type}.

  Fixpoint answers (fuel steps : nat) (lx : lexer (res K)) (i : iter) (runs : list run) : list (res K) :=
    match iter_next i with
    | (None, _) => []
    | (Some ch, i1) =>
        match steps with
        | 0 => []
        | S steps' =>
            match sim_can_feed (lx_nfa lx) runs ch with
            | Val true =>
                match sim_feed fuel (lx_nfa lx) runs ch with
                | Val (runs', true) =>
                    match hd_error (sim_final_states (lx_nfa lx) runs') with
                    | None => []
                    | Some f =>
                        match find_token f (lx_tokens lx) with
                        | None => []
                        | Some g => gen_run g (it_source (ii_token (accept_suffix i1))) :: answers fuel steps' lx (accept_suffix i1) runs'
                        end
                    end
                | Val (runs', false) => answers fuel steps' lx i1 runs'
                | _ => []
                end
            | _ => []
            end
        end
    end.

  Fixpoint first_bad (l : list (res K)) : option (res K) :=
    match l with [] => None | Val _ :: l' => first_bad l' | r :: _ => Some r end.
  Definition fail {A B} (r : res A) : res B := match r with Panic => Panic | _ => Diverge end.
  Definition strip {X} (r : res (option (ltoken (res K)) * X)) : res (option (ltoken K) * X) :=
    let! (o, x) := r in
    match o with
    | None => Val (None, x)
    | Some t => let! k := lt_kind t in Val (Some {| lt_kind := k; lt_source := lt_source t; lt_pos := lt_pos t |}, x)
    end.

  Lemma strip_emit lx i (kind : option K) : strip (Val (emit lx i (option_map Val kind))) = Val (ask_emit lx i kind).
  Proof. destruct kind as [k|]; reflexivity. Qed.

  Lemma loop_split fuel : forall steps lx i runs kind,
    ask_loop fuel steps lx i runs kind =
    match first_bad (answers fuel steps lx i runs) with
    | Some r => fail r
    | None => strip (lex_loop fuel steps lx i runs (option_map Val kind))
    end.
  Proof.
    induction steps as [|steps IH]; intros lx i runs kind; cbn [ask_loop answers lex_loop]; destruct (iter_next i) as [[ch|] i1].
    - reflexivity.
    - cbn [first_bad]. destruct (sim_accepting (lx_nfa lx) runs) as [[|]| |]; try reflexivity. symmetry. apply strip_emit.
    - destruct (sim_can_feed (lx_nfa lx) runs ch) as [[|]| |]; try reflexivity.
      + cbn [bind negb]. destruct (sim_feed fuel (lx_nfa lx) runs ch) as [[runs' [|]]| |]; try reflexivity; cbn [bind].
        * destruct (hd_error (sim_final_states (lx_nfa lx) runs')) as [f|]; [|reflexivity]. cbn [of_option bind].
          destruct (find_token f (lx_tokens lx)) as [g|]; [|reflexivity]. cbn [of_option bind first_bad].
          destruct (gen_run g (it_source (ii_token (accept_suffix i1)))) as [k| |]; [|reflexivity|reflexivity].
          cbn [bind]. rewrite IH. reflexivity.
        * apply IH.
      + cbn [bind negb first_bad]. symmetry. apply strip_emit.
    - cbn [first_bad]. destruct (sim_accepting (lx_nfa lx) runs) as [[|]| |]; try reflexivity. symmetry. apply strip_emit.
  Qed.

  Definition next_answers (fuel : nat) (lx : lexer (res K)) : list (res K) :=
    match sim_new fuel (lx_nfa lx) with
    | Val runs => answers fuel (iter_left (lx_iter lx)) lx (lx_iter lx) runs
    | _ => []
    end.
  Lemma next_split fuel lx : ask_next fuel lx =
    match first_bad (next_answers fuel lx) with
    | Some r => fail r
    | None => strip (lex_next fuel lx)
    end.
  Proof.
    unfold ask_next, next_answers, lex_next. destruct (sim_new fuel (lx_nfa lx)) as [runs| |]; [|reflexivity|reflexivity].
    cbn [bind]. apply (loop_split fuel _ lx _ runs None).
  Qed.
End Split.

(** ** Which answers those are *)
Section Ask.
  Context {env : Env} {K : Type}.
  Variables (m : nfa) (es : list expr) (gs : list (generator (res K))).
  Hypothesis Hm : machine m 2 es.
  Hypothesis Ht : targets_ok m.
  Hypothesis Hgs : length gs = length es.

  Notation mat := (matched impl_lang es).
  Notation live := (live m).
  Let Hwf : wf_nfa m := proj2 (machine_wf _ _ _ Hm).

  (** The answers between the positions [n] and [b]. *)
  Inductive heard (lx : lexer (res K)) : nat -> nat -> list (res K) -> Prop :=
  | heard_nil n : heard lx n n []
  | heard_yes n b i g l : first_match impl_lang es (txt lx (S n)) i -> nth_error gs i = Some g -> heard lx (S n) b l ->
      heard lx n b (gen_run g (it_source (tok_at lx (S n))) :: l)
  | heard_no n b l : ~ mat (txt lx (S n)) -> heard lx (S n) b l -> heard lx n b l.

  Lemma answers_spec {ho : HashOrder} fuel lx : ours m es gs lx -> forall steps n a runs,
    n + steps = length (items (lx_iter lx)) -> sim_text fuel m (txt lx n) = Val runs -> live (txt lx n) -> a <= n ->
    exists b, n <= b <= length (items (lx_iter lx)) /\ (exists rs, sim_text fuel m (txt lx b) = Val rs) /\ live (txt lx b) /\
      heard lx n b (answers fuel steps lx (advance n (lx_iter lx) (tok_at lx a) (suf_at lx a n)) runs) /\
      (b = length (items (lx_iter lx)) \/ ~ live (txt lx (S b)) \/
       (b < length (items (lx_iter lx)) /\ sim_text fuel m (txt lx (S b)) = Diverge /\
        forall kind, lex_loop fuel steps lx (advance n (lx_iter lx) (tok_at lx a) (suf_at lx a n)) runs kind = Diverge)).
  Proof.
    intros [Hnfa Htok]. set (its := items (lx_iter lx)).
    induction steps as [|steps IH]; intros n a runs Hn Hsim Hlive Han.
    all: destruct (sim_text_spec m fuel _ _ Hwf Hsim) as [Hr Hin].
    - pose proof (next_advance n (lx_iter lx) (tok_at lx a) (suf_at lx a n)) as Hnext. fold its in Hnext.
      destruct (nth_error its n) as [x|] eqn:Ex; [assert (n < length its) by (apply nth_error_Some; congruence); lia|].
      cbn [answers]. rewrite Hnext. exists n. split; [lia|]. split; [eauto|]. split; [assumption|]. split; [constructor|left; lia].
    - destruct (nth_error its n) as [x|] eqn:Ex; [|apply nth_error_None in Ex; lia].
      pose proof (next_advance n (lx_iter lx) (tok_at lx a) (suf_at lx a n)) as Hnext. fold its in Hnext. rewrite Ex in Hnext.
      rewrite (suf_S es gs Hgs lx a n x Han Ex) in Hnext.
      cbn [answers lex_loop]. rewrite Hnext, Hnfa.
      destruct (can_feed_step m runs (snd x) Hwf Ht Hr) as (can & -> & Hcan).
      assert (Hlive' : can = true <-> live (txt lx (S n))).
      { rewrite Hcan, (txt_S lx n x Ex). unfold LexerProofs.live. split.
        - intros (r & r' & Hr1 & Hc). exists r'. rewrite after_app. cbn [after]. exists r, r'.
          split; [apply Hin; assumption|]. split; [assumption|constructor].
        - intros (r & H). rewrite after_app in H. cbn [after] in H. destruct H as (r1 & r2 & H1 & H2 & _).
          exists r1, r2. split; [apply Hin; assumption|assumption]. }
      destruct can.
      2:{ exists n. split; [lia|]. split; [eauto|]. split; [assumption|]. split; [constructor|]. right. left.
          intros H. apply Hlive' in H. discriminate. }
      assert (HliveS : live (txt lx (S n))) by (apply Hlive'; reflexivity).
      unfold sim_feed. pose proof (feed_runs_no_panic m fuel runs (snd x) Hwf Hr) as Hnp.
      destruct (feed_runs fuel m runs (snd x)) as [runs'| |] eqn:Ef; cbn [bind]; [|congruence|].
      2:{ exists n. split; [lia|]. split; [eauto|]. split; [assumption|]. split; [constructor|]. right. right. split; [lia|]. split; [|reflexivity].
          rewrite (txt_S lx n x Ex). destruct (sim_text fuel m (txt lx n ++ [snd x])) as [l| |] eqn:Es; [exfalso| |reflexivity].
          - revert Es Hsim. unfold sim_text. destruct (sim_new fuel m) as [l0| |]; cbn [bind]; try discriminate. intros Es Hsim.
            clear -Es Hsim Ef. revert l0 Es Hsim. induction (txt lx n) as [|c w IHw]; intros l0; cbn [app feed_each].
            + intros Es [= ->]. unfold sim_feed in Es. rewrite Ef in Es. discriminate.
            + destruct (sim_feed fuel m l0 c) as [[l1 b]| |]; cbn [bind]; try discriminate. apply IHw.
          - exfalso. revert Es. unfold sim_text. destruct (sim_new fuel m) as [l0| |] eqn:E0; cbn [bind]; try discriminate.
            + apply feed_each_no_panic; [assumption|]. apply (sim_new_spec m fuel l0 Hwf E0).
            + intros _. exact (sim_new_no_panic m fuel Hwf E0). }
      pose proof (feed_runs_ok m fuel runs (snd x) runs' Hwf Hr Ef) as Hr'.
      assert (Hsim' : sim_text fuel m (txt lx (S n)) = Val runs').
      { rewrite (txt_S lx n x Ex). destruct (sim_accepting_spec m runs' Hr') as (b & Hb & _).
        eapply (sim_text_snoc m fuel (snd x) _ runs runs' b); [eassumption|]. unfold sim_feed. rewrite Ef. cbn [bind]. rewrite Hb. reflexivity. }
      destruct (sim_text_spec m fuel _ _ Hwf Hsim') as [_ Hin'].
      destruct (accepting_mat m es gs Hm Hgs (txt lx (S n)) runs' Hr' Hin') as (b & -> & Hb). cbn [bind]. destruct b.
      + rewrite (accept_at es gs Hgs lx a n x Han Ex).
        assert (Hmat : mat (txt lx (S n))) by (apply Hb; reflexivity).
        destruct (first_final m es gs Hm Hgs (txt lx (S n)) runs' Hin' Hmat) as (i & g & f & Hi & Hg & Hf & Hfind).
        rewrite Hf, Htok. cbn [bind negb of_option]. rewrite Hfind. cbn [bind of_option]. destruct (IH (S n) (S n) runs') as (b & Hb1 & Hb2 & Hb3 & Hb4 & Hb5); try assumption; try lia.
        exists b. split; [lia|]. split; [assumption|]. split; [assumption|]. split; [|destruct Hb5 as [?|[?|(? & ? & Hd)]]; [auto|auto|right; right; split; [assumption|]; split; [assumption|]; intros _; apply Hd]].
        exact (heard_yes lx n b i g _ Hi Hg Hb4).
      + destruct (IH (S n) a runs') as (b & Hb1 & Hb2 & Hb3 & Hb4 & Hb5); try assumption; try lia.
        exists b. split; [lia|]. split; [assumption|]. split; [assumption|]. split; [|assumption].
        apply heard_no; [|exact Hb4]. intros H. apply Hb in H. discriminate.
  Qed.

  Lemma next_heard {ho : HashOrder} fuel lx : ours m es gs lx -> sim_new fuel m <> Diverge ->
    exists b, b <= length (items (lx_iter lx)) /\ (exists rs, sim_text fuel m (txt lx b) = Val rs) /\
      heard lx 0 b (next_answers fuel lx) /\
      (b = length (items (lx_iter lx)) \/ ~ live (txt lx (S b)) \/
       (b < length (items (lx_iter lx)) /\ sim_text fuel m (txt lx (S b)) = Diverge /\ lex_next fuel lx = Diverge)).
  Proof.
    intros Ho Hd. pose proof (sim_new_no_panic m fuel Hwf) as Hnp. unfold next_answers, lex_next. rewrite (proj1 Ho).
    destruct (sim_new fuel m) as [runs| |] eqn:E; [|congruence|congruence].
    destruct (answers_spec fuel lx Ho (iter_left (lx_iter lx)) 0 0 runs) as (b & H1 & H2 & H3 & H4 & H5).
    - rewrite items_length. reflexivity.
    - unfold sim_text, txt. rewrite E. reflexivity.
    - apply live_nil.
    - lia.
    - unfold tok_at, suf_at in H4, H5. cbn [firstn] in H4, H5. rewrite app_nil_r, advance_zero in H4, H5.
      exists b. split; [lia|]. split; [assumption|]. split; [exact H4|].
      destruct H5 as [H5|[H5|(H5 & H6 & H7)]]; [auto|auto|]. right. right. split; [assumption|]. split; [assumption|]. exact (H7 None).
  Qed.

  (** ** Positions and texts *)
  Variable L : expr -> list char -> Prop.
  Hypothesis HL : agreed L es.
  Hypothesis Hfeed : forall x, matched L es x -> feedable es x.

  Notation asks := (asks L es gs).
  Notation wrong := (wrong L es gs).
  Notation content := (content L es gs).
  Notation spun := (spun es).

  Definition answer (lx : lexer (res K)) (j : nat) (r : res K) : Prop :=
    exists i g, first_match impl_lang es (txt lx j) i /\ nth_error gs i = Some g /\ r = gen_run g (it_source (tok_at lx j)).

  Lemma answer_unique lx j r r' : answer lx j r -> answer lx j r' -> r = r'.
  Proof.
    intros (i & g & Hi & Hg & ->) (i' & g' & Hi' & Hg' & ->). rewrite (LexerMunch.first_match_unique _ _ _ _ _ Hi Hi') in Hg. congruence.
  Qed.

  Lemma heard_le lx n b l : heard lx n b l -> n <= b.
  Proof. induction 1; lia. Qed.

  Lemma heard_bad lx n b l : heard lx n b l ->
    match first_bad l with
    | Some r => exists j, n < j <= b /\ answer lx j r /\ ~ returns r /\ forall j' r', n < j' < j -> answer lx j' r' -> returns r'
    | None => forall j r, n < j <= b -> answer lx j r -> returns r
    end.
  Proof.
    induction 1 as [n|n b i g l Hi Hg Hh IH|n b l Hno Hh IH].
    - cbn. intros. lia.
    - pose proof (heard_le _ _ _ _ Hh) as Hnb.
      assert (Ha : answer lx (S n) (gen_run g (it_source (tok_at lx (S n))))) by (exists i, g; auto).
      cbn [first_bad]. destruct (gen_run g (it_source (tok_at lx (S n)))) as [k| |].
      + destruct (first_bad l) as [r|].
        * destruct IH as (j & Hj & Hr & Hb & Hall). exists j. split; [lia|]. split; [assumption|]. split; [assumption|].
          intros j' r' Hj' Hr'. destruct (Nat.eq_dec j' (S n)) as [->|]; [|apply (Hall j'); [lia|assumption]].
          rewrite (answer_unique _ _ _ _ Hr' Ha). exists k. reflexivity.
        * intros j r Hj Hr. destruct (Nat.eq_dec j (S n)) as [->|]; [|apply (IH j); [lia|assumption]].
          rewrite (answer_unique _ _ _ _ Hr Ha). exists k. reflexivity.
      + exists (S n). split; [lia|]. split; [assumption|]. split; [intros (k & E); discriminate|]. intros. lia.
      + exists (S n). split; [lia|]. split; [assumption|]. split; [intros (k & E); discriminate|]. intros. lia.
    - destruct (first_bad l) as [r|].
      + destruct IH as (j & Hj & Hr & Hb & Hall). exists j. split; [lia|]. split; [assumption|]. split; [assumption|].
        intros j' r' Hj' Hr'. destruct (Nat.eq_dec j' (S n)) as [->|]; [|apply (Hall j'); [lia|assumption]].
        destruct Hr' as (i & g & Hi & _). destruct (Hno (LexerMunch.first_match_matched _ _ _ _ Hi)).
      + intros j r Hj Hr. destruct (Nat.eq_dec j (S n)) as [->|]; [|apply (IH j); [lia|assumption]].
        destruct Hr as (i & g & Hi & _). destruct (Hno (LexerMunch.first_match_matched _ _ _ _ Hi)).
  Qed.

  Lemma first_agreed x i : first_match L es x i <-> first_match impl_lang es x i.
  Proof.
    split; [|apply agreed_first; assumption]. intros ((e & He & Hx) & H). split.
    - exists e. split; [assumption|]. apply (agreed_iff L es e x HL); [eapply nth_error_In; eassumption|assumption].
    - intros j e' Hj He' Hx'. apply (H j e' Hj He'). apply (agreed_iff L es e' x HL); [eapply nth_error_In; eassumption|assumption].
  Qed.

  Lemma txt_firstn (lx : lexer (res K)) s j : holds lx s -> txt lx j = letters (firstn j (ahead s)).
  Proof. intros Hh. unfold txt. rewrite (holds_ahead lx s Hh). reflexivity. Qed.

  Lemma answer_asks lx s j r : holds lx s -> 0 < j <= length (ahead s) -> (answer lx j r <-> asks s (firstn j (ahead s)) r).
  Proof.
    intros Hh Hj. pose proof (holds_ahead lx s Hh) as Ea.
    assert (Hs : it_source (tok_at lx j) = letters (h_junk s ++ firstn j (ahead s))).
    { destruct Hh as [(H1 & H2 & H3 & H4 & H5)|[H1 H2]]; [|rewrite H2 in Hj; cbn in Hj; lia].
      destruct j as [|j]; [lia|]. cbn [tok_at it_source]. rewrite H1, H2. unfold letters. rewrite map_app. unfold txt. rewrite Ea. reflexivity. }
    unfold answer. rewrite Hs, (txt_firstn lx s j Hh). split.
    - intros (i & g & Hi & Hg & E). split.
      + intros E0. apply (f_equal (@length _)) in E0. rewrite firstn_length in E0. cbn in E0. lia.
      + split; [exists (skipn j (ahead s)); symmetry; apply firstn_skipn|]. exists i, g. rewrite first_agreed. auto.
    - intros (_ & _ & i & g & Hi & Hg & E). exists i, g. rewrite first_agreed in Hi. auto.
  Qed.

  Lemma asks_at s u r : asks s u r -> 0 < length u <= length (ahead s) /\ u = firstn (length u) (ahead s).
  Proof.
    intros (Hu & (v & E) & _). rewrite E, app_length, firstn_app, Nat.sub_diag, firstn_all. cbn [firstn]. rewrite app_nil_r. split; [|reflexivity].
    destruct u; [congruence|]. cbn. lia.
  Qed.

  Lemma spun_app u v : spun u -> spun (u ++ v).
  Proof. intros (e & He & H). exists e. split; [assumption|]. unfold letters. rewrite map_app. apply spinning_app. exact H. Qed.

  Lemma val_unspun {ho : HashOrder} fuel (lx : lexer (res K)) s j rs : holds lx s -> sim_text fuel m (txt lx j) = Val rs -> ~ spun (firstn j (ahead s)).
  Proof.
    intros Hh Hs (e & He & H). rewrite <- (txt_firstn lx s j Hh) in H. rewrite (spin_diverges m 2 es Hm ho fuel _ e He H) in Hs. discriminate.
  Qed.

  Lemma asks_live s u r : asks s u r -> live (letters u).
  Proof.
    intros (_ & _ & i & g & Hi & _). apply (feedable_live m es Hm). apply Hfeed. exact (LexerMunch.first_match_matched _ _ _ _ Hi).
  Qed.

  Lemma wrong_answer lx s j r : holds lx s -> 0 < j <= length (ahead s) -> answer lx j r -> ~ returns r ->
    (forall j' r', 0 < j' < j -> answer lx j' r' -> returns r') -> wrong s (firstn j (ahead s)) r.
  Proof.
    intros Hh Hj Ha Hr Hall. split; [apply (answer_asks lx); assumption|]. split; [assumption|]. intros u1 u2 r' E Hu Hr'.
    destruct (asks_at _ _ _ Hr') as [Hl Eu]. rewrite Eu in Hr'. apply (answer_asks lx) in Hr'; [|assumption|assumption].
    apply (Hall (length u1)); [|assumption]. apply (f_equal (@length _)) in E. rewrite firstn_length, app_length in E.
    destruct u2; [congruence|]. cbn in E. lia.
  Qed.

  Lemma asks_unique s u r r' : asks s u r -> asks s u r' -> r = r'.
  Proof.
    intros (_ & _ & i & g & Hi & Hg & ->) (_ & _ & i' & g' & Hi' & Hg' & ->).
    rewrite (LexerMunch.first_match_unique _ _ _ _ _ Hi Hi') in Hg. congruence.
  Qed.

  Lemma wrong_unique s u r u' r' : wrong s u r -> wrong s u' r' -> u = u' /\ r = r'.
  Proof.
    intros (Ha & Hr & Hall) (Ha' & Hr' & Hall').
    destruct (asks_at _ _ _ Ha) as [Hl E]. destruct (asks_at _ _ _ Ha') as [Hl' E'].
    assert (Hcut : forall n k, n < k <= length (ahead s) -> exists z, firstn k (ahead s) = firstn n (ahead s) ++ z /\ z <> []).
    { intros n k Hn. exists (skipn n (firstn k (ahead s))). split.
      - rewrite <- (firstn_skipn n (firstn k (ahead s))) at 1. rewrite firstn_firstn, Nat.min_l by lia. reflexivity.
      - intros E0. apply (f_equal (@length _)) in E0. rewrite skipn_length, firstn_length in E0. cbn in E0. lia. }
    assert (El : length u = length u').
    { destruct (Nat.lt_trichotomy (length u) (length u')) as [H|[H|H]]; [exfalso|assumption|exfalso].
      - destruct (Hcut _ _ (conj H (proj2 Hl'))) as (z & Ez & Hz). apply Hr. apply (Hall' u z); [|assumption|assumption]. congruence.
      - destruct (Hcut _ _ (conj H (proj2 Hl))) as (z & Ez & Hz). apply Hr'. apply (Hall u' z); [|assumption|assumption]. congruence. }
    assert (u = u') by congruence. split; [assumption|]. subst u'. eapply asks_unique; eassumption.
  Qed.

  (** ** One call *)
  Lemma strip_val {X} (x : res (option (ltoken (res K)) * X)) o' y : strip x = Val (o', y) -> exists o, x = Val (o, y) /\ given o o'.
  Proof.
    destruct x as [[[t|] z]| |]; cbn; try discriminate.
    - destruct t as [[k| |] src pos]; cbn; try discriminate. intros [= <- <-]. eexists. split; [reflexivity|]. cbn. auto.
    - intros [= <- <-]. exists None. split; [reflexivity|]. exact I.
  Qed.

  Lemma next_new {ho : HashOrder} fuel lx : ours m es gs lx -> sim_new fuel m = Diverge -> ask_next fuel lx = Diverge.
  Proof. intros [Ho _] E. unfold ask_next. rewrite Ho, E. reflexivity. Qed.

  Lemma ask_val {ho : HashOrder} fuel lx s o' lx' : ours m es gs lx -> holds lx s -> ask_next fuel lx = Val (o', lx') ->
    ~ spun (ahead s) /\ content s /\ exists o s1, call L es gs s o s1 /\ given o o' /\ ours m es gs lx' /\ holds lx' s1.
  Proof.
    intros Ho Hh H.
    assert (Hnew : sim_new fuel m <> Diverge) by (intros E; rewrite (next_new fuel lx Ho E) in H; discriminate).
    destruct (next_heard fuel lx Ho Hnew) as (b & Hb & (rs & Hrs) & Hhd & Hend).
    rewrite next_split in H. pose proof (heard_bad _ _ _ _ Hhd) as Hbad.
    destruct (first_bad (next_answers fuel lx)) as [r|]; [destruct r; discriminate|].
    apply strip_val in H. destruct H as (o & E & Hg).
    pose proof (next_val m es gs Hm Ht Hgs _ _ _ _ Ho E) as Hcr.
    destruct (refine m es gs L Hm Hgs HL _ _ _ _ Hh Hcr) as (s1 & Hc & Hh1).
    split; [|split].
    - intros Hst. rewrite (next_stuck m es gs Hm Ht Hgs ho fuel lx s Ho Hh Hst) in E. discriminate.
    - intros u r Hu. destruct (asks_at _ _ _ Hu) as [Hl Eu]. pose proof (holds_ahead lx s Hh) as Ea. rewrite Ea in *.
      assert (Hub : length u <= b).
      { destruct Hend as [->|[Hd|(_ & _ & Hd)]]; [lia| |congruence]. destruct (Nat.le_gt_cases (length u) b) as [|Hlt]; [assumption|exfalso].
        apply Hd. pose proof (asks_live _ _ _ Hu) as Hlive. rewrite Eu, <- (txt_firstn lx s _ Hh) in Hlive.
        destruct (txt_le es gs Hgs lx (S b) (length u) Hlt) as (y & Ey). rewrite Ey in Hlive. exact (live_app m _ _ Hlive). }
      rewrite Eu in Hu. apply (answer_asks lx) in Hu; [|assumption|assumption]. apply (Hbad (length u)); [lia|assumption].
    - exists o, s1. split; [assumption|]. split; [assumption|]. split; [exact (result_ours m es gs _ _ _ Hcr Ho)|assumption].
  Qed.

  Lemma ask_panic {ho : HashOrder} fuel lx s : ours m es gs lx -> holds lx s -> ask_next fuel lx = Panic ->
    exists u, wrong s u Panic /\ ~ spun u.
  Proof.
    intros Ho Hh H.
    assert (Hnew : sim_new fuel m <> Diverge) by (intros E; rewrite (next_new fuel lx Ho E) in H; discriminate).
    destruct (next_heard fuel lx Ho Hnew) as (b & Hb & (rs & Hrs) & Hhd & Hend).
    rewrite next_split in H. pose proof (heard_bad _ _ _ _ Hhd) as Hbad. pose proof (holds_ahead lx s Hh) as Ea.
    destruct (first_bad (next_answers fuel lx)) as [r|].
    - destruct Hbad as (j & Hj & Hr & Hnr & Hall). assert (r = Panic) as -> by (destruct r; [discriminate|reflexivity|discriminate]).
      rewrite Ea in Hb. exists (firstn j (ahead s)). split.
      + apply (wrong_answer lx); [assumption|lia|assumption|assumption|]. intros j' r' Hj' Hr'. apply (Hall j'); [lia|assumption].
      + destruct (txt_le es gs Hgs lx j b) as (y & Ey); [lia|]. rewrite Ey in Hrs. destruct (sim_text_prefix m fuel _ _ _ Hrs) as (rs' & Hrs').
        exact (val_unspun fuel lx s j rs' Hh Hrs').
    - exfalso. destruct (lex_next fuel lx) as [[o lx1]| |] eqn:E; [|exact (next_no_panic m es gs Hm Ht Hgs _ _ Ho E)|discriminate].
      pose proof (next_val m es gs Hm Ht Hgs _ _ _ _ Ho E) as Hcr. destruct o as [t|]; [|discriminate].
      destruct (result_some m es gs Hm Hgs _ _ _ Hcr) as (a & n & i & g & Ha & Hn & Hi & Hg & -> & _ & _ & Hend').
      assert (Hret : returns (gen_run g (it_source (tok_at lx a)))).
      { apply (Hbad a); [|exists i, g; auto]. split; [lia|]. destruct Hend as [->|[Hd|(_ & _ & Hd)]]; [lia| |congruence].
        destruct (Nat.le_gt_cases a b) as [|Hlt]; [assumption|exfalso]. apply Hd.
        pose proof (mat_live m es Hm _ (LexerMunch.first_match_matched _ _ _ _ Hi)) as Hlive.
        destruct (txt_le es gs Hgs lx (S b) a Hlt) as (y & Ey). rewrite Ey in Hlive. exact (live_app m _ _ Hlive). }
      destruct Hret as (k & Ek). cbn in H. rewrite Ek in H. discriminate.
  Qed.

  (** Enough fuel for the first part of what is read. *)
  Lemma part_total (lx : lexer (res K)) s u v : holds lx s -> ahead s = u ++ v -> ~ spun u ->
    exists N, forall (ho : HashOrder) fuel, N <= fuel -> exists rs, sim_text fuel m (txt lx (length u)) = Val rs.
  Proof.
    intros Hh Eu Hns. rewrite (txt_firstn lx s _ Hh), Eu, firstn_app, Nat.sub_diag, firstn_all. cbn [firstn]. rewrite app_nil_r.
    apply sim_text_total; [exact Hwf|]. intros x y Exy. destruct (spinless_finite m 2 es Hm x) as (U & HU & _).
    - intros e He Hs. apply Hns. exists e. split; [assumption|]. rewrite Exy. apply spinning_app. exact Hs.
    - exists U. intros r Hr. apply HU. exact Hr.
  Qed.

  Lemma ask_wrong lx s u r : ours m es gs lx -> holds lx s -> wrong s u r -> ~ spun u ->
    exists N, forall (ho : HashOrder) fuel, N <= fuel -> ask_next fuel lx = fail r.
  Proof.
    intros Ho Hh Hw Hns. pose proof Hw as (Ha & Hnr & Hall). pose proof Ha as (_ & (v & Ev) & _).
    destruct (part_total lx s u v Hh Ev Hns) as (N & HN). exists N. intros ho fuel Hf. destruct (HN ho fuel Hf) as (rs & Hrs).
    assert (Hnew : sim_new fuel m <> Diverge) by (intros E; unfold sim_text in Hrs; rewrite E in Hrs; discriminate).
    destruct (next_heard fuel lx Ho Hnew) as (b & Hb & _ & Hhd & Hend).
    pose proof (holds_ahead lx s Hh) as Ea. destruct (asks_at _ _ _ Ha) as [Hl Eu]. rewrite Ea in *.
    assert (Hub : length u <= b).
    { destruct (Nat.le_gt_cases (length u) b) as [|Hlt]; [assumption|exfalso]. destruct (txt_le es gs Hgs lx (S b) (length u) Hlt) as (y & Ey).
      destruct Hend as [->|[Hd|(_ & Hd & _)]]; [lia| |].
      - apply Hd. pose proof (asks_live _ _ _ Ha) as Hlive. rewrite Eu, <- (txt_firstn lx s _ Hh) in Hlive.
        rewrite Ey in Hlive. exact (live_app m _ _ Hlive).
      - rewrite Ey in Hrs. destruct (sim_text_prefix m fuel _ _ _ Hrs) as (rs' & Hrs'). congruence. }
    rewrite next_split. pose proof (heard_bad _ _ _ _ Hhd) as Hbad.
    rewrite Eu in Ha. destruct (first_bad (next_answers fuel lx)) as [r1|].
    - destruct Hbad as (j & Hj & Hr & Hnr1 & Hall1).
      assert (Hw1 : wrong s (firstn j (ahead s)) r1).
      { apply (wrong_answer lx); [assumption|lia|assumption|assumption|]. intros j' r' Hj' Hr'. apply (Hall1 j'); [lia|assumption]. }
      destruct (wrong_unique _ _ _ _ _ Hw Hw1) as [_ ->]. reflexivity.
    - exfalso. apply Hnr. apply (Hbad (length u)); [lia|]. exact (proj2 (answer_asks lx s (length u) r Hh Hl) Ha).
  Qed.

  Lemma ask_free lx s : ours m es gs lx -> holds lx s -> ~ spun (ahead s) -> content s ->
    exists N o o' lx' s1, call L es gs s o s1 /\ given o o' /\ ours m es gs lx' /\ holds lx' s1 /\
      forall (ho : HashOrder) fuel, N <= fuel -> ask_next fuel lx = Val (o', lx').
  Proof.
    intros Ho Hh Hns Hc. destruct (next_free m es gs Hm Ht Hgs lx s Ho Hh Hns) as (N & o & lx1 & Hcr & HN).
    destruct (refine m es gs L Hm Hgs HL _ _ _ _ Hh Hcr) as (s1 & Hc1 & Hh1).
    pose proof (holds_ahead lx s Hh) as Ea.
    assert (Hg : exists o', given o o' /\ forall X (x : X), strip (Val (o, x)) = Val (o', x)).
    { destruct o as [t|]; [|exists None; split; [exact I|reflexivity]].
      destruct (result_some m es gs Hm Hgs _ _ _ Hcr) as (a & n & i & g & Ha & Hn & Hi & Hg & -> & _).
      rewrite Ea in Hn. destruct (Hc (firstn a (ahead s)) (gen_run g (it_source (tok_at lx a)))) as (k & Ek).
      - apply (answer_asks lx); [assumption|lia|exists i, g; auto].
      - exists (Some {| lt_kind := k; lt_source := it_source (tok_at lx a); lt_pos := it_pos (tok_at lx a) |}). split.
        + cbn. auto.
        + intros X x. cbn. rewrite Ek. reflexivity. }
    destruct Hg as (o' & Hg & Hs). exists N, o, o', lx1, s1. split; [assumption|]. split; [assumption|].
    split; [exact (result_ours m es gs _ _ _ Hcr Ho)|]. split; [assumption|]. intros ho fuel Hf. pose proof (HN ho fuel Hf) as E.
    assert (Hnew : sim_new fuel m <> Diverge) by (intros E0; unfold lex_next in E; rewrite (proj1 Ho), E0 in E; discriminate).
    destruct (next_heard fuel lx Ho Hnew) as (b & Hb & _ & Hhd & Hend). rewrite next_split, E.
    pose proof (heard_bad _ _ _ _ Hhd) as Hbad. destruct (first_bad (next_answers fuel lx)) as [r1|]; [exfalso|apply Hs].
    destruct Hbad as (j & Hj & Hr & Hnr1 & _). apply Hnr1. rewrite Ea in Hb. apply (Hc (firstn j (ahead s))).
    apply (answer_asks lx); [assumption|lia|assumption].
  Qed.

  (** A generator does not return. *)
  Lemma ask_silent {ho : HashOrder} fuel lx s o lx1 : ours m es gs lx -> holds lx s -> lex_next fuel lx = Val (o, lx1) ->
    ask_next fuel lx = Diverge -> exists u, wrong s u Diverge.
  Proof.
    intros Ho Hh E H. pose proof (next_val m es gs Hm Ht Hgs _ _ _ _ Ho E) as Hcr. pose proof (holds_ahead lx s Hh) as Ea.
    assert (Hnew : sim_new fuel m <> Diverge) by (intros E0; unfold lex_next in E; rewrite (proj1 Ho), E0 in E; discriminate).
    destruct (next_heard fuel lx Ho Hnew) as (b & Hb & _ & Hhd & Hend). rewrite next_split, E in H.
    pose proof (heard_bad _ _ _ _ Hhd) as Hbad. rewrite Ea in Hb. destruct (first_bad (next_answers fuel lx)) as [r|].
    - destruct Hbad as (j & Hj & Hr & Hnr & Hall).
      assert (r = Diverge) as -> by (destruct r as [k| |]; [destruct Hnr; exists k; reflexivity|discriminate|reflexivity]).
      exists (firstn j (ahead s)). apply (wrong_answer lx); [assumption|lia|assumption|assumption|].
      intros j' r' Hj' Hr'. apply (Hall j'); [lia|assumption].
    - exfalso. destruct o as [t|]; [|discriminate].
      destruct (result_some m es gs Hm Hgs _ _ _ Hcr) as (a & n & i & g & Ha & Hn & Hi & Hg & -> & _ & _ & _).
      assert (Hret : returns (gen_run g (it_source (tok_at lx a)))).
      { apply (Hbad a); [|exists i, g; auto]. split; [lia|]. destruct Hend as [->|[Hd'|(_ & _ & Hd')]]; [lia| |congruence].
        destruct (Nat.le_gt_cases a b) as [|Hlt]; [assumption|exfalso]. apply Hd'.
        pose proof (mat_live m es Hm _ (LexerMunch.first_match_matched _ _ _ _ Hi)) as Hlive.
        destruct (txt_le es gs Hgs lx (S b) a Hlt) as (y & Ey). rewrite Ey in Hlive. exact (live_app m _ _ Hlive). }
      destruct Hret as (k & Ek). cbn in H. rewrite Ek in H. discriminate.
  Qed.

  (** ** All calls *)
  Notation asked := (asked L es gs).

  Lemma given_unique o o1 o2 : given (K := K) o o1 -> given o o2 -> o1 = o2.
  Proof.
    destruct o as [t|], o1 as [t1|], o2 as [t2|]; cbn; try tauto. intros (H1 & H2 & H3) (H1' & H2' & H3').
    destruct t1, t2; cbn in *. congruence.
  Qed.

  (** The calls follow the specification up to any point that is reached. *)
  Lemma asked_calls os s s' : asked s os s' -> forall lx, ours m es gs lx -> holds lx s ->
    exists N lx', ours m es gs lx' /\ holds lx' s' /\
      (forall (ho : HashOrder) fuel n, N <= fuel ->
        ask_calls fuel (length os + n) lx = let! (os', l) := ask_calls fuel n lx' in Val (os ++ os', l)) /\
      (forall (ho : HashOrder) fuel n,
        ask_calls fuel (length os + n) lx = Diverge \/
        ask_calls fuel (length os + n) lx = let! (os', l) := ask_calls fuel n lx' in Val (os ++ os', l)).
  Proof.
    induction 1 as [s|s o o' s1 os s2 Hns Hc Hcall Hg H IH]; intros lx Ho Hh.
    - exists 0, lx. split; [assumption|]. split; [assumption|]. split; [intros ho fuel n _|intros ho fuel n; right]; cbn [length Nat.add app];
        (destruct (ask_calls fuel n lx) as [[os' l]| |]; reflexivity).
    - destruct (ask_free lx s Ho Hh Hns Hc) as (N1 & o1 & o1' & lx1 & s1' & Hcall1 & Hg1 & Ho1 & Hh1 & HN1).
      destruct (call_unique L es gs Hfeed _ _ _ _ _ Hcall Hcall1) as [<- <-]. rewrite (given_unique _ _ _ Hg1 Hg) in *.
      destruct (IH lx1 Ho1 Hh1) as (N2 & lx' & Ho' & Hh' & HN2 & HD2).
      exists (Nat.max N1 N2), lx'. split; [assumption|]. split; [assumption|]. split.
      + intros ho fuel n Hf. cbn [length Nat.add ask_calls]. rewrite HN1 by lia. cbn [bind]. rewrite HN2 by lia.
        destruct (ask_calls fuel n lx') as [[os' l]| |]; reflexivity.
      + intros ho fuel n. cbn [length Nat.add ask_calls]. destruct (ask_next fuel lx) as [[o2 lx2]| |] eqn:E.
        * cbn [bind]. assert (o2 = o' /\ lx2 = lx1) as [-> ->].
          { rewrite next_split in E. destruct (first_bad (next_answers fuel lx)) as [r|]; [destruct r; discriminate|].
            apply strip_val in E. destruct E as (o3 & E & Hg3). pose proof (next_val m es gs Hm Ht Hgs _ _ _ _ Ho E) as Hcr3.
            specialize (HN1 ho N1 (le_n _)). rewrite next_split in HN1. destruct (first_bad (next_answers N1 lx)) as [r|]; [destruct r; discriminate|].
            apply strip_val in HN1. destruct HN1 as (o4 & E4 & Hg4). pose proof (next_val m es gs Hm Ht Hgs _ _ _ _ Ho E4) as Hcr4.
            destruct (result_unique m es gs Hm Hgs _ _ _ _ _ Hcr3 Hcr4) as [-> ->]. split; [|reflexivity]. exact (given_unique _ _ _ Hg3 Hg4). }
          destruct (HD2 ho fuel n) as [->|E2]; [left; reflexivity|]. right. rewrite E2.
          destruct (ask_calls fuel n lx') as [[os' l]| |]; reflexivity.
        * exfalso. destruct (ask_panic fuel lx s Ho Hh E) as (u & (Ha & Hnr & _) & _). exact (Hnr (Hc u _ Ha)).
        * left. reflexivity.
  Qed.

  Lemma calls_val {ho : HashOrder} fuel n : forall lx s os lx', ours m es gs lx -> holds lx s -> ask_calls fuel n lx = Val (os, lx') ->
    length os = n /\ exists s', asked s os s'.
  Proof.
    induction n as [|n IH]; intros lx s os lx' Ho Hh H; cbn [ask_calls] in H.
    - injection H as <- <-. split; [reflexivity|]. exists s. constructor.
    - destruct (ask_next fuel lx) as [[o lx1]| |] eqn:E; cbn [bind] in H; try discriminate.
      destruct (ask_val fuel lx s o lx1 Ho Hh E) as (Hns & Hc & o1 & s1 & Hcall & Hg & Ho1 & Hh1).
      destruct (ask_calls fuel n lx1) as [[os' lx2]| |] eqn:E'; cbn [bind] in H; try discriminate. injection H as <- <-.
      destruct (IH lx1 s1 os' lx2 Ho1 Hh1 E') as (Hl & s' & Ha). split; [cbn; lia|]. exists s'. econstructor; eassumption.
  Qed.

  Lemma calls_panic {ho : HashOrder} fuel n : forall lx s, ours m es gs lx -> holds lx s -> ask_calls fuel n lx = Panic ->
    exists os s' u, asked s os s' /\ length os < n /\ wrong s' u Panic /\ ~ spun u.
  Proof.
    induction n as [|n IH]; intros lx s Ho Hh H; cbn [ask_calls] in H; [discriminate|].
    destruct (ask_next fuel lx) as [[o lx1]| |] eqn:E; cbn [bind] in H; try discriminate.
    - destruct (ask_val fuel lx s o lx1 Ho Hh E) as (Hns & Hc & o1 & s1 & Hcall & Hg & Ho1 & Hh1).
      destruct (ask_calls fuel n lx1) as [[os' lx2]| |] eqn:E'; cbn [bind] in H; try discriminate.
      destruct (IH lx1 s1 Ho1 Hh1 E') as (os & s' & u & Ha & Hl & Hw). exists (o :: os), s', u. split; [econstructor; eassumption|].
      split; [cbn; lia|assumption].
    - destruct (ask_panic fuel lx s Ho Hh E) as (u & Hw & Hns). exists [], s, u. split; [constructor|]. split; [cbn; lia|auto].
  Qed.

  Lemma calls_wrong n os s s' u r lx : ours m es gs lx -> holds lx s -> asked s os s' -> length os < n -> wrong s' u r -> ~ spun u ->
    exists N, forall (ho : HashOrder) fuel, N <= fuel -> ask_calls fuel n lx = fail r.
  Proof.
    intros Ho Hh Ha Hl Hw Hns. destruct (asked_calls os s s' Ha lx Ho Hh) as (N1 & lx' & Ho' & Hh' & HN1 & _).
    destruct (ask_wrong lx' s' u r Ho' Hh' Hw Hns) as (N2 & HN2). exists (Nat.max N1 N2). intros ho fuel Hf.
    specialize (HN1 ho fuel (S (n - length os - 1)) ltac:(lia)). replace (length os + S (n - length os - 1)) with n in HN1 by lia.
    rewrite HN1. cbn [ask_calls]. rewrite HN2 by lia. destruct r as [k| |]; reflexivity.
  Qed.

  Lemma calls_silent_if {ho : HashOrder} n os s s' lx : ours m es gs lx -> holds lx s -> asked s os s' -> length os < n ->
    hangs L es gs s' -> forall fuel, ask_calls fuel n lx = Diverge.
  Proof.
    intros Ho Hh Ha Hl Hw fuel. destruct (asked_calls os s s' Ha lx Ho Hh) as (N1 & lx' & Ho' & Hh' & _ & HD).
    specialize (HD ho fuel (S (n - length os - 1))). replace (length os + S (n - length os - 1)) with n in HD by lia.
    destruct HD as [->| ->]; [reflexivity|]. cbn [ask_calls].
    destruct (ask_next fuel lx') as [[o lx1]| |] eqn:E; cbn [bind]; [exfalso|exfalso|reflexivity].
    - destruct (ask_val fuel lx' s' o lx1 Ho' Hh' E) as (Hns & Hc & _). destruct Hw as [(u & (Hu & Hnr & _) & _)|[Hs _]]; [|contradiction].
      exact (Hnr (Hc u _ Hu)).
    - destruct (ask_panic fuel lx' s' Ho' Hh' E) as (u & Hu & Hns). destruct Hw as [(u' & Hu' & _)|[_ Hall]]; [|destruct Hall; eauto].
      destruct (wrong_unique _ _ _ _ _ Hu Hu') as [_ E']. discriminate.
  Qed.

  Lemma calls_silent {ho : HashOrder} n : forall lx s, ours m es gs lx -> holds lx s ->
    (exists N, forall fuel, N <= fuel -> ask_calls fuel n lx = Diverge) ->
    (forall os s', asked s os s' -> length os < n -> ~ hangs L es gs s') -> False.
  Proof.
    induction n as [|n IH]; intros lx s Ho Hh (N & HN) Hno.
    - specialize (HN N (le_n _)). discriminate.
    - pose proof (Hno [] s (asked_nil _ _ _ _) (Nat.lt_0_succ _)) as Hs.
      assert (Hns : ~ spun (ahead s)).
      { intros Hsp. apply Hs. right. split; [assumption|]. intros (u & r & Hw & Hn).
        destruct (ask_wrong lx s u r Ho Hh Hw Hn) as (N1 & HN1). specialize (HN (Nat.max N N1) (Nat.le_max_l _ _)).
        specialize (HN1 ho (Nat.max N N1) (Nat.le_max_r _ _)). cbn [ask_calls] in HN. rewrite HN1 in HN.
        destruct r as [k| |]; [apply (proj1 (proj2 Hw)); exists k; reflexivity|discriminate|]. apply Hs. left. eauto. }
      destruct (next_free m es gs Hm Ht Hgs lx s Ho Hh Hns) as (N1 & o & lx1 & Hcr & HN1).
      pose proof (HN1 ho (Nat.max N N1) (Nat.le_max_r _ _)) as E1. pose proof (HN (Nat.max N N1) (Nat.le_max_l _ _)) as Ed. cbn [ask_calls] in Ed.
      destruct (ask_next (Nat.max N N1) lx) as [[o' lx']| |] eqn:E; [|discriminate|destruct (ask_silent _ lx s o lx1 Ho Hh E1 E) as (u & Hu)].
      + destruct (ask_val _ lx s o' lx' Ho Hh E) as (_ & Hc & _).
        destruct (ask_free lx s Ho Hh Hns Hc) as (N2 & o2 & o2' & lx2 & s2 & Hcall2 & Hg2 & Ho2 & Hh2 & HN2).
        apply (IH lx2 s2 Ho2 Hh2).
        * exists (Nat.max N N2). intros fuel Hf. specialize (HN fuel ltac:(lia)). cbn [ask_calls] in HN. rewrite HN2 in HN by lia. cbn [bind] in HN.
          destruct (ask_calls fuel n lx2) as [[os' l]| |]; [discriminate|discriminate|reflexivity].
        * intros os s' Ha Hl. apply (Hno (o2' :: os) s'); [econstructor; eassumption|cbn; lia].
      + apply Hs. left. exists u. split; [assumption|]. intros Hsp. apply Hns. destruct Hu as ((_ & (v & ->) & _) & _). apply spun_app. assumption.
  Qed.
End Ask.

Section Built.
  Context {env : Env} {K : Type}.

  Lemma lexer_asked (ts : list (list char * generator (res K))) input lx es L n (ho : HashOrder) :
    build_lexer ts input = Val (inl lx) -> parsed ts es -> agreed L es ->
    (forall os, (exists fuel lx', ask_calls fuel n lx = Val (os, lx')) <->
      length os = n /\ exists s, asked L es (map snd ts) (starting input) os s) /\
    ((exists fuel, ask_calls fuel n lx = Panic) <->
      exists os s u, asked L es (map snd ts) (starting input) os s /\ length os < n /\ wrong L es (map snd ts) s u Panic /\ ~ spun es u) /\
    ((exists os s, asked L es (map snd ts) (starting input) os s /\ length os < n /\ hangs L es (map snd ts) s) ->
      forall fuel, ask_calls fuel n lx = Diverge) /\
    ((forall fuel, ask_calls fuel n lx = Diverge) ->
      ~ ~ exists os s, asked L es (map snd ts) (starting input) os s /\ length os < n /\ hangs L es (map snd ts) s).
  Proof.
    intros Hb Hp Ha. pose proof (fun x => matched_feedable L ts input lx es x Hb Hp Ha) as Hfeed.
    destruct (build_state_es ts input lx es Hb Hp) as [_ Hm Ht Hl Ho Hi].
    assert (Hh : holds lx (starting input)) by (left; rewrite Hi; repeat split).
    split; [|split; [|split]].
    - intros os. split.
      + intros (fuel & lx' & E). exact (calls_val _ _ _ Hm Ht Hl L Ha Hfeed fuel n lx _ os lx' Ho Hh E).
      + intros (<- & s & Hs). destruct (asked_calls _ _ _ Hm Ht Hl L Ha Hfeed os _ s Hs lx Ho Hh) as (N & lx' & _ & _ & HN & _).
        exists N, lx'. specialize (HN ho N 0 (le_n _)). rewrite Nat.add_0_r in HN. rewrite HN. cbn. rewrite app_nil_r. reflexivity.
    - split.
      + intros (fuel & E). exact (calls_panic _ _ _ Hm Ht Hl L Ha Hfeed fuel n lx _ Ho Hh E).
      + intros (os & s & u & Hs & Hn & Hw & Hns).
        destruct (calls_wrong _ _ _ Hm Ht Hl L Ha Hfeed n os _ s u Panic lx Ho Hh Hs Hn Hw Hns) as (N & HN). exists N. apply HN. constructor.
    - intros (os & s & Hs & Hn & Hw). exact (calls_silent_if _ _ _ Hm Ht Hl L Ha Hfeed n os _ s lx Ho Hh Hs Hn Hw).
    - intros Hd Hno. apply (calls_silent _ _ _ Hm Ht Hl L Ha Hfeed n lx _ Ho Hh); [exists 0; auto|]. intros os s Hs Hn Hw. apply Hno. eauto.
  Qed.
End Built.

(** ** Generators that always return *)
Section Harmless.
  Context {env : Env} {ho : HashOrder} {K : Type}.

  Definition harm_token (x : nat * generator K) : nat * generator (res K) := (fst x, harmless (snd x)).
  Definition harm_lexer (lx : lexer K) : lexer (res K) :=
    {| lx_iter := lx_iter lx; lx_nfa := lx_nfa lx; lx_tokens := map harm_token (lx_tokens lx) |}.
  Definition harm_gen (lg : lexgen K) : lexgen (res K) :=
    {| lg_compiler := lg_compiler lg; lg_tokens := map harm_token (lg_tokens lg) |}.

  Lemma harm_add (ts : list (list char * generator K)) : forall lg,
    add_tokens (harm_gen lg) (map (fun x => (fst x, harmless (snd x))) ts) =
    let! x := add_tokens lg ts in Val match x with inl lg' => inl (harm_gen lg') | inr errs => inr errs end.
  Proof.
    induction ts as [|[p g] ts IH]; intros lg; [reflexivity|]. cbn [map add_tokens fst snd]. unfold add_token. cbn [harm_gen lg_compiler lg_tokens].
    destruct (new_final (lg_compiler lg)) as [c1 f]. destruct (regex_parse p) as [[e|errs]| |]; try reflexivity. cbn [bind].
    destruct (add_expression c1 e) as [c2| |]; try reflexivity. cbn [bind].
    rewrite <- IH. unfold harm_gen. cbn [lg_compiler lg_tokens]. rewrite map_app. reflexivity.
  Qed.

  Lemma harm_build (ts : list (list char * generator K)) input lx : build_lexer ts input = Val (inl lx) ->
    build_lexer (map (fun x => (fst x, harmless (snd x))) ts) input = Val (inl (harm_lexer lx)).
  Proof.
    unfold build_lexer, lexgen_new. destruct compiler_new as [c| |]; cbn [bind]; try discriminate.
    pose proof (harm_add ts {| lg_compiler := c; lg_tokens := [] |}) as E. unfold harm_gen in E at 1. cbn [lg_compiler lg_tokens map] in E. rewrite E.
    destruct (add_tokens {| lg_compiler := c; lg_tokens := [] |} ts) as [[lg|errs]| |]; cbn [bind]; try discriminate.
    unfold tokenize. cbn [harm_gen lg_compiler lg_tokens]. destruct (compiler_compile (lg_compiler lg)) as [m| |]; cbn [bind]; try discriminate.
    intros [= <-]. reflexivity.
  Qed.

  Definition harm_pair (x : option (ltoken K) * lexer K) : option (ltoken K) * lexer (res K) := (fst x, harm_lexer (snd x)).

  Lemma harm_find f l : find_token f (map harm_token l) = option_map harmless (find_token f l).
  Proof. induction l as [|[j g] l IH]; [reflexivity|]. cbn. destruct (f =? j); [reflexivity|exact IH]. Qed.
  Lemma harm_run (g : generator K) src : gen_run (harmless g) src = Val (gen_run g src).
  Proof. destruct g; reflexivity. Qed.
  Lemma harm_emit lx i kind : ask_emit (harm_lexer lx) i kind = harm_pair (emit lx i kind).
  Proof. destruct kind; reflexivity. Qed.

  Lemma harm_loop fuel : forall steps lx i runs kind,
    ask_loop fuel steps (harm_lexer lx) i runs kind = let! x := lex_loop fuel steps lx i runs kind in Val (harm_pair x).
  Proof.
    induction steps as [|steps IH]; intros lx i runs kind; cbn [ask_loop lex_loop]; destruct (iter_next i) as [[ch|] i1].
    - reflexivity.
    - cbn [harm_lexer lx_nfa]. destruct (sim_accepting (lx_nfa lx) runs) as [[|]| |]; try reflexivity. cbn [bind]. now rewrite harm_emit.
    - cbn [harm_lexer lx_nfa]. destruct (sim_can_feed (lx_nfa lx) runs ch) as [[|]| |]; try reflexivity; cbn [bind negb].
      + destruct (sim_feed fuel (lx_nfa lx) runs ch) as [[runs' [|]]| |]; try reflexivity; cbn [bind].
        * destruct (hd_error (sim_final_states (lx_nfa lx) runs')) as [f|]; [|reflexivity]. cbn [of_option bind harm_lexer lx_tokens].
          rewrite harm_find. destruct (find_token f (lx_tokens lx)) as [g|]; [|reflexivity]. cbn [option_map of_option bind].
          rewrite harm_run. cbn [bind]. apply IH.
        * apply IH.
      + now rewrite harm_emit.
    - cbn [harm_lexer lx_nfa]. destruct (sim_accepting (lx_nfa lx) runs) as [[|]| |]; try reflexivity. cbn [bind]. now rewrite harm_emit.
  Qed.

  Lemma harm_calls fuel n : forall lx, results (ask_calls fuel n (harm_lexer lx)) = results (lex_calls fuel n lx).
  Proof.
    induction n as [|n IH]; intros lx; [reflexivity|]. cbn [ask_calls lex_calls]. unfold ask_next, lex_next. cbn [harm_lexer lx_nfa lx_iter].
    destruct (sim_new fuel (lx_nfa lx)) as [runs| |]; [|reflexivity|reflexivity]. cbn [bind]. fold (harm_lexer lx).
    rewrite harm_loop. destruct (lex_loop fuel (iter_left (lx_iter lx)) lx (lx_iter lx) runs None) as [[o lx1]| |]; [|reflexivity|reflexivity].
    cbn [bind harm_pair fst snd]. specialize (IH lx1).
    destruct (ask_calls fuel n (harm_lexer lx1)) as [[os l]| |], (lex_calls fuel n lx1) as [[os' l']| |]; cbn in *; congruence.
  Qed.

  Lemma lexer_harmless (ts : list (list char * generator K)) input lx : build_lexer ts input = Val (inl lx) ->
    exists lx', build_lexer (map (fun x => (fst x, harmless (snd x))) ts) input = Val (inl lx') /\
      forall fuel n, results (ask_calls fuel n lx') = results (lex_calls fuel n lx).
  Proof. intros H. exists (harm_lexer lx). split; [exact (harm_build ts input lx H)|]. intros fuel n. apply harm_calls. Qed.
End Harmless.
