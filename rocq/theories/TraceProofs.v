(** Proofs about what a build with debug assertions writes while lexing. *)
From Verif Require Import Base RegexModel SpecRegex NfaModel SpecNfa NfaCompileProofs NfaLangProofs NfaSimProofs
  NfaMachineProofs NfaTermProofs LexerModel NfaProofs NfaWitness SpecLexer LexerProofs LexerCallsProofs LexerWitness
  SpecCalls LexerRef DotModel DebugModel DebugRegexModel TraceModel SpecTrace.
From Verif Require LexerMunch CountProofs SpecDebug DebugProofs DebugTypes DebugLexer DebugRegex.

(** ** Writing changes nothing *)
Section Forget.
  Context {env : Env} {ho : HashOrder} {K : Type} (printable : char -> bool) (place place' : list char).

  Lemma loop_forget fuel : forall steps (lx : lexer K) i runs kind,
    (let! (r, w) := trace_loop printable place place' fuel steps lx i runs kind in Val r) = lex_loop fuel steps lx i runs kind.
  Proof.
    induction steps as [|steps IH]; intros lx i runs kind; cbn [trace_loop lex_loop]; destruct (iter_next i) as [[ch|] i1]; try reflexivity.
    1,3: destruct (sim_accepting (lx_nfa lx) runs) as [[|]| |]; reflexivity.
    destruct (sim_can_feed (lx_nfa lx) runs ch) as [[|]| |]; try reflexivity. cbn [bind negb].
    destruct (sim_feed fuel (lx_nfa lx) runs ch) as [[runs' [|]]| |]; try reflexivity; cbn [bind].
    - destruct (hd_error (sim_final_states (lx_nfa lx) runs')) as [f|]; [|reflexivity]. cbn [of_option bind].
      destruct (find_token f (lx_tokens lx)) as [g|]; [|reflexivity]. cbn [of_option bind]. rewrite <- IH.
      destruct (trace_loop printable place place' fuel steps lx (accept_suffix i1) runs' _) as [[r w]| |]; reflexivity.
    - rewrite <- IH. destruct (trace_loop printable place place' fuel steps lx i1 runs' kind) as [[r w]| |]; reflexivity.
  Qed.

  Lemma next_forget fuel (lx : lexer K) : (let! (r, w) := trace_next printable place place' fuel lx in Val r) = lex_next fuel lx.
  Proof. unfold trace_next, lex_next. destruct (sim_new fuel (lx_nfa lx)) as [runs| |]; try reflexivity. cbn [bind]. apply loop_forget. Qed.

  Lemma calls_forget fuel n : forall lx : lexer K,
    (let! (q, w) := trace_calls printable place place' fuel n lx in Val q) = lex_calls fuel n lx.
  Proof.
    induction n as [|n IH]; intros lx; [reflexivity|]. cbn [trace_calls lex_calls]. rewrite <- next_forget.
    destruct (trace_next printable place place' fuel lx) as [[[o l] w]| |]; try reflexivity. cbn [bind snd fst]. rewrite <- IH.
    destruct (trace_calls printable place place' fuel n l) as [[[os l'] w']| |]; reflexivity.
  Qed.

  Lemma trace_same fuel n (lx : lexer K) :
    lex_calls fuel n lx = match trace_calls printable place place' fuel n lx with
                          | Val (q, _) => Val q
                          | Panic => Panic
                          | Diverge => Diverge
                          end.
  Proof. rewrite <- calls_forget. destruct (trace_calls printable place place' fuel n lx) as [[q w]| |]; reflexivity. Qed.
End Forget.

(** ** What is written *)
Section Text.
  Context (printable : char -> bool) (place place' : list char).

  Definition shown_text (e : shown) : list char := feed_text printable place place' (sh_char e) (sh_runs e) (sh_accepts e).
  Definition text_of (l : list shown) : list char := concat (map shown_text l).

  Import SpecDebug DebugProofs DebugTypes DebugLexer DebugRegex.

  Lemma line_back at_place expression d d' r r' : tame d -> tame d' ->
    dbg_line at_place expression d ++ r = dbg_line at_place expression d' ++ r' -> d = d' /\ r = r'.
  Proof.
    intros H H' E. unfold dbg_line in E. rewrite <- !app_assoc in E. do 5 apply app_inv_head in E.
    rewrite !pretty_pr in E by (apply tame_mild; assumption).
    destruct (pr_back d (tame_mild d H) 0 d' ([10%N] ++ r) ([10%N] ++ r')) as [Ed Er]; try assumption;
      [apply tame_mild; assumption|cbn; auto|cbn; auto|].
    rewrite !tame_bare in Ed by assumption. injection Er as Er. auto.
  Qed.

  Lemma shown_back e e' r r' : shown_text e ++ r = shown_text e' ++ r' -> e = e' /\ r = r'.
  Proof.
    destruct e as [c rs a], e' as [c' rs' a']. unfold shown_text, feed_text. cbn [sh_char sh_runs sh_accepts]. rewrite <- !app_assoc.
    destruct (telling_chr printable) as [C1 C2], telling_bool as [B1 B2].
    destruct (telling_list dbg_run [] Square) as [R1 R2]; [discriminate|constructor|exact telling_run|].
    intros E. apply line_back in E; [|apply C1|apply C1]. destruct E as [Ec E]. apply C2 in Ec. subst c'.
    apply line_back in E; [|exact (R1 rs)|exact (R1 rs')]. destruct E as [Er E]. apply R2 in Er. subst rs'.
    apply line_back in E; [|apply B1|apply B1]. destruct E as [Ea E]. apply B2 in Ea. subst a'. auto.
  Qed.

  Lemma shown_some e r : shown_text e ++ r <> [].
  Proof. discriminate. Qed.

  Lemma text_tells l : forall l', text_of l = text_of l' -> l = l'.
  Proof.
    unfold text_of. induction l as [|e l IH]; intros [|e' l'] E; cbn [map concat] in E.
    - reflexivity.
    - symmetry in E. destruct (shown_some _ _ E).
    - destruct (shown_some _ _ E).
    - apply shown_back in E. destruct E as [-> E]. f_equal. apply IH. exact E.
  Qed.

  Lemma text_app l l' : text_of (l ++ l') = text_of l ++ text_of l'.
  Proof. unfold text_of. rewrite map_app, concat_app. reflexivity. Qed.
End Text.

(** ** The calls *)
Section Loop.
  Context {env : Env} {K : Type} (printable : char -> bool) (place place' : list char).
  Variables (m : nfa) (es : list expr) (gs : list (generator K)).
  Hypothesis Hm : machine m 2 es.
  Hypothesis Ht : targets_ok m.
  Hypothesis Hgs : length gs = length es.
  Let Hwf : wf_nfa m := proj2 (machine_wf _ _ _ Hm).
  Notation text := (text_of printable place place').

  (** What is shown from the text [x] on. *)
  Definition from (x : list char) (its : list (nat * char)) (l : list shown) : Prop :=
    exists v r, its = v ++ r /\ live m (x ++ letters v) /\
      (forall c r', r = c :: r' -> ~ live m (x ++ letters (v ++ [c]))) /\
      map sh_char l = letters v /\ (forall e, In e l -> sh_runs e <> []) /\
      forall l1 e l2, l = l1 ++ e :: l2 -> (sh_accepts e = true <-> matched impl_lang es (x ++ map sh_char (l1 ++ [e]))).

  Lemma from_cons x p ch its rs b l : rs <> [] -> (b = true <-> matched impl_lang es (x ++ [ch])) -> from (x ++ [ch]) its l ->
    from x ((p, ch) :: its) ({| sh_char := ch; sh_runs := rs; sh_accepts := b |} :: l).
  Proof.
    intros Hrs Hb (v & r & -> & H1 & H2 & H3 & H4 & H5). exists ((p, ch) :: v), r. split; [reflexivity|].
    rewrite <- app_assoc in H1. split; [exact H1|]. split.
    { intros c r' E. specialize (H2 c r' E). rewrite <- app_assoc in H2. exact H2. }
    split; [cbn; f_equal; exact H3|]. split.
    { intros e [<-|He]; [exact Hrs|apply H4; exact He]. }
    intros [|e1 l1] e l2 E; injection E as E1 E.
    - subst e. cbn. exact Hb.
    - subst e1. cbn [app map sh_char]. specialize (H5 l1 e l2 E). rewrite <- app_assoc in H5. exact H5.
  Qed.

  Lemma from_nil x its : live m x -> (forall p c r, its = (p, c) :: r -> ~ live m (x ++ [c])) -> from x its [].
  Proof.
    intros H1 H2. exists [], its. split; [reflexivity|]. split; [unfold letters; cbn; rewrite app_nil_r; exact H1|]. split.
    { intros [p c] r' E. cbn. exact (H2 p c r' E). }
    split; [reflexivity|]. split; [intros e []|]. intros [|? ?] e l2 E; discriminate.
  Qed.

  Lemma trace_from {ho : HashOrder} fuel : forall steps (lx : lexer K) i runs kind x r w, lx_nfa lx = m ->
    sim_text fuel m x = Val runs -> live m x -> trace_loop printable place place' fuel steps lx i runs kind = Val (r, w) ->
    exists l, w = text l /\ from x (items i) l.
  Proof.
    induction steps as [|steps IH]; intros lx i runs kind x r w Hn Hs Hl; cbn [trace_loop]; pose proof (CountProofs.next_items i) as Hi;
      destruct (iter_next i) as [[ch|] i1]; try discriminate; rewrite Hn.
    1,3: destruct (sim_accepting m runs) as [[|]| |]; try discriminate; intros [= <- <-]; rewrite Hi; exists [];
      (split; [reflexivity|]); (apply from_nil; [exact Hl|discriminate]).
    destruct Hi as (p & Ei). destruct (sim_text_spec m fuel _ _ Hwf Hs) as [Hr Hin].
    destruct (can_feed_step m runs ch Hwf Ht Hr) as (can & -> & Hcan). cbn [bind].
    assert (Hlive : can = true <-> live m (x ++ [ch])).
    { rewrite Hcan. unfold live. split.
      - intros (r0 & r' & Hr1 & Hc). exists r'. rewrite after_app. cbn [after]. exists r0, r'.
        split; [apply Hin; assumption|]. split; [assumption|constructor].
      - intros (r0 & H). rewrite after_app in H. cbn [after] in H. destruct H as (r1 & r2 & H1 & H2 & _).
        exists r1, r2. split; [apply Hin; assumption|assumption]. }
    destruct can; cbn [negb].
    2:{ intros [= <- <-]. rewrite Ei. exists []. split; [reflexivity|]. apply from_nil; [exact Hl|].
        intros p' c r' [= <- <- <-] X. apply Hlive in X. discriminate. }
    destruct (sim_feed fuel m runs ch) as [[runs' b]| |] eqn:Ef; try discriminate. cbn [bind].
    pose proof (sim_text_snoc m fuel ch _ runs runs' b Hs Ef) as Hs'. rewrite Ei.
    destruct (sim_text_spec m fuel _ _ Hwf Hs') as [Hr' Hin'].
    assert (Hlv : live m (x ++ [ch])) by (apply Hlive; reflexivity).
    assert (Hne : runs' <> []). { destruct Hlv as (r0 & H0). apply Hin' in H0. intros ->. destruct H0. }
    assert (Hb : b = true <-> matched impl_lang es (x ++ [ch])).
    { destruct (accepting_mat m es gs Hm Hgs (x ++ [ch]) runs' Hr' Hin') as (b' & Hb' & Hb2).
      unfold sim_feed in Ef. destruct (feed_runs fuel m runs ch) as [rs'| |]; try discriminate. cbn [bind] in Ef.
      destruct (sim_accepting m rs') as [b0| |] eqn:Ea; try discriminate. injection Ef as -> ->. rewrite Ea in Hb'. injection Hb' as ->. exact Hb2. }
    destruct b.
    - destruct (hd_error (sim_final_states m runs')) as [f|]; [|discriminate]. cbn [of_option bind].
      destruct (find_token f (lx_tokens lx)) as [g|]; [|discriminate]. cbn [of_option bind].
      destruct (trace_loop printable place place' fuel steps lx (accept_suffix i1) runs' _) as [[r' w']| |] eqn:E; try discriminate. intros [= <- <-].
      apply (IH _ _ _ _ _ _ _ Hn Hs' Hlv) in E. destruct E as (l & -> & Hfrom).
      exists ({| sh_char := ch; sh_runs := runs'; sh_accepts := true |} :: l). split; [reflexivity|]. apply from_cons; assumption.
    - destruct (trace_loop printable place place' fuel steps lx i1 runs' kind) as [[r' w']| |] eqn:E; try discriminate. intros [= <- <-].
      apply (IH _ _ _ _ _ _ _ Hn Hs' Hlv) in E. destruct E as (l & -> & Hfrom).
      exists ({| sh_char := ch; sh_runs := runs'; sh_accepts := false |} :: l). split; [reflexivity|]. apply from_cons; assumption.
  Qed.

  Lemma trace_shows {ho : HashOrder} L (HL : agreed L es) fuel lx s r w : ours m es gs lx -> holds lx s ->
    trace_next printable place place' fuel lx = Val (r, w) -> exists l, w = text l /\ shows L es s l.
  Proof.
    intros [Hn _] Hh. unfold trace_next. rewrite Hn. destruct (sim_new fuel m) as [runs| |] eqn:E; try discriminate. cbn [bind]. intros H.
    assert (Hs : sim_text fuel m [] = Val runs) by (unfold sim_text; rewrite E; reflexivity).
    destruct (trace_from fuel _ _ _ _ _ _ _ _ Hn Hs (live_nil m) H) as (l & -> & Hk). rewrite (holds_ahead _ _ Hh) in Hk.
    exists l. split; [reflexivity|]. destruct Hk as (v & q & Ea & H1 & H2 & H3 & H4 & H5). exists v, q. split; [exact Ea|].
    split; [apply (feedable_live m es Hm); exact H1|]. split.
    { intros c r' Eq X. apply (H2 c r' Eq). apply (feedable_live m es Hm). exact X. }
    split; [exact H3|]. split; [exact H4|]. intros l1 e l2 El. rewrite (agreed_matched L es _ HL). exact (H5 l1 e l2 El).
  Qed.

  Lemma trace_refine {ho : HashOrder} L (HL : agreed L es) fuel n : forall lx s os lx' w, ours m es gs lx -> holds lx s ->
    trace_calls printable place place' fuel n lx = Val (os, lx', w) -> exists l, w = text l /\ show_calls L es gs s os l.
  Proof.
    induction n as [|n IH]; intros lx s os lx' w Ho Hh; cbn [trace_calls]; [intros [= <- <- <-]; exists []; split; [reflexivity|constructor]|].
    destruct (trace_next printable place place' fuel lx) as [[[o l] k]| |] eqn:E; try discriminate. cbn [bind fst snd].
    destruct (trace_calls printable place place' fuel n l) as [[[os' l'] ks']| |] eqn:E'; try discriminate. cbn [bind fst snd]. intros [= <- <- <-].
    destruct (trace_shows L HL _ _ _ _ _ Ho Hh E) as (sh & -> & Hk).
    pose proof (next_forget printable place place' fuel lx) as Ef. rewrite E in Ef. cbn [bind] in Ef. symmetry in Ef.
    pose proof (next_val m es gs Hm Ht Hgs _ _ _ _ Ho Ef) as Hr. pose proof (result_ours m es gs _ _ _ Hr Ho) as Ho'.
    destruct o as [t|].
    - destruct (refine_some m es gs L Hm Hgs HL _ _ _ _ Hh Hr) as (s' & Hc & Hh'). destruct (IH _ _ _ _ _ Ho' Hh' E') as (l2 & -> & H2).
      exists (sh ++ l2). split; [symmetry; apply text_app|]. econstructor; eauto.
    - destruct (refine_none m es gs L Hm Hgs HL _ _ _ Hh Hr) as (s' & Hc & Hh'). destruct (IH _ _ _ _ _ Ho' Hh' E') as (l2 & -> & H2).
      exists (sh ++ l2). split; [symmetry; apply text_app|]. econstructor; eauto.
  Qed.
End Loop.

Section Built.
  Context {env : Env} {K : Type} (printable : char -> bool) (place place' : list char).

  Lemma built_shows (ts : list (list char * generator K)) input lx es (ho : HashOrder) fuel n os lx' w L :
    build_lexer ts input = Val (inl lx) -> parsed ts es -> agreed L es ->
    trace_calls printable place place' fuel n lx = Val (os, lx', w) ->
    exists l, w = text_of printable place place' l /\ show_calls L es (map snd ts) (starting input) os l.
  Proof.
    intros Hb Hp Ha H. destruct (build_state_es ts input lx es Hb Hp) as [_ Hm Ht Hl Ho Hi].
    apply (trace_refine printable place place' (lx_nfa lx) es (map snd ts) Hm Ht Hl L Ha fuel n lx _ os lx' w Ho); [|exact H].
    left. rewrite Hi. repeat split.
  Qed.
End Built.

(** ** What the text says about the token *)
Section Token.
  Context {env : Env} {K : Type}.
  Context (L : expr -> list char -> Prop) (es : list expr) (gens : list (generator K)).
  Hypothesis Hfeed : forall x, matched L es x -> feedable es x.

  (** The last character shown with the answer yes, and what is shown after it. *)
  Definition last_yes (l1 : list shown) (e : shown) (l2 : list shown) (l : list shown) : Prop :=
    l = l1 ++ e :: l2 /\ sh_accepts e = true /\ forall e', In e' l2 -> sh_accepts e' = false.

  Lemma yes_unique l1 e l2 l1' e' l2' l : last_yes l1 e l2 l -> last_yes l1' e' l2' l -> l1 = l1' /\ e = e' /\ l2 = l2'.
  Proof.
    intros (-> & He & Hl) (E & He' & Hl').
    assert (W : forall l1 l1' e e' l2 l2', l1 ++ e :: l2 = l1' ++ e' :: l2' -> sh_accepts e' = true ->
      (forall x, In x l2 -> sh_accepts x = false) -> length l1 < length l1' -> False).
    { clear. intros l1 l1' e e' l2 l2' E He' Hl H. change (e :: l2) with ([e] ++ l2) in E. rewrite app_assoc in E.
      destruct (app_split (l1 ++ [e]) l1' l2 (e' :: l2') E) as (z & -> & ->); [rewrite app_length; cbn; lia|].
      rewrite (Hl e') in He'; [discriminate|]. apply in_or_app. right. left. reflexivity. }
    destruct (Nat.lt_trichotomy (length l1) (length l1')) as [H|[H|H]].
    - destruct (W _ _ _ _ _ _ E He' Hl H).
    - destruct (app_split l1 l1' _ _ E) as (z & -> & Ez); [lia|]. rewrite app_length in H. destruct z; [|cbn in H; lia].
      rewrite app_nil_r. injection Ez as -> ->. auto.
    - destruct (W _ _ _ _ _ _ (eq_sym E) He Hl' H).
  Qed.

  Lemma map_split {A B} (f : A -> B) l : forall x y, map f l = x ++ y -> exists l1 l2, l = l1 ++ l2 /\ map f l1 = x /\ map f l2 = y.
  Proof.
    induction l as [|a l IH]; intros x y E.
    - symmetry in E. apply app_eq_nil in E. destruct E as [-> ->]. exists [], []. auto.
    - destruct x as [|b x]; [exists [], (a :: l); cbn in E; auto|]. cbn in E. injection E as <- E.
      destruct (IH x y E) as (l1 & l2 & -> & <- & <-). exists (a :: l1), l2. auto.
  Qed.

  Lemma answers_last u v l : u <> [] -> matched L es (letters u) -> last_match L es u v -> answers L es (u ++ v) l ->
    exists l1 e l2, last_yes l1 e l2 l /\ map sh_char (l1 ++ [e]) = letters u.
  Proof.
    intros Hu Hmat Hlast (Hc & _ & Ha). unfold letters in Hc. rewrite map_app in Hc.
    destruct (map_split sh_char l _ _ Hc) as (la & l2 & -> & E1 & E2).
    destruct la as [|e la _] using rev_ind.
    { destruct u; [congruence|discriminate]. }
    exists la, e, l2. split; [|exact E1]. split; [rewrite <- app_assoc; reflexivity|]. split.
    - apply (Ha la e l2); [rewrite <- app_assoc; reflexivity|]. rewrite E1. exact Hmat.
    - intros e' He'. apply in_split in He'. destruct He' as (a & b & ->).
      destruct (sh_accepts e') eqn:Ey; [|reflexivity]. exfalso.
      apply (Ha ((la ++ [e]) ++ a) e' b) in Ey; [|rewrite <- !app_assoc; reflexivity].
      rewrite map_app in E2. cbn in E2. symmetry in E2. change (sh_char e' :: map sh_char b) with ([sh_char e'] ++ map sh_char b) in E2. rewrite app_assoc in E2.
      destruct (map_split snd v _ _ E2) as (v1 & v2 & -> & F1 & F2).
      apply (Hlast v1 v2 eq_refl).
      + intros ->. destruct (map sh_char a); discriminate.
      + unfold letters. rewrite map_app, F1. rewrite !map_app in Ey. rewrite map_app in E1. rewrite E1 in Ey.
        rewrite <- app_assoc in Ey. exact Ey.
  Qed.

  Lemma call_shown s t s' l : call L es gens s (Some t) s' -> shows L es s l ->
    exists l1 e l2, last_yes l1 e l2 l /\ lt_source t = letters (h_junk s) ++ map sh_char (l1 ++ [e]).
  Proof.
    intros Hcall (v0 & r0 & E0 & Hf0 & Hn0 & Ha).
    remember (Some t) as o eqn:Eo. destruct Hcall as [u v c r i g E Hu Hf Hn Hi Hg Hl| |i g Hne Hi Hg|]; try discriminate; injection Eo as <-.
    - assert (v0 = u ++ v) as ->.
      { destruct r0 as [|c0 r0].
        - exfalso. rewrite app_nil_r in E0. rewrite E0 in E. rewrite app_assoc in E, Hn. exact (whole_stop es _ _ _ _ E Hf0 Hn).
        - rewrite app_assoc in Hn. refine (proj1 (stop_unique es _ _ _ _ _ _ _ Hf0 (Hn0 c0 r0 eq_refl) Hf Hn)).
          rewrite <- app_assoc, <- E, <- E0. reflexivity. }
      destruct (answers_last u v l Hu (LexerMunch.first_match_matched _ _ _ _ Hi) Hl Ha) as (l1 & e & l2 & Hy & Ec).
      exists l1, e, l2. split; [exact Hy|]. rewrite Ec. cbn. unfold letters. apply map_app.
    - pose proof (LexerMunch.first_match_matched _ _ _ _ Hi) as Hmat.
      assert (r0 = []) as ->.
      { destruct r0 as [|c0 r0]; [reflexivity|]. exfalso. exact (whole_stop es _ _ _ _ E0 (Hfeed _ Hmat) (Hn0 c0 r0 eq_refl)). }
      rewrite app_nil_r in E0. subst v0.
      destruct (answers_last (ahead s) [] l Hne Hmat) as (l1 & e & l2 & Hy & Ec).
      { intros v1 v2 Ev Hv1. symmetry in Ev. apply app_eq_nil in Ev. tauto. }
      { rewrite app_nil_r. exact Ha. }
      exists l1, e, l2. split; [exact Hy|]. rewrite Ec. cbn. unfold letters. apply map_app.
  Qed.
End Token.

Section First.
  Context {env : Env} {K : Type}.
  Context (L : expr -> list char -> Prop) (es : list expr) (gens : list (generator K)).

  Lemma places_end (w : list char) : forall a, w <> [] -> end_of (combine (seq a (length w)) w) = a + length w.
  Proof.
    unfold end_of. induction w as [|c w IH]; intros a H; [congruence|]. cbn [length seq combine].
    destruct w as [|c' w]; [cbn; lia|]. specialize (IH (S a) ltac:(discriminate)). cbn [length seq combine] in *.
    change (last ((a, c) :: (S a, c') :: combine (seq (S (S a)) (length w)) w) (0, 0%N)) with (last ((S a, c') :: combine (seq (S (S a)) (length w)) w) (0, 0%N)).
    rewrite IH. lia.
  Qed.

  Lemma places_prefix w u r : places w = u ++ r -> u = places (letters u).
  Proof.
    intros E. unfold places in *.
    assert (G : forall w a u r, combine (seq a (length w)) w = u ++ r -> u = combine (seq a (length (letters u))) (letters u)).
    { clear. intros w. induction w as [|c w IH]; intros a [|p u] r E; cbn in E; try reflexivity; try discriminate.
      injection E as <- E. cbn. f_equal. exact (IH _ _ _ E). }
    exact (G _ _ _ _ E).
  Qed.

  Lemma first_token input t s' : call L es gens (starting input) (Some t) s' ->
    lt_pos t = (0, length (lt_source t)) /\
    exists i g, first_match L es (lt_source t) i /\ nth_error gens i = Some g /\ lt_kind t = gen_run g (lt_source t).
  Proof.
    intros Hcall. remember (Some t) as o eqn:Eo.
    assert (P : forall u r, u <> [] -> ahead (starting input) = u ++ r -> end_of u = length (letters u)).
    { intros u r Hu E. rewrite (places_prefix input u r E) at 1. unfold places. rewrite places_end; [reflexivity|]. destruct u; [congruence|discriminate]. }
    destruct Hcall as [u v c r i g E Hu Hf Hn Hi Hg Hl| |i g Hne Hi Hg|]; try discriminate; injection Eo as <-; cbn [token_of lt_pos lt_source lt_kind h_from h_junk starting app].
    - split; [f_equal; exact (P u _ Hu E)|]. exists i, g. auto.
    - split; [f_equal; apply (P _ []); [exact Hne|symmetry; apply app_nil_r]|]. exists i, g. auto.
  Qed.
End First.

Section Leak.
  Context {env : Env} {K : Type} (printable : char -> bool) (place place' : list char).

  Lemma first_shows (ts : list (list char * generator K)) input lx es (ho : HashOrder) fuel o lx' w :
    build_lexer ts input = Val (inl lx) -> parsed ts es ->
    trace_next printable place place' fuel lx = Val (o, lx', w) ->
    exists s' l, call impl_lang es (map snd ts) (starting input) o s' /\ shows impl_lang es (starting input) l /\
      w = text_of printable place place' l.
  Proof.
    intros Hb Hp H. assert (H' : trace_calls printable place place' fuel 1 lx = Val ([o], lx', w)).
    { cbn [trace_calls]. rewrite H. cbn. rewrite app_nil_r. reflexivity. }
    destruct (built_shows printable place place' ts input lx es ho fuel 1 _ _ _ impl_lang Hb Hp (or_introl eq_refl) H') as (l & -> & Hl).
    inversion Hl as [|s o' s' l0 os ls Hc Hs Hrest]; subst. inversion Hrest; subst. rewrite app_nil_r. eauto.
  Qed.

  Lemma text_source (ts : list (list char * generator K)) input input' lx lx2 (ho ho' : HashOrder) fuel fuel' t t' lx' lx2' w :
    build_lexer ts input = Val (inl lx) -> build_lexer ts input' = Val (inl lx2) ->
    trace_next (ho := ho) printable place place' fuel lx = Val (Some t, lx', w) ->
    trace_next (ho := ho') printable place place' fuel' lx2 = Val (Some t', lx2', w) ->
    t = t'.
  Proof.
    intros Hb Hb' H H'. destruct (CountProofs.built_parsed _ _ _ Hb) as (es & Hp).
    destruct (first_shows ts input lx es ho fuel _ _ _ Hb Hp H) as (s1 & l & Hc & Hs & E).
    destruct (first_shows ts input' lx2 es ho' fuel' _ _ _ Hb' Hp H') as (s1' & l' & Hc' & Hs' & E').
    rewrite E in E'. apply text_tells in E'. subst l'.
    assert (Hfeed : forall x, matched impl_lang es x -> feedable es x).
    { intros x. exact (matched_feedable impl_lang ts input lx es x Hb Hp (or_introl eq_refl)). }
    destruct (call_shown _ _ _ Hfeed _ _ _ _ Hc Hs) as (l1 & e & l2 & Hy & E1).
    destruct (call_shown _ _ _ Hfeed _ _ _ _ Hc' Hs') as (l1' & e' & l2' & Hy' & E1').
    destruct (yes_unique _ _ _ _ _ _ _ Hy Hy') as (<- & <- & _).
    assert (Esrc : lt_source t = lt_source t') by (rewrite E1, E1'; reflexivity).
    destruct (first_token _ _ _ _ _ _ Hc) as (P1 & i & g & Hi & Hg & Hk).
    destruct (first_token _ _ _ _ _ _ Hc') as (P1' & i' & g' & Hi' & Hg' & Hk').
    rewrite <- Esrc in P1', Hi', Hk'. assert (i = i') as <- by exact (first_match_unique _ _ _ _ _ Hi Hi').
    assert (g = g') as <- by congruence. destruct t, t'. cbn in *. congruence.
  Qed.
End Leak.
