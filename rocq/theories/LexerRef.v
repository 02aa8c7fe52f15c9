(** The lexer makes the calls of the specification. *)
From Verif Require Import Base RegexModel SpecRegex NfaModel SpecNfa NfaCompileProofs NfaLangProofs NfaSimProofs
  NfaMachineProofs NfaTermProofs LexerModel NfaProofs NfaWitness SpecLexer LexerProofs LexerCallsProofs LexerWitness SpecCalls.
From Verif Require LexerMunch.

Lemma app_split {A} (x x' y y' : list A) : x ++ y = x' ++ y' -> length x <= length x' -> exists z, x' = x ++ z /\ y = z ++ y'.
Proof.
  revert x'. induction x as [|a x IH]; intros x' E H; [exists x'; auto|]. destruct x' as [|a' x']; [cbn in H; lia|].
  cbn in *. injection E as -> E. destruct (IH x' E ltac:(lia)) as (z & -> & ->). exists z. auto.
Qed.

Section Unique.
  Context {env : Env} {K : Type}.
  Context (L : expr -> list char -> Prop) (es : list expr) (gens : list (generator K)).

  (** The text that can be fed up to the first character that cannot is unique. *)
  Lemma stop_unique (x x' r r' : list (nat * char)) c c' : x ++ c :: r = x' ++ c' :: r' ->
    feedable es (letters x) -> ~ feedable es (letters (x ++ [c])) ->
    feedable es (letters x') -> ~ feedable es (letters (x' ++ [c'])) -> x = x' /\ c = c' /\ r = r'.
  Proof.
    intros E H1 H2 H1' H2'.
    assert (W : forall (x x' r r' : list (nat * char)) c c', x ++ c :: r = x' ++ c' :: r' -> ~ feedable es (letters (x ++ [c])) ->
      feedable es (letters x') -> length x < length x' -> False).
    { clear. intros x x' r r' c c' E Hn Hf Hl. change (c :: r) with ([c] ++ r) in E. rewrite app_assoc in E.
      destruct (app_split (x ++ [c]) x' r (c' :: r') E) as (z & -> & _); [rewrite app_length; cbn; lia|].
      apply Hn. unfold letters in *. rewrite map_app in Hf. exact (feedable_app _ _ _ Hf). }
    destruct (Nat.lt_trichotomy (length x) (length x')) as [Hl|[Hl|Hl]].
    - destruct (W _ _ _ _ _ _ E H2 H1' Hl).
    - destruct (app_split x x' _ _ E) as (z & -> & Ez); [lia|]. rewrite app_length in Hl. destruct z; [|cbn in Hl; lia].
      rewrite app_nil_r. cbn in Ez. injection Ez as -> ->. auto.
    - destruct (W _ _ _ _ _ _ (eq_sym E) H2' H1 Hl).
  Qed.

  Lemma whole_stop (x y r : list (nat * char)) c : y = x ++ c :: r -> feedable es (letters y) -> ~ feedable es (letters (x ++ [c])) -> False.
  Proof.
    intros -> H Hn. apply Hn. change (c :: r) with ([c] ++ r) in H. rewrite app_assoc in H. unfold letters in *. rewrite map_app in H.
    exact (feedable_app _ _ _ H).
  Qed.

  Lemma last_match_unique (u v u' v' : list (nat * char)) : u ++ v = u' ++ v' -> u <> [] -> u' <> [] ->
    matched L es (letters u) -> matched L es (letters u') -> last_match L es u v -> last_match L es u' v' -> u = u' /\ v = v'.
  Proof.
    assert (W : forall (u v u' v' : list (nat * char)), u ++ v = u' ++ v' -> matched L es (letters u') -> last_match L es u v ->
      length u < length u' -> False).
    { clear. intros u v u' v' E Hm Hl H. destruct (app_split u u' v v' E) as (z & -> & ->); [lia|].
      apply (Hl z v' eq_refl); [|assumption]. intros ->. rewrite app_nil_r in H. lia. }
    intros E Hu Hu' Hm Hm' Hl Hl'. destruct (Nat.lt_trichotomy (length u) (length u')) as [H|[H|H]].
    - destruct (W _ _ _ _ E Hm' Hl H).
    - destruct (app_split u u' v v' E) as (z & -> & ->); [lia|]. rewrite app_length in H. destruct z; [|cbn in H; lia].
      rewrite app_nil_r. auto.
    - destruct (W _ _ _ _ (eq_sym E) Hm Hl' H).
  Qed.

  Context (Hfeed : forall x, matched L es x -> feedable es x).

  Lemma call_unique s o1 s1 o2 s2 : call L es gens s o1 s1 -> call L es gens s o2 s2 -> o1 = o2 /\ s1 = s2.
  Proof.
    intros H1 H2.
    destruct H1 as [u v c r i g E Hu Hf Hn Hi Hg Hl|v c r E Hf Hn Hl|i g Hne Hi Hg|Hf Ho];
    destruct H2 as [u' v' c' r' i' g' E' Hu' Hf' Hn' Hi' Hg' Hl'|v' c' r' E' Hf' Hn' Hl'|i' g' Hne' Hi' Hg'|Hf' Ho'].
    - assert (Es : (u ++ v) ++ c :: r = (u' ++ v') ++ c' :: r') by (rewrite <- !app_assoc; congruence).
      rewrite app_assoc in Hn, Hn'. destruct (stop_unique _ _ _ _ _ _ Es Hf Hn Hf' Hn') as (Euv & -> & ->).
      pose proof (LexerMunch.first_match_matched _ _ _ _ Hi) as Hm. pose proof (LexerMunch.first_match_matched _ _ _ _ Hi') as Hm'.
      destruct (last_match_unique _ _ _ _ Euv Hu Hu' Hm Hm' Hl Hl') as [-> ->].
      rewrite (LexerMunch.first_match_unique _ _ _ _ _ Hi Hi') in Hg. rewrite Hg in Hg'. injection Hg' as ->. auto.
    - exfalso. assert (Es : (u ++ v) ++ c :: r = v' ++ c' :: r') by (rewrite <- !app_assoc; congruence).
      rewrite app_assoc in Hn. destruct (stop_unique _ _ _ _ _ _ Es Hf Hn Hf' Hn') as (Euv & -> & ->).
      apply (Hl' u v (eq_sym Euv) Hu). exact (LexerMunch.first_match_matched _ _ _ _ Hi).
    - exfalso. rewrite app_assoc in E, Hn. refine (whole_stop _ _ _ _ E _ Hn). apply Hfeed. exact (LexerMunch.first_match_matched _ _ _ _ Hi').
    - exfalso. rewrite app_assoc in E, Hn. exact (whole_stop _ _ _ _ E Hf' Hn).
    - exfalso. assert (Es : v ++ c :: r = (u' ++ v') ++ c' :: r') by (rewrite <- !app_assoc; congruence).
      rewrite app_assoc in Hn'. destruct (stop_unique _ _ _ _ _ _ Es Hf Hn Hf' Hn') as (Euv & -> & ->).
      apply (Hl u' v' Euv Hu'). exact (LexerMunch.first_match_matched _ _ _ _ Hi').
    - assert (Es : v ++ c :: r = v' ++ c' :: r') by congruence.
      destruct (stop_unique _ _ _ _ _ _ Es Hf Hn Hf' Hn') as (-> & -> & ->). auto.
    - exfalso. refine (whole_stop _ _ _ _ E _ Hn). apply Hfeed. exact (LexerMunch.first_match_matched _ _ _ _ Hi').
    - exfalso. exact (whole_stop _ _ _ _ E Hf' Hn).
    - exfalso. rewrite app_assoc in E', Hn'. refine (whole_stop _ _ _ _ E' _ Hn'). apply Hfeed. exact (LexerMunch.first_match_matched _ _ _ _ Hi).
    - exfalso. refine (whole_stop _ _ _ _ E' _ Hn'). apply Hfeed. exact (LexerMunch.first_match_matched _ _ _ _ Hi).
    - rewrite (LexerMunch.first_match_unique _ _ _ _ _ Hi Hi') in Hg. rewrite Hg in Hg'. injection Hg' as ->. auto.
    - exfalso. destruct Ho' as [Ho'|Ho']; [auto|]. apply Ho'. exact (LexerMunch.first_match_matched _ _ _ _ Hi).
    - exfalso. rewrite app_assoc in E', Hn'. exact (whole_stop _ _ _ _ E' Hf Hn').
    - exfalso. exact (whole_stop _ _ _ _ E' Hf Hn').
    - exfalso. destruct Ho as [Ho|Ho]; [auto|]. apply Ho. exact (LexerMunch.first_match_matched _ _ _ _ Hi').
    - auto.
  Qed.

  Lemma calls_unique os1 : forall s os2, calls L es gens s os1 -> calls L es gens s os2 -> length os1 = length os2 -> os1 = os2.
  Proof.
    induction os1 as [|o os1 IH]; intros s [|o2 os2] H1 H2 Hl; try discriminate; [reflexivity|].
    inversion H1 as [|? ? s1 ? Hc Hr]; subst. inversion H2 as [|? ? s2 ? Hc2 Hr2]; subst.
    destruct (call_unique _ _ _ _ _ Hc Hc2) as [-> ->]. f_equal. eapply IH; eauto.
  Qed.
End Unique.

Section Refine.
  Context {env : Env} {K : Type}.
  Variables (m : nfa) (es : list expr) (gs : list (generator K)) (L : expr -> list char -> Prop).
  Hypothesis Hm : machine m 2 es.
  Hypothesis Ht : targets_ok m.
  Hypothesis Hgs : length gs = length es.
  Hypothesis HL : agreed L es.

  Definition holds (lx : lexer K) (s : held) : Prop :=
    (it_source (ii_token (lx_iter lx)) = [] /\ ii_suffix (lx_iter lx) = h_junk s /\ ii_prev (lx_iter lx) = h_back s /\
     num (ii_count (lx_iter lx)) (ii_rest (lx_iter lx)) = h_rest s /\ fst (it_pos (ii_token (lx_iter lx))) = h_from s) \/
    (items (lx_iter lx) = [] /\ ahead s = []).

  Lemma holds_ahead lx s : holds lx s -> items (lx_iter lx) = ahead s.
  Proof. intros [(H1 & H2 & H3 & H4 & H5)|[H1 H2]]; [unfold items, ahead; congruence|congruence]. Qed.

  Lemma nth_last {A} (l : list A) n d : S n <= length l -> last (firstn (S n) l) d = nth n l d.
  Proof.
    intros H. destruct (nth_error l n) as [x|] eqn:E; [|apply nth_error_None in E; lia].
    rewrite (firstn_snoc n l x E), last_last. symmetry. apply nth_error_nth. exact E.
  Qed.

  Lemma feed_live x : live m x <-> feedable es x.
  Proof. symmetry. exact (feedable_live m es Hm x). Qed.

  Lemma take_snoc {A} (l : list A) b : b < length l -> exists c, firstn (S b) l = firstn b l ++ [c] /\ l = firstn b l ++ c :: skipn (S b) l.
  Proof.
    intros H. destruct (nth_error l b) as [c|] eqn:E; [|apply nth_error_None in E; lia]. exists c. split; [apply firstn_snoc; exact E|].
    rewrite <- (skipn_nth b l c E). symmetry. apply firstn_skipn.
  Qed.

  Lemma refine_some lx s t lx' : holds lx s -> call_result m es gs lx (Some t) lx' ->
    exists s', call L es gs s (Some t) s' /\ holds lx' s'.
  Proof.
    intros Hh H. pose proof (holds_ahead _ _ Hh) as Ei.
    destruct (result_some m es gs Hm Hgs _ _ _ H) as (a & n & i & g & Ha & Hn & Hi & Hg & -> & E & Hno & Hend).
    destruct Hh as [(H1 & H2 & H3 & H4 & H5)|[H1 H2]]; [|rewrite H1 in Hn; cbn in Hn; lia].
    rewrite Ei in *. destruct a as [|a]; [lia|]. set (its := ahead s) in *.
    assert (Etok : {| lt_kind := gen_run g (it_source (tok_at lx (S a))); lt_source := it_source (tok_at lx (S a)); lt_pos := it_pos (tok_at lx (S a)) |} =
      token_of s (firstn (S a) its) g).
    { unfold token_of, end_of, tok_at, txt. cbn [it_source it_pos]. rewrite Ei, H1, H2, H5. fold its. cbn [app].
      unfold letters. rewrite map_app. rewrite nth_last by lia. rewrite Nat.add_1_r. reflexivity. }
    rewrite Etok. unfold txt in Hi. rewrite Ei in Hi. fold its in Hi.
    assert (Hu : firstn (S a) its <> []).
    { intros E0. apply (f_equal (@length _)) in E0. rewrite firstn_length in E0. cbn [length] in E0. lia. }
    apply (agreed_first L es _ _ HL) in Hi.
    assert (Hp : fst (it_pos (ii_token (lx_iter lx'))) = end_of (firstn (S a) its)).
    { rewrite E. unfold end_of. cbn [consume_token snd advance ii_token it_pos tok_at fst]. rewrite Ei. fold its. rewrite nth_last by lia. lia. }
    destruct Hend as [[En1 En2]|(b & -> & Hab & Hf & Hd)].
    - assert (Ea : firstn (S a) its = its) by (rewrite firstn_all2; [reflexivity|lia]).
      rewrite Ea in *. eexists. split; [apply (call_last L es gs s i g); auto|].
      right. split; [|reflexivity]. rewrite E. unfold items. cbn [consume_token snd advance ii_prev ii_rest ii_count suf_at].
      subst n. rewrite Ei. fold its. rewrite En2, firstn_all.
      rewrite (skipn_all2 its) by lia. cbn [app]. unfold its, ahead. rewrite app_length, <- H3, <- H4, num_length, skipn_all2 by lia. reflexivity.
    - destruct (take_snoc its b) as (c & E1 & E2); [lia|].
      set (v := skipn (S a) (firstn b its)).
      assert (Euv : firstn b its = firstn (S a) its ++ v).
      { unfold v. rewrite <- (firstn_skipn (S a) (firstn b its)) at 1. f_equal. rewrite firstn_firstn. f_equal. lia. }
      assert (Evc : skipn (S a) (firstn (S b) its) = v ++ [c]).
      { rewrite E1, Euv, <- app_assoc, skipn_app. rewrite firstn_length. replace (S a - Nat.min (S a) (length its)) with 0 by lia.
        rewrite skipn_all2 by (rewrite firstn_length; lia). reflexivity. }
      eexists. split; [apply (call_token L es gs s (firstn (S a) its) v c (skipn (S b) its) i g); auto|].
      + change (ahead s) with its. rewrite E2 at 1. rewrite Euv, <- app_assoc. reflexivity.
      + rewrite <- Euv. unfold txt in Hf. rewrite Ei in Hf. apply feed_live. exact (simulated_live m es Hm _ Hf).
      + rewrite app_assoc, <- Euv, <- E1. intros X. apply Hd. apply feed_live in X. unfold txt. rewrite Ei. exact X.
      + intros v1 v2 Ev Hv1 Hmat. apply (agreed_matched L es _ HL) in Hmat.
        apply (Hno (S a + length v1)).
        * assert (length v1 <> 0) by (destruct v1; [congruence|cbn; lia]).
          assert (length v = b - S a) by (unfold v; rewrite skipn_length, firstn_length; lia).
          rewrite Ev, app_length in H6. lia.
        * unfold txt. rewrite Ei. fold its. replace (firstn (S a + length v1) its) with (firstn (S a) its ++ v1); [exact Hmat|].
          rewrite E2 at 2. rewrite Euv, Ev. rewrite <- !app_assoc.
          rewrite firstn_app, firstn_length. replace (Nat.min (S a) (length its)) with (S a) by lia.
          rewrite (firstn_all2 (firstn (S a) its)) by (rewrite firstn_length; lia). f_equal.
          replace (S a + length v1 - S a) with (length v1) by lia. rewrite firstn_app, Nat.sub_diag, firstn_all. cbn. rewrite app_nil_r. reflexivity.
      + left. cbn [h_junk h_back h_rest h_from]. split; [rewrite E; reflexivity|]. split; [rewrite E; reflexivity|].
        split; [|split; [|exact Hp]]; rewrite E; cbn [consume_token snd advance ii_prev ii_rest ii_count suf_at ii_suffix].
        * rewrite Ei. exact Evc.
        * assert (El : length (firstn (S a) its ++ v ++ [c]) = S b).
          { rewrite app_assoc, <- Euv, <- E1, firstn_length. lia. }
          unfold rest_after. rewrite El, <- H3, <- H4, num_skipn. reflexivity.
  Qed.

  Lemma left_advance n i tok suf : iter_left (advance n i tok suf) = iter_left i - n.
  Proof. unfold iter_left. cbn [advance ii_prev ii_rest]. rewrite !skipn_length. lia. Qed.

  Lemma refine_none lx s lx' : holds lx s -> call_result m es gs lx None lx' ->
    exists s', call L es gs s None s' /\ holds lx' s'.
  Proof.
    intros Hh H. pose proof (holds_ahead _ _ Hh) as Ei.
    destruct (result_none m es gs Hm Hgs _ _ H) as (n & a & Hn & Ha & E & Hc).
    assert (Hover : n = length (items (lx_iter lx)) -> items (lx_iter lx') = []).
    { intros ->. rewrite E. unfold items at 1. cbn [advance ii_prev ii_rest ii_count]. rewrite items_length. unfold iter_left.
      rewrite !skipn_all2 by lia. reflexivity. }
    rewrite Ei in *. destruct Hc as [(-> & Hn0 & Hd & Hno)|(En & Hf & Hma & Hno & Han)].
    - destruct n as [|b]; [lia|]. destruct Hh as [(H1 & H2 & H3 & H4 & H5)|[H1 H2]]; [|rewrite H2 in Hn; cbn in Hn; lia].
      set (its := ahead s) in *. destruct (take_snoc its b) as (c & E1 & E2); [lia|].
      assert (El : length (firstn b its ++ [c]) = S b) by (rewrite <- E1, firstn_length; lia).
      assert (Hfb : feedable es (letters (firstn b its))).
      { destruct H as (b' & a' & Hb' & Hs' & (Hab' & _) & Hr'). rewrite Ei in *. fold its in Hb', Hr'.
        assert (Hleft : iter_left (lx_iter lx) = length its) by (rewrite <- items_length, Ei; reflexivity).
        assert (b' = b) as ->.
        { assert (Hx : iter_left (lx_iter lx') = length its - S b).
          { rewrite E, left_advance. lia. }
          destruct Hr' as [(Hlt & _ & k & Hk & He)|[(Hlt & -> & k & Hk & He)|(Hlt & _ & _ & _ & ->)]].
          - unfold emit in He. destruct k; [discriminate|]. injection He as <-. cbn [lx_with_iter lx_iter] in Hx.
            rewrite left_advance in Hx.
            lia.
          - unfold emit in He. destruct k; [discriminate|]. injection He as <-. cbn [lx_with_iter lx_iter] in Hx.
            rewrite left_advance in Hx.
            exfalso. apply Hd. apply (simulated_live m es Hm) in Hs'. destruct (txt_le es gs Hgs lx (S b) b') as (y & Ey); [lia|].
            rewrite Ey in Hs'. exact (live_app m _ _ Hs').
          - exfalso. apply Hd. apply (simulated_live m es Hm) in Hs'. destruct (txt_le es gs Hgs lx (S b) b') as (y & Ey); [lia|].
            rewrite Ey in Hs'. exact (live_app m _ _ Hs'). }
        apply (simulated_live m es Hm) in Hs'. unfold txt in Hs'. rewrite Ei in Hs'. apply feed_live. exact Hs'. }
      eexists. split; [apply (call_vain L es gs s (firstn b its) c (skipn (S b) its)); auto|].
      + rewrite <- E1. intros X. apply Hd. apply feed_live in X. unfold txt. rewrite Ei. exact X.
      + intros v1 v2 Ev Hv1 Hmat. apply (agreed_matched L es _ HL) in Hmat. cbn [app] in Hmat.
        apply (Hno (length v1)).
        * assert (length v1 <> 0) by (destruct v1; [congruence|cbn; lia]).
          apply (f_equal (@length _)) in Ev. rewrite app_length, firstn_length in Ev. lia.
        * unfold txt. rewrite Ei. fold its. replace (firstn (length v1) its) with v1; [exact Hmat|].
          rewrite E2, Ev, <- app_assoc, firstn_app, Nat.sub_diag, firstn_all. cbn. rewrite app_nil_r. reflexivity.
      + left. cbn [h_junk h_back h_rest h_from]. rewrite E. cbn [advance ii_prev ii_rest ii_count suf_at tok_at ii_token ii_suffix].
        split; [exact H1|]. split; [rewrite H2, Ei; fold its; rewrite E1; reflexivity|].
        unfold back_after, rest_after. rewrite El, <- H3, <- H4. split; [reflexivity|]. split; [rewrite num_skipn; reflexivity|exact H5].
    - exists {| h_from := h_from s; h_junk := []; h_back := []; h_rest := [] |}. split.
      + assert (Et : txt lx n = letters (ahead s)) by (unfold txt; rewrite Ei, En, firstn_all; reflexivity).
        apply call_over.
        * rewrite <- Et. apply feed_live. exact (simulated_live m es Hm _ Hf).
        * destruct n as [|n]; [left; destruct (ahead s); [reflexivity|discriminate]|]. right. intros Hmat.
          apply (agreed_matched L es _ HL) in Hmat. rewrite <- Et in Hmat.
          destruct (Nat.eq_dec a (S n)) as [->|]; [|apply (Hno (S n)); [lia|exact Hmat]]. lia.
      + right. split; [auto|reflexivity].
  Qed.

  Lemma refine_calls {ho : HashOrder} fuel os : forall n lx lx' s, ours m es gs lx -> holds lx s -> lex_calls fuel n lx = Val (os, lx') ->
    calls L es gs s os.
  Proof.
    induction os as [|o os IH]; intros n lx lx' s Ho Hh H; [constructor|].
    destruct (calls_inv m es gs Hm Ht Hgs _ _ _ _ _ _ Ho H) as (n' & l & -> & Hr & Ho' & H').
    destruct o as [t|].
    - destruct (refine_some _ _ _ _ Hh Hr) as (s' & Hc & Hh'). econstructor; eauto.
    - destruct (refine_none _ _ _ Hh Hr) as (s' & Hc & Hh'). econstructor; eauto.
  Qed.
End Refine.

Section Built.
  Context {env : Env} {K : Type}.

  Lemma matched_feedable L (ts : list (list char * generator K)) input lx es x :
    build_lexer ts input = Val (inl lx) -> parsed ts es -> agreed L es -> matched L es x -> feedable es x.
  Proof.
    intros Hb Hp Ha H. destruct (build_state_es ts input lx es Hb Hp) as [_ Hm _ _ _ _].
    apply (feedable_live _ _ Hm). apply (mat_live _ _ Hm). apply (agreed_matched L es x Ha). exact H.
  Qed.

  Lemma lexer_calls (ts : list (list char * generator K)) input lx es (ho : HashOrder) fuel n os lx' L :
    build_lexer ts input = Val (inl lx) -> parsed ts es -> agreed L es -> lex_calls fuel n lx = Val (os, lx') ->
    length os = n /\ calls L es (map snd ts) (starting input) os.
  Proof.
    intros Hb Hp Ha H. split; [eapply LexerMunch.calls_length; exact H|].
    destruct (build_state_es ts input lx es Hb Hp) as [_ Hm Ht Hl Ho Hi].
    apply (refine_calls (lx_nfa lx) es (map snd ts) L Hm Ht Hl Ha fuel os n lx lx' _ Ho); [|exact H].
    left. rewrite Hi. repeat split.
  Qed.

  Lemma lexer_reference (ts : list (list char * generator K)) input lx es n L :
    build_lexer ts input = Val (inl lx) -> parsed ts es -> agreed L es -> (forall e, In e es -> loops_ok e = true) ->
    exists os N lx', length os = n /\ calls L es (map snd ts) (starting input) os /\
      forall (ho : HashOrder) fuel, N <= fuel -> lex_calls fuel n lx = Val (os, lx').
  Proof.
    intros Hb Hp Ha Hl. destruct (lexer_terminates ts input lx es n Hb Hp Hl) as (N & os & lx' & H).
    exists os, N, lx'. destruct (lexer_calls ts input lx es id_order N n os lx' L Hb Hp Ha (H id_order N (le_n N))). auto.
  Qed.
End Built.
