(** When parsing a pattern panics. *)
From Verif Require Import Base RegexModel SpecRegex SpecPattern SpecErrors SpecTokens SpecPanic RegexParseProofs RegexProofs RegexAcceptProofs
  RegexErrorProofs RegexTokens LexerModel NfaModel NfaCompileProofs NfaProofs NfaWitness.

Lemma stopped_viable ks e : stopped ks e -> viable ks.
Proof. intros (He & rest & ->). exists [], e. rewrite app_nil_r. apply read_stray. assumption. Qed.

Lemma toks_split (ts pre : list token) t r tail : map Tok ts ++ tail = map Tok pre ++ Tok t :: r -> (forall t' r', tail <> Tok t' :: r') ->
  exists r', ts = pre ++ t :: r' /\ r = map Tok r' ++ tail.
Proof.
  intros E Ht. revert ts E. induction pre as [|x pre IH]; intros [|y ts] E; cbn in E.
  - destruct (Ht _ _ E).
  - injection E as <- <-. exists ts. auto.
  - destruct tail as [|z tail]; [discriminate|]. injection E as E1 E2. subst z. destruct (Ht _ _ eq_refl).
  - injection E as <- E. destruct (IH ts E) as (r' & -> & ->). exists r'. auto.
Qed.

Lemma toks_inj (ts ts' : list token) : map Tok ts = map Tok ts' -> ts = ts'.
Proof. revert ts'. induction ts as [|t ts IH]; intros [|t' ts'] H; try discriminate; auto. cbn in H. injection H as <- H. f_equal. auto. Qed.

(** The parser on a list of tokens, with any fuel that is enough. *)
Lemma parse_expr toks : toks <> [] -> (forall r, toks <> TokPanic :: r) ->
  p_parse (parse_fuel toks) toks = p_expression (parse_fuel toks) {| ps_toks := toks; ps_cur := None |}.
Proof. intros H1 H2. unfold p_parse, p_peek. cbn [ps_toks]. destruct toks as [|[t|] r]; [congruence|reflexivity|destruct (H2 r); reflexivity]. Qed.

Lemma fails_more f f' s : fails (p_expression f s) -> f <= f' -> fails (p_expression f' s).
Proof.
  intros H Hf. rewrite (proj1 (parser_more f f' Hf) s); [assumption|]. intros E. rewrite E in H. destruct H.
Qed.

(** The parser stops at a stray parenthesis. *)
Lemma stopped_ok ts tail e : stopped (map tk_kind ts) e -> exists s, p_parse (parse_fuel (map Tok ts ++ tail)) (map Tok ts ++ tail) = POk e s.
Proof.
  intros (He & rest & E). assert (Hh : holds (map Tok ts ++ tail) (expr_tokens e ++ TOp ORParen :: rest) tail) by (exists ts; auto).
  apply holds_split in Hh. destruct Hh as (b & H1 & H2). apply holds_cons in H2. destruct H2 as (t & b' & -> & Ht & H2).
  set (toks := map Tok ts ++ tail) in *.
  pose proof (proj1 (parser_loose (parse_fuel toks)) e toks (Tok t :: b') None He H1) as G.
  destruct G as (cur & G); [right; cbn; congruence|discriminate|unfold parse_fuel; lia|].
  rewrite parse_expr; [eauto| |].
  - intros E0. apply holds_length in H1. rewrite E0 in H1. cbn in H1. lia.
  - intros r E0. destruct H1 as (ts1 & H1 & _). rewrite E0 in H1. destruct ts1; discriminate.
Qed.

(** What success and failure say about tokens that end in a panic. *)
Lemma panic_ok ts e s : p_parse (parse_fuel (map Tok ts ++ [TokPanic])) (map Tok ts ++ [TokPanic]) = POk e s -> stopped (map tk_kind ts) e.
Proof.
  intros H. destruct (parse_ok _ _ _ _ H) as ((ts1 & E1 & Ek) & Hend & _).
  assert (Hne : map Tok ts ++ [TokPanic] <> []) by (destruct ts; discriminate).
  assert (Hnp : forall r, map Tok ts ++ [TokPanic] <> TokPanic :: r).
  { intros r E. unfold p_parse, p_peek in H. cbn [ps_toks] in H. rewrite E in H. discriminate. }
  rewrite (parse_expr _ Hne Hnp) in H. split; [apply (proj1 (parser_shape _) _ _ _ H)|].
  destruct Hend as [Hn|Hend].
  - rewrite Hn, app_nil_r in E1. exfalso. assert (Hin : In TokPanic (map Tok ts1)) by (rewrite <- E1; apply in_or_app; right; left; reflexivity).
    apply in_map_iff in Hin. destruct Hin as (x & Hx & _). discriminate.
  - destruct (ps_toks s) as [|[t|] r] eqn:Es; try discriminate. cbn in Hend. injection Hend as Hend.
    destruct (toks_split ts ts1 t r [TokPanic] E1 ltac:(discriminate)) as (r' & -> & _).
    exists (map tk_kind r'). rewrite map_app, Ek. cbn [map]. rewrite Hend. reflexivity.
Qed.

Lemma panic_err ts errs : p_parse (parse_fuel (map Tok ts ++ [TokPanic])) (map Tok ts ++ [TokPanic]) = PErr errs ->
  exists e pre t r, ts = pre ++ t :: r /\ viable (map tk_kind pre) /\ ~ viable (map tk_kind pre ++ [tk_kind t]) /\
    (pe_kind e = PMatch -> r <> []) /\ (pe_kind e <> PMatch -> viable (map tk_kind pre ++ [TClass CWord])).
Proof.
  intros H.
  assert (Hne : map Tok ts ++ [TokPanic] <> []) by (destruct ts; discriminate).
  assert (Hnp : forall r, map Tok ts ++ [TokPanic] <> TokPanic :: r).
  { intros r E. unfold p_parse, p_peek in H. cbn [ps_toks] in H. rewrite E in H. discriminate. }
  rewrite (parse_expr _ Hne Hnp) in H.
  destruct (proj1 (bad_parser _) _ errs I H) as (e & pre & suf & -> & E1 & P & [(more & M) Mi] & _ & D). cbn [ps_toks ps_cur] in *.
  assert (Hv : viable (map tk_kind pre)) by (destruct M as (e' & He & Ho & M); exists more, e'; rewrite M; constructor; auto).
  destruct suf as [|[t|] r].
  - exfalso. rewrite app_nil_r in E1. assert (Hin : In TokPanic (map Tok pre)) by (rewrite <- E1; apply in_or_app; right; left; reflexivity).
    apply in_map_iff in Hin. destruct Hin as (x & Hx & _). discriminate.
  - destruct (toks_split ts pre t r [TokPanic] E1 ltac:(discriminate)) as (r' & -> & ->).
    exists e, pre, t, r'. split; [reflexivity|]. split; [exact Hv|]. split.
    { eapply not_viable. intros s' q E3. apply (D s' _ E3). left. reflexivity. }
    unfold place in P. split.
    + intros Hk ->. rewrite Hk in P. destruct P as [[P _]|[(t1 & P & _)|(t1 & t2 & r2 & P & _)]]; discriminate.
    + intros Hk. assert (Hi : item_kind (pe_kind e)).
      { unfold item_kind. destruct (pe_kind e); auto; try contradiction; destruct P; discriminate. }
      destruct (Mi Hi) as (more2 & e' & He & Ho & M2). exists more2, e'. rewrite <- app_assoc. cbn [app]. rewrite M2. constructor; auto.
  - exfalso. unfold place in P. destruct (pe_kind e); try contradiction; try (destruct P; discriminate); try (destruct P as (? & ? & P & _); discriminate).
    destruct P as [(P & _)|[(? & P & _)|(? & ? & ? & P & _)]]; discriminate.
Qed.

(** What is before and after the place is determined. *)
Lemma break_unique {A} (V : list A -> Prop) (l : list A) pre t r pre' t' r' : (forall a b, V (a ++ b) -> V a) ->
  l = pre ++ t :: r -> l = pre' ++ t' :: r' -> V pre -> ~ V (pre ++ [t]) -> V pre' -> ~ V (pre' ++ [t']) -> pre = pre' /\ t = t' /\ r = r'.
Proof.
  intros Hp. revert V Hp l pre'. induction pre as [|x pre IH]; intros V Hp l pre' E E' V1 N1 V2 N2.
  - destruct pre' as [|y pre']; cbn in *; [subst l; injection E' as <- <-; auto|]. exfalso. subst l. injection E' as <- _.
    apply N1. apply (Hp [t] pre'). exact V2.
  - destruct pre' as [|y pre']; cbn in *.
    + exfalso. subst l. injection E' as <- _. apply N2. apply (Hp [x] pre). exact V1.
    + subst l. injection E' as <- E'. destruct (IH (fun q => V (x :: q)) (fun a b => Hp (x :: a) b) _ pre' eq_refl E' V1 N1 V2 N2) as (-> & -> & ->). auto.
Qed.

Lemma looks_on_panic ts : p_parse (parse_fuel (map Tok ts ++ [TokPanic])) (map Tok ts ++ [TokPanic]) = PPanic <-> looks_on (map tk_kind ts).
Proof.
  set (P := map Tok ts ++ [TokPanic]). split.
  - intros H. assert (Hns : ~ exists e, stopped (map tk_kind ts) e).
    { intros (e & Hs). destruct (stopped_ok ts [TokPanic] e Hs) as (s & E). unfold P in H. congruence. }
    destruct (list_eq_dec (fun a b : token => ltac:(decide equality; repeat decide equality)) ts []) as [->|Hne].
    { left. split; [|assumption]. exists [], EEmpty. constructor. }
    assert (HQ : p_parse (parse_fuel (map Tok ts)) (map Tok ts) = p_expression (parse_fuel (map Tok ts)) {| ps_toks := map Tok ts; ps_cur := None |}).
    { apply parse_expr; [destruct ts; [congruence|discriminate]|]. intros r E. destruct ts; discriminate. }
    pose proof (regex_parse_fuel (map Tok ts)) as Hf. destruct (p_parse (parse_fuel (map Tok ts)) (map Tok ts)) as [e s|errs| |] eqn:E; [| | |congruence].
    + left. split; [|assumption]. destruct (parse_ok _ _ _ _ E) as ((ts1 & E1 & Ek) & Hend & _). pose proof (proj1 (parser_shape _) _ _ _ (eq_sym HQ)) as Hsh.
      destruct Hend as [Hn|Hend].
      * rewrite Hn, app_nil_r in E1. apply toks_inj in E1. subst ts1. exists [], e. rewrite app_nil_r, Ek. apply read_all; [assumption|].
        eapply parser_tail; [symmetry; exact HQ|assumption].
      * exfalso. apply Hns. destruct (ps_toks s) as [|[t|] r] eqn:Es; try discriminate. cbn in Hend. injection Hend as Hend.
        rewrite <- (app_nil_r (map Tok ts)) in E1. destruct (toks_split ts ts1 t r [] E1 ltac:(discriminate)) as (r' & -> & _).
        exists e. split; [assumption|]. exists (map tk_kind r'). rewrite map_app, Ek. cbn [map]. rewrite Hend. reflexivity.
    + symmetry in HQ. destruct (proj1 (bad_parser _) _ errs I HQ) as (e & pre & suf & -> & E1 & Pl & [(more & M) _] & _ & D). cbn [ps_toks ps_cur] in *.
      assert (Hv : viable (map tk_kind pre)) by (destruct M as (e' & He & Ho & M); exists more, e'; rewrite M; constructor; auto).
      destruct suf as [|[t|] r].
      * rewrite app_nil_r in E1. apply toks_inj in E1. subst pre. left. auto.
      * rewrite <- (app_nil_r (map Tok ts)) in E1. destruct (toks_split ts pre t r [] E1 ltac:(discriminate)) as (r' & -> & ->). rewrite app_nil_r in *. right.
        assert (HP : P = map Tok pre ++ Tok t :: map Tok r' ++ [TokPanic]) by (unfold P; rewrite map_app, <- app_assoc; reflexivity).
        assert (Hpp : p_parse (parse_fuel P) P = p_expression (parse_fuel P) {| ps_toks := P; ps_cur := None |}).
        { apply parse_expr; rewrite HP; [destruct pre; discriminate|]. intros q Eq. destruct pre; discriminate. }
        destruct (D {| ps_toks := P; ps_cur := None |} _ HP (or_introl eq_refl)) as [_ Hfail].
        assert (Hcalm : ~ calm (pe_kind e) (Tok t :: map Tok r' ++ [TokPanic])).
        { intros Hc. apply Hfail in Hc. apply (fails_more _ (parse_fuel P)) in Hc.
          - rewrite <- Hpp, H in Hc. destruct Hc.
          - unfold parse_fuel. rewrite HP, !app_length. cbn [length]. rewrite !map_length, !app_length, !map_length. cbn [length]. lia. }
        assert (Hr : r' = []) by (destruct r' as [|t2 r']; [reflexivity|]; destruct Hcalm; exact I). subst r'.
        assert (Hk : pe_kind e = PMatch) by (cbn in Hcalm; destruct (pe_kind e); auto; destruct Hcalm; discriminate).
        exists (map tk_kind pre), (tk_kind t). rewrite map_app. split; [reflexivity|]. split; [split; [assumption|]|].
        -- intros k Hvk. destruct k as [k|o|q|c|]; eauto; exfalso; revert Hvk;
             match goal with |- viable (_ ++ [?kk]) -> False => apply (not_viable pre {| tk_kind := kk; tk_pos := (0, 0) |} (parse_fuel (map Tok (pre ++ [t])))) end;
             intros s' q0 E3; apply (D s' _ E3); right; (split; [assumption|]); do 2 eexists; (split; [reflexivity|]); discriminate.
        -- eapply not_viable. intros s' q0 E3. apply (D s' _ E3). left. reflexivity.
      * exfalso. assert (Hin : In TokPanic (map Tok ts)) by (rewrite E1; apply in_or_app; right; left; reflexivity).
        apply in_map_iff in Hin. destruct Hin as (x & Hx & _). discriminate.
    + exfalso. assert (Hin : In TokPanic (map Tok ts)).
      { apply (proj1 (parser_panic (parse_fuel (map Tok ts)))) with (s := {| ps_toks := map Tok ts; ps_cur := None |}). symmetry. exact HQ. }
      apply in_map_iff in Hin. destruct Hin as (x & Hx & _). discriminate.
  - intros H. pose proof (regex_parse_fuel P) as Hf. destruct (p_parse (parse_fuel P) P) as [e s|errs| |] eqn:E; [| |reflexivity|congruence]; exfalso.
    + apply panic_ok in E. destruct H as [[_ H]|(ks' & k & Ek & _ & Hn)]; [eauto|]. apply Hn. eapply stopped_viable. exact E.
    + destruct (panic_err ts errs E) as (e & pre & t & r & -> & Hv & Hn & Hm & Hc). rewrite map_app in H. cbn [map] in H.
      assert (Hnv : ~ viable (map tk_kind pre ++ tk_kind t :: map tk_kind r)).
      { intros Hw. apply Hn. apply (viable_prefix _ (map tk_kind r)). rewrite <- app_assoc. exact Hw. }
      destruct H as [[H _]|(ks' & k & Ek & [Hd1 Hd2] & Hn2)]; [contradiction|].
      rewrite Ek in Hn2.
      destruct (break_unique viable _ (map tk_kind pre) (tk_kind t) (map tk_kind r) ks' k [] viable_prefix eq_refl Ek Hv Hn Hd1 Hn2) as (<- & Hk & Hr).
      destruct r; [|discriminate]. assert (Hkind : pe_kind e <> PMatch) by (intros Hx; exact (Hm Hx eq_refl)).
      destruct (Hd2 _ (Hc Hkind)) as (c & Hcc). discriminate.
Qed.

Lemma gapped_ok : forall e, gapped e <-> has_empty e = true.
Proof.
  apply expr_seq_ind.
  - split; [reflexivity|constructor].
  - intros e IH. cbn [has_empty existsb]. rewrite orb_false_r, <- IH. split.
    + intros H. inversion H as [|? e' Hin He| | |]; subst. destruct Hin as [->|[]]. assumption.
    + intros H. eapply gapped_item; [left; reflexivity|assumption].
  - intros e e2 es IH1 IH2. change (has_empty (EConcat (e :: e2 :: es))) with (has_empty e || has_empty (EConcat (e2 :: es)))%bool.
    rewrite orb_true_iff, <- IH1, <- IH2. split.
    + intros H. inversion H as [|? e' Hin He| | |]; subst. destruct Hin as [->|Hin]; [left; assumption|right]. eapply gapped_item; eassumption.
    + intros [H|H]; [eapply gapped_item; [left; reflexivity|assumption]|].
      inversion H as [|? e' Hin He| | |]; subst. eapply gapped_item; [right; exact Hin|assumption].
  - split; [inversion 1|discriminate].
  - intros l r IHl IHr. cbn [has_empty]. rewrite orb_true_iff, <- IHl, <- IHr. split.
    + inversion 1; auto.
    + intros [H|H]; [apply gapped_left|apply gapped_right]; assumption.
  - intros l q. split; [inversion 1|discriminate].
  - intros e q IH. cbn [has_empty]. rewrite <- IH. split; [inversion 1; assumption|apply gapped_group].
Qed.

Section Panic.
  Context {env : Env}.

  Lemma tokenizes_forms n w l : tokenizes n w l -> exists ts, l = map Tok ts \/ l = map Tok ts ++ [TokPanic].
  Proof.
    induction 1 as [n|n w Hc|n w k r b l Hk Hl IH].
    - exists []. auto.
    - exists []. auto.
    - destruct IH as (ts & [->| ->]); eexists (_ :: ts); [left|right]; reflexivity.
  Qed.

  Lemma regex_parse_p w : regex_parse w = match p_parse (parse_fuel (tokens_of w)) (tokens_of w) with
    | POk e _ => Val (ParseOk e) | PErr errs => Val (ParseErr errs) | PPanic => Panic | PFuel => Diverge end.
  Proof. reflexivity. Qed.

  Lemma stream_kinds_toks ts : stream_kinds (map Tok ts) = Some (map tk_kind ts).
  Proof. induction ts as [|t ts IH]; [reflexivity|]. cbn. rewrite IH. reflexivity. Qed.

  Lemma pattern_of_ok w e : regex_parse w = Val (ParseOk e) <-> pattern_of w e.
  Proof.
    destruct (tokenizes_forms 0 w (tokens_of w)) as (ts & [E|E]); [apply tokens_ok; reflexivity| |].
    - rewrite (parse_reads w (map tk_kind ts) e) by (rewrite E; apply stream_kinds_toks). split.
      + intros H. left. exists ts. split; [apply tokens_ok; assumption|assumption].
      + intros [(ts' & Ht & H)|(ts' & Ht & _)]; apply tokens_ok in Ht; rewrite E in Ht.
        * apply toks_inj in Ht. subst ts'. assumption.
        * exfalso. assert (Hin : In TokPanic (map Tok ts)) by (rewrite Ht; apply in_or_app; right; left; reflexivity).
          apply in_map_iff in Hin. destruct Hin as (x & Hx & _). discriminate.
    - rewrite regex_parse_p, E. split.
      + intros H. destruct (p_parse _ _) as [e' s| | |] eqn:Ep; try discriminate. injection H as ->. right. exists ts.
        split; [apply tokens_ok; assumption|]. eapply panic_ok. exact Ep.
      + intros [(ts' & Ht & _)|(ts' & Ht & H)]; apply tokens_ok in Ht; rewrite E in Ht.
        * exfalso. assert (Hin : In TokPanic (map Tok ts')) by (rewrite <- Ht; apply in_or_app; right; left; reflexivity).
          apply in_map_iff in Hin. destruct Hin as (x & Hx & _). discriminate.
        * apply app_inj_tail in Ht. destruct Ht as [Ht _]. apply toks_inj in Ht. subst ts'.
          destruct (stopped_ok ts [TokPanic] e H) as (s & ->). reflexivity.
  Qed.

  Lemma pattern_crashes_ok w : regex_parse w = Panic <-> pattern_crashes w.
  Proof.
    destruct (tokenizes_forms 0 w (tokens_of w)) as (ts & [E|E]); [apply tokens_ok; reflexivity| |].
    - split.
      + intros H. exfalso. rewrite regex_parse_p in H. destruct (p_parse _ _) eqn:Ep; try discriminate. apply parse_panic in Ep.
        rewrite E in Ep. apply in_map_iff in Ep. destruct Ep as (x & Hx & _). discriminate.
      + intros (ts' & Ht & _). apply tokens_ok in Ht. rewrite E in Ht.
        exfalso. assert (Hin : In TokPanic (map Tok ts)) by (rewrite Ht; apply in_or_app; right; left; reflexivity).
        apply in_map_iff in Hin. destruct Hin as (x & Hx & _). discriminate.
    - rewrite regex_parse_p, E. split.
      + intros H. exists ts. split; [apply tokens_ok; assumption|]. apply looks_on_panic. destruct (p_parse _ _); try discriminate. reflexivity.
      + intros (ts' & Ht & H). apply tokens_ok in Ht. rewrite E in Ht. apply app_inj_tail in Ht. destruct Ht as [Ht _]. apply toks_inj in Ht. subst ts'.
        apply looks_on_panic in H. rewrite H. reflexivity.
  Qed.

  Lemma pattern_rejects w : (exists errs, regex_parse w = Val (ParseErr errs)) <-> ~ pattern_crashes w /\ ~ exists e, pattern_of w e.
  Proof.
    split.
    - intros (errs & H). split; [intros Hc; apply pattern_crashes_ok in Hc; congruence|]. intros (e & He). apply pattern_of_ok in He. congruence.
    - intros [Hc He]. pose proof (regex_parse_total w) as Ht. destruct (regex_parse w) as [[e|errs]| |] eqn:E.
      + destruct He. exists e. apply pattern_of_ok. assumption.
      + eauto.
      + destruct Hc. apply pattern_crashes_ok. assumption.
      + destruct Ht; congruence.
  Qed.

  Lemma add_token_cases (K : Type) (lg0 lg : lexgen K) ts p g : lexgen_new = Val lg0 -> add_tokens lg0 ts = Val (inl lg) ->
    (add_token lg p g = Panic <-> pattern_crashes p \/ exists e, pattern_of p e /\ gapped e) /\
    ((exists lg', add_token lg p g = Val (inl lg')) <-> exists e, pattern_of p e /\ ~ gapped e) /\
    ((exists errs, add_token lg p g = Val (inr errs)) <-> ~ pattern_crashes p /\ ~ exists e, pattern_of p e).
  Proof.
    intros H0 H. destruct (tokens_state lg0 lg ts H0 H) as (es & Hes & Hg & _).
    pose proof (gen_add lg es (map snd ts) p g Hg) as Ha.
    rewrite <- pattern_rejects, <- pattern_crashes_ok. setoid_rewrite <- pattern_of_ok. setoid_rewrite gapped_ok.
    destruct (regex_parse p) as [[e|errs]| |] eqn:E.
    - destruct (has_empty e) eqn:He.
      + rewrite Ha. split; [|split].
        * split; [|reflexivity]. intros _. right. exists e. auto.
        * split; [intros (? & ?); discriminate|]. intros (e' & Ee & Hn). congruence.
        * split; intros (? & ?); discriminate.
      + destruct Ha as (lg' & Ha & _). rewrite Ha. split; [|split].
        * split; [discriminate|]. intros [Hx|(e' & Ee & Hx)]; congruence.
        * split; [|eauto]. intros _. exists e. split; [reflexivity|congruence].
        * split; intros (? & ?); discriminate.
    - rewrite Ha. split; [|split].
      + split; [discriminate|]. intros [Hx|(e' & Ee & Hx)]; discriminate.
      + split; [intros (? & ?); discriminate|]. intros (e' & Ee & Hn). congruence.
      + split; eauto.
    - rewrite Ha. split; [|split].
      + split; auto.
      + split; [intros (? & ?); discriminate|]. intros (e' & Ee & Hn). congruence.
      + split; intros (? & ?); discriminate.
    - destruct Ha.
  Qed.
End Panic.

Lemma crashes_checked {env : Env} n w l : tokenizes n w l -> In TokPanic l -> overflow_checks = true.
Proof.
  induction 1 as [n|n w Hc|n w k r b l Hk Hl IH]; intros Hin.
  - destruct Hin.
  - inversion Hc as [ds r [Ho _]|ds1 ds2 r _ [Ho _]]; assumption.
  - destruct Hin as [Hin|Hin]; [discriminate|auto].
Qed.

Lemma pattern_crashes_checked {env : Env} w : pattern_crashes w -> overflow_checks = true.
Proof. intros (ts & H & _). apply (crashes_checked _ _ _ H). apply in_or_app. right. left. reflexivity. Qed.
