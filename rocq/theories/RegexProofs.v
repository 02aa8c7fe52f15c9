(** Properties of the whole regex front end: tokenizer and parser together. *)
From Verif Require Import Base RegexModel SpecRegex RegexTokProofs RegexPrintProofs RegexParseProofs.

Section RegexProofs.
  Context {env : Env}.

  (** ** Round trip *)

  Lemma regex_parse_kinds w e : is_pattern e -> kinds_of w = Some (expr_tokens e) ->
    regex_parse w = Val (ParseOk e).
  Proof.
    intros Hp Hk. apply stream_kinds_holds in Hk. unfold regex_parse.
    destruct (parse_complete e (tokens_of w) Hp Hk) as (cur & ->). reflexivity.
  Qed.

  Lemma round_trip e : is_pattern e -> regex_parse (print_expr e) = Val (ParseOk e).
  Proof. intros Hp. apply regex_parse_kinds; [assumption|]. apply print_kinds. assumption. Qed.

  (** ** Results of parsing *)

  Lemma regex_parse_ok w e : regex_parse w = Val (ParseOk e) ->
    exists rest, holds (tokens_of w) (expr_tokens e) rest /\ at_end rest /\
                 (has_empty e = true -> gap (tokens_of w)).
  Proof.
    unfold regex_parse. destruct (p_parse _ _) as [e' s| | |] eqn:E; try discriminate.
    intros [= ->]. destruct (parse_ok _ _ _ _ E) as (H1 & H2 & H3). eauto.
  Qed.

  Lemma regex_parse_total w : regex_parse w <> Diverge.
  Proof.
    unfold regex_parse. pose proof (regex_parse_fuel (tokens_of w)) as H.
    destruct (p_parse _ _); congruence.
  Qed.

  Lemma regex_parse_panic w : regex_parse w = Panic -> In TokPanic (tokens_of w).
  Proof.
    unfold regex_parse. destruct (p_parse _ _) eqn:E; try discriminate. intros _.
    eapply parse_panic. eassumption.
  Qed.

  (** Parentheses of a regex match up. *)
  Lemma count_app P a b : count_kind P (a ++ b) = count_kind P a + count_kind P b.
  Proof. unfold count_kind. rewrite filter_app, app_length. reflexivity. Qed.

  Lemma glits_parens P gs : (forall c, P (TMatch c) = false) -> (forall k, P (TClass k) = false) ->
    P (TOp OMinus) = false -> count_kind P (flat_map glit_tokens gs) = 0.
  Proof.
    intros H1 H2 H3. induction gs as [|g gs IH]; cbn [flat_map]; [reflexivity|].
    rewrite count_app, IH. destruct g; unfold count_kind; cbn; rewrite ?H1, ?H2, ?H3; reflexivity.
  Qed.

  Lemma lit_parens l : count_kind is_open (lit_tokens l) = 0 /\ count_kind is_close (lit_tokens l) = 0.
  Proof.
    destruct l as [c|k|neg gs]; cbn [lit_tokens]; [split; reflexivity..|].
    rewrite !count_app, !glits_parens by reflexivity. destruct neg; split; reflexivity.
  Qed.

  Lemma oquant_parens P q : (forall q, P (TQuant q) = false) -> count_kind P (oquant_tokens q) = 0.
  Proof. intros H. destruct q; unfold count_kind; cbn; rewrite ?H; reflexivity. Qed.

  Lemma expr_ind' (P : expr -> Prop) :
    (forall es, Forall P es -> P (EConcat es)) ->
    P EEmpty ->
    (forall l r, P l -> P r -> P (EAlt l r)) ->
    (forall l q, P (ELit l q)) ->
    (forall e q, P e -> P (EGroup e q)) ->
    forall e, P e.
  Proof.
    intros Hc He Ha Hl Hg. fix IH 1. intros [es| |l r|l q|e q].
    - apply Hc. induction es as [|e es IHes]; constructor; [apply IH|apply IHes].
    - apply He.
    - apply Ha; apply IH.
    - apply Hl.
    - apply Hg, IH.
  Qed.

  Lemma expr_parens e : count_kind is_open (expr_tokens e) = count_kind is_close (expr_tokens e).
  Proof.
    induction e as [es IH| |l r IHl IHr|l q|e q IHe] using expr_ind'; cbn [expr_tokens]; rewrite ?count_app.
    - induction IH as [|e es He _ IHes]; cbn [flat_map]; [reflexivity|]. rewrite !count_app. lia.
    - reflexivity.
    - change (count_kind is_open [TOp OVertical]) with 0. change (count_kind is_close [TOp OVertical]) with 0. lia.
    - destruct (lit_parens l) as [-> ->]. rewrite !oquant_parens by reflexivity. reflexivity.
    - change (count_kind is_open [TOp OLParen]) with 1. change (count_kind is_close [TOp OLParen]) with 0.
      change (count_kind is_open [TOp ORParen]) with 0. change (count_kind is_close [TOp ORParen]) with 1.
      rewrite !oquant_parens by reflexivity. lia.
  Qed.

  Lemma holds_kinds a ks b : holds a ks b ->
    stream_kinds a = match stream_kinds b with Some l => Some (ks ++ l) | None => None end.
  Proof.
    intros (ts & -> & <-). induction ts as [|t ts IH]; cbn.
    - destruct (stream_kinds b); reflexivity.
    - rewrite IH. destruct (stream_kinds b); reflexivity.
  Qed.

  Lemma parse_balanced w e ks : regex_parse w = Val (ParseOk e) -> kinds_of w = Some ks -> balanced ks ->
    ks = expr_tokens e.
  Proof.
    intros Hp Hk Hb. destruct (regex_parse_ok w e Hp) as (rest & Hh & Hend & _).
    pose proof (holds_kinds _ _ _ Hh) as Hkk. unfold kinds_of in Hk. rewrite Hk in Hkk.
    destruct rest as [|[[k pos]|] r].
    - cbn in Hkk. rewrite app_nil_r in Hkk. congruence.
    - exfalso. destruct Hend as [Hend|Hend]; [discriminate|]. cbn in Hend. injection Hend as ->.
      cbn in Hkk. destruct (stream_kinds r) as [l|]; [|discriminate]. injection Hkk as ->.
      specialize (Hb (expr_tokens e ++ [TOp ORParen]) l). rewrite <- app_assoc in Hb.
      specialize (Hb eq_refl). rewrite !count_app, expr_parens in Hb.
      change (count_kind is_open [TOp ORParen]) with 0 in Hb. change (count_kind is_close [TOp ORParen]) with 1 in Hb. lia.
    - discriminate.
  Qed.

  (** ** Panics of the tokenizer *)

  Lemma take_suffix f : forall rest cur ds s, take_map_while f rest cur = (ds, s) ->
    exists u, map snd rest = u ++ map snd (ts_rest s) /\ map f u = map Some ds.
  Proof.
    induction rest as [|[p c] rest IH]; intros cur ds s; cbn.
    - intros [= <- <-]. exists []. auto.
    - destruct (f c) as [d|] eqn:Ef.
      + destruct (take_map_while f rest _) as [ds' s'] eqn:Et. intros [= <- <-].
        destruct (IH _ _ _ Et) as (u & E1 & E2). exists (c :: u). cbn. rewrite E1, Ef, E2. auto.
      + intros [= <- <-]. exists []. auto.
  Qed.

  Lemma digits_of u ds : map to_digit10 u = map Some ds ->
    Forall digit_char u /\ ds = map (fun c => c - 48)%N u.
  Proof.
    revert ds. induction u as [|c u IH]; intros [|d ds]; try discriminate; [split; [constructor|reflexivity]|].
    cbn. intros [= Hc Hu]. destruct (IH _ Hu) as [H1 ->].
    unfold to_digit10, is_ascii_digit in Hc.
    destruct (48 <=? c)%N eqn:E1; [|discriminate]. destruct (c <=? 57)%N eqn:E2; [|discriminate].
    cbn in Hc. injection Hc as <-. apply N.leb_le in E1, E2. split; [|reflexivity].
    constructor; [split; assumption|assumption].
  Qed.

  (** A panic while reading a number. *)
  Lemma take_dec_panic c d s : to_digit10 c = Some d -> take_dec d s = Panic ->
    overflow_checks = true /\ window_number (c :: map snd (ts_rest s)).
  Proof.
    intros Hc. unfold take_dec, ts_take.
    destruct (take_map_while _ _ _) as [ds s'] eqn:Et.
    destruct (take_suffix _ _ _ _ _ Et) as (u & E1 & E2). destruct (digits_of _ _ E2) as [Hu ->].
    destruct (digits_of [c] [d]) as [Hc1 Hd1]; [cbn; rewrite Hc; reflexivity|]. cbn in Hd1. injection Hd1 as ->.
    inversion Hc1 as [|? ? Hc2 _]; subst. rewrite E1.
    intros H. destruct (fold_left dec_step _ _) eqn:Ef; cbn in H; try discriminate.
    split.
    - destruct overflow_checks eqn:Eo; [reflexivity|]. exfalso.
      destruct (dec_step_nopanic (map (fun c => c - 48)%N u) (Val (Some (c - 48)%N)) Eo) as (v & Ev); [eauto|].
      congruence.
    - destruct (dec_fold_panic u (c - 48)%N) as (u1 & x & v & -> & Hw & _).
      + unfold u32_limit, digit_char in *. lia.
      + assumption.
      + assumption.
      + exists [], (c :: u1 ++ [x]), (v ++ map snd (ts_rest s')). cbn. repeat rewrite <- app_assoc. cbn.
        split; [reflexivity|]. split; [split; [discriminate|]|].
        * constructor; [assumption|]. apply Forall_app in Hu. destruct Hu as [Hu1 Hu2].
          apply Forall_app. split; [assumption|]. inversion Hu2; subst. constructor; auto.
        * unfold in_window, u32_limit in Hw. exact Hw.
  Qed.

  Lemma window_app u w : window_number w -> window_number (u ++ w).
  Proof.
    intros (a & ds & b & -> & H). exists (u ++ a), ds, b. rewrite <- app_assoc. auto.
  Qed.

  Lemma next_snd s o s' : ts_next s = (o, s') ->
    match o with
    | Some (p, c) => map snd (ts_rest s) = c :: map snd (ts_rest s')
    | None => ts_rest s = [] /\ ts_rest s' = []
    end.
  Proof.
    unfold ts_next. destruct (ts_rest s) as [|[p c] r]; intros [= <- <-]; cbn; auto.
  Qed.

  Lemma take_dec_snd d s v s' : take_dec d s = Val (v, s') ->
    exists u, map snd (ts_rest s) = u ++ map snd (ts_rest s').
  Proof.
    unfold take_dec, ts_take. destruct (take_map_while _ _ _) as [ds s1] eqn:Et.
    destruct (fold_left _ _ _); cbn; try discriminate. intros [= -> ->].
    destruct (take_suffix _ _ _ _ _ Et) as (u & E1 & _). eauto.
  Qed.

  Lemma handle_range_panic s : handle_range s = Panic ->
    overflow_checks = true /\ window_number (map snd (ts_rest s)).
  Proof.
    unfold handle_range. destruct (ts_next s) as [[[p c]|] s1] eqn:E1; [|discriminate].
    apply next_snd in E1. destruct (to_digit10 c) as [d|] eqn:Ed; [|discriminate].
    destruct (take_dec d s1) as [[first s2]| |] eqn:Et; cbn [bind]; try discriminate.
    2: { intros _. rewrite E1. eapply take_dec_panic; eassumption. }
    destruct (take_dec_snd _ _ _ _ Et) as (u & Eu).
    destruct (ts_next s2) as [[[p3 c3]|] s3] eqn:E3; [|discriminate]. pose proof (next_snd _ _ _ E3) as N3.
    rewrite E1, Eu, N3.
    destruct (c3 =? _)%N.
    - destruct (ts_next s3) as [[[p4 c4]|] s4] eqn:E4; [|discriminate]. pose proof (next_snd _ _ _ E4) as N4.
      destruct (c4 =? _)%N; [destruct first; discriminate|].
      destruct (to_digit10 c4) as [d2|] eqn:Ed2; [|discriminate].
      destruct (take_dec d2 s4) as [[second s5]| |] eqn:Et2; cbn [bind]; try discriminate.
      + destruct (ts_next s5) as [[[? ?]|] ?]; [|discriminate]. destruct (_ =? _)%N; [|discriminate].
        destruct first, second; discriminate.
      + intros _. destruct (take_dec_panic _ _ _ Ed2 Et2) as [Ho Hw]. split; [assumption|].
        rewrite N4. apply (window_app (c :: u ++ [c3])) in Hw. cbn in Hw. rewrite <- app_assoc in Hw. exact Hw.
    - destruct (c3 =? _)%N; [destruct first; discriminate|].
      destruct (to_digit10 c3) as [d2|] eqn:Ed2; [|discriminate].
      destruct (take_dec d2 s3) as [[second s5]| |] eqn:Et2; cbn [bind]; try discriminate.
      + destruct (ts_next s5) as [[[? ?]|] ?]; [|discriminate]. destruct (_ =? _)%N; [|discriminate].
        destruct first, second; discriminate.
      + intros _. destruct (take_dec_panic _ _ _ Ed2 Et2) as [Ho Hw]. split; [assumption|].
        apply (window_app (c :: u)) in Hw. exact Hw.
  Qed.

  Lemma tok_next_panic s : tok_next s = Panic ->
    overflow_checks = true /\ window_number (map snd (ts_rest s)).
  Proof.
    unfold tok_next. destruct (ts_next s) as [[[p c]|] s1] eqn:E1; [|discriminate].
    apply next_snd in E1. rewrite E1.
    destruct (token_kind_at c s1) as [[k s2]| |] eqn:Ek; cbn [bind]; try discriminate. intros _.
    revert Ek. unfold token_kind_at. destruct (c =? _)%N; [discriminate|]. destruct (c =? _)%N; [discriminate|].
    destruct (op_of c); [discriminate|]. do 3 (destruct (c =? _)%N; [discriminate|]).
    destruct (c =? _)%N; [|discriminate]. intros H. destruct (handle_range_panic _ H) as [Ho Hw].
    split; [assumption|]. apply (window_app [c]) in Hw. exact Hw.
  Qed.

  Lemma enumerate_app p u w : enumerate p (u ++ w) = enumerate p u ++ enumerate (p + length u) w.
  Proof.
    revert p. induction u as [|c u IH]; intros p; cbn; [rewrite Nat.add_0_r; reflexivity|].
    rewrite IH. do 3 f_equal. lia.
  Qed.

  Lemma tok_stream_panic : forall f w p cur, In TokPanic (tok_stream f {| ts_rest := enumerate p w; ts_cur := cur |}) ->
    overflow_checks = true /\ window_number w.
  Proof.
    induction f as [|f IH]; intros w p cur; cbn; [intros []|].
    pose proof (tok_next_res p w cur) as R.
    destruct w as [|c w].
    - destruct R as (s' & ->). intros [].
    - destruct R as [E|(k & e & s' & u & w' & E & Hw & Hu & Hr & He)]; rewrite E.
      + intros _. apply tok_next_panic in E. cbn [ts_rest] in E. rewrite enumerate_snd in E. exact E.
      + intros [H|H]; [discriminate|]. destruct s' as [r cu]. cbn in Hr. subst r.
        apply IH in H. destruct H as [Ho Hn]. split; [assumption|]. rewrite Hw. apply window_app. assumption.
  Qed.

  Lemma regex_parse_panic_window w : regex_parse w = Panic -> overflow_checks = true /\ window_number w.
  Proof. intros H. apply regex_parse_panic in H. eapply tok_stream_panic. exact H. Qed.

  (** ** Empty alternatives *)

  Lemma gap_empty_alternative w ks : kinds_of w = Some ks -> gap (tokens_of w) -> empty_alternative ks.
  Proof.
    unfold kinds_of. intros Hk [(t & r & E & Hc)|(l & t1 & t2 & r & E & Ho & Hc)]; rewrite E in Hk.
    - cbn in Hk. destruct (stream_kinds r); [|discriminate]. injection Hk as <-. left. eauto.
    - right. clear E. revert ks Hk. induction l as [|[t|] l IH]; intros ks Hk; cbn in Hk.
      + destruct (stream_kinds r); [|discriminate]. injection Hk as <-. eexists [], _, _, _. split; [reflexivity|]. split; assumption.
      + destruct (stream_kinds (l ++ _)) as [ks'|]; [|discriminate]. injection Hk as <-.
        destruct (IH _ eq_refl) as (u & k1 & k2 & v & -> & H). exists (tk_kind t :: u), k1, k2, v. auto.
      + discriminate.
  Qed.

  (** ** Spans *)

  Lemma tiles_spans : forall lost l p n ts, tiles lost p n l -> l = map Tok ts ->
    spans_tile p n (map tk_pos ts) \/
    exists ts' s, ts = ts' ++ [{| tk_kind := TInvalid; tk_pos := (s, 1) |}] /\
                  spans_tile p s (map tk_pos ts') /\ s < n.
  Proof.
    intros lost l p n ts H. revert ts. induction H as [p|p n Hp|p e n k l Hp He H IH|p n Hl Hp]; intros ts E.
    - destruct ts; [|discriminate]. left. constructor.
    - destruct ts; discriminate.
    - destruct ts as [|t ts]; [discriminate|]. injection E as <- ->.
      destruct (IH ts eq_refl) as [H1|(ts' & s & -> & H1 & H2)].
      + left. cbn. constructor; assumption.
      + right. eexists (_ :: ts'), s. split; [reflexivity|]. split; [|assumption]. cbn. constructor; assumption.
    - destruct ts as [|t [|t2 ts]]; try discriminate. injection E as <-.
      right. exists [], p. repeat split; [constructor|assumption].
  Qed.

  Lemma spans_length p n l : spans_tile p n l -> p + length l <= n.
  Proof. induction 1; cbn; lia. Qed.

  Lemma tiles_length lost p n l : tiles lost p n l -> p + length l <= n.
  Proof. induction 1; cbn; lia. Qed.

  Lemma tokens_length w : length (tokens_of w) <= length w.
  Proof.
    pose proof (tok_stream_tiles w 0 None (S (length w)) ltac:(lia)) as H.
    apply tiles_length in H. exact H.
  Qed.

  Lemma tokens_spans w ts : tokens_of w = map Tok ts ->
    spans_tile 0 (length w) (map tk_pos ts) \/
    exists ts' s, ts = ts' ++ [{| tk_kind := TInvalid; tk_pos := (s, 1) |}] /\
                  spans_tile 0 s (map tk_pos ts') /\ s < length w.
  Proof.
    intros E. pose proof (tok_stream_tiles w 0 None (S (length w)) ltac:(lia)) as H.
    eapply tiles_spans; eassumption.
  Qed.

  (** ** Rejection of invalid tokens *)

  Lemma expr_tokens_valid e : ~ In TInvalid (expr_tokens e).
  Proof.
    assert (Hg : forall gs, ~ In TInvalid (flat_map glit_tokens gs)).
    { intros gs H. apply in_flat_map in H. destruct H as (g & _ & H).
      destruct g; cbn in H; intuition discriminate. }
    assert (Hq : forall q, ~ In TInvalid (oquant_tokens q)).
    { intros [q|]; cbn; intuition discriminate. }
    assert (Hl : forall l, ~ In TInvalid (lit_tokens l)).
    { intros [c|k|neg gs]; cbn [lit_tokens]; try (cbn; intuition discriminate).
      rewrite !in_app_iff. specialize (Hg gs). destruct neg; cbn; intuition discriminate. }
    induction e as [es IH| |l r IHl IHr|l q|e q IHe] using expr_ind'; cbn [expr_tokens];
      rewrite ?in_app_iff.
    - intros H. apply in_flat_map in H. destruct H as (x & Hx & H).
      rewrite Forall_forall in IH. eapply IH; eassumption.
    - auto.
    - cbn. intuition discriminate.
    - specialize (Hl l). specialize (Hq q). tauto.
    - specialize (Hq q). cbn. intuition discriminate.
  Qed.

  Lemma regex_parse_cases w :
    (exists e, regex_parse w = Val (ParseOk e)) \/ (exists errs, regex_parse w = Val (ParseErr errs)) \/
    regex_parse w = Panic.
  Proof.
    pose proof (regex_parse_total w). destruct (regex_parse w) as [[e|errs]| |]; eauto. congruence.
  Qed.

  Lemma no_panic_kinds w ks : kinds_of w = Some ks -> regex_parse w <> Panic.
  Proof.
    intros Hk Hp. apply regex_parse_panic in Hp. unfold kinds_of in Hk.
    apply stream_kinds_holds in Hk. destruct Hk as (ts & E & _). rewrite E, app_nil_r in Hp.
    apply in_map_iff in Hp. destruct Hp as (? & ? & _). discriminate.
  Qed.

  (** A pattern whose tokens contain an invalid one is rejected, unless a stray
      [)] hides it. *)
  Lemma invalid_rejected w ks : kinds_of w = Some ks -> balanced ks -> In TInvalid ks ->
    exists errs, regex_parse w = Val (ParseErr errs).
  Proof.
    intros Hk Hb Hi. destruct (regex_parse_cases w) as [[e He]|[H|Hp]]; [|assumption|].
    - exfalso. rewrite (parse_balanced _ _ _ He Hk Hb) in Hi. eapply expr_tokens_valid. exact Hi.
    - exfalso. eapply no_panic_kinds; eassumption.
  Qed.

  Lemma balanced_no_close ks : (forall k, In k ks -> is_close k = false) -> balanced ks.
  Proof.
    intros H u v ->. assert (count_kind is_close u = 0) as ->; [|lia].
    assert (Hu : forall k, In k u -> is_close k = false) by (intros k Hk; apply H, in_or_app; auto).
    clear H. unfold count_kind. induction u as [|k u IH]; cbn; [reflexivity|].
    rewrite (Hu k) by (left; reflexivity). apply IH. intros k' Hk'. apply Hu. right; assumption.
  Qed.

  Lemma lit_no_close l k : In k (lit_tokens l) -> is_close k = false.
  Proof.
    intros Hk. pose proof (proj2 (lit_parens l)) as H. unfold count_kind in H.
    destruct (is_close k) eqn:E; [|reflexivity].
    assert (In k (filter is_close (lit_tokens l))) by (apply filter_In; auto).
    destruct (filter is_close (lit_tokens l)); [contradiction|discriminate].
  Qed.

  (** ** Quantifier bounds *)

  Lemma dec_value_app u v : (dec_value u <= dec_value (u ++ v))%N.
  Proof. unfold dec_value. rewrite fold_left_app. apply (dval_ge v). Qed.

  Lemma dec_read_fits ds : dec_string ds -> clear_digits ds -> dec_read ds = Val (fits ds).
  Proof.
    intros H Hc. unfold fits. destruct (dec_value ds <? 4294967296)%N eqn:E.
    - apply dec_read_ok; [assumption|]. apply N.ltb_lt in E. exact E.
    - apply N.ltb_ge in E. apply dec_read_big; [assumption|exact Hc|exact E].
  Qed.

  Lemma fits_clear ds : u32 (dec_value ds) -> clear_digits ds.
  Proof.
    intros H u v -> Hw. pose proof (dec_value_app u v). unfold u32 in H. lia.
  Qed.

  Lemma kinds_max ds rest : dec_string ds -> clear_digits ds ->
    kinds_of ($"{" :: ds ++ $"}" :: rest) =
    match kinds_of rest with Some ks => Some (max_token (fits ds) :: ks) | None => None end.
  Proof. intros H Hc. apply tstep_kinds, tstep_max; [assumption|]. apply dec_read_fits; assumption. Qed.
  Lemma kinds_min ds rest : dec_string ds -> clear_digits ds ->
    kinds_of ($"{" :: ds ++ $"," :: $"}" :: rest) =
    match kinds_of rest with Some ks => Some (min_token (fits ds) :: ks) | None => None end.
  Proof. intros H Hc. apply tstep_kinds, tstep_min; [assumption|]. apply dec_read_fits; assumption. Qed.
  Lemma kinds_range ds1 ds2 rest : dec_string ds1 -> clear_digits ds1 -> dec_string ds2 -> clear_digits ds2 ->
    kinds_of ($"{" :: ds1 ++ $"," :: ds2 ++ $"}" :: rest) =
    match kinds_of rest with Some ks => Some (range_token (fits ds1) (fits ds2) :: ks) | None => None end.
  Proof.
    intros H1 Hc1 H2 Hc2. apply tstep_kinds, tstep_range; auto; apply dec_read_fits; assumption.
  Qed.

  (** A literal with a quantifier text after it. *)
  Lemma parse_quantified l body k :
    kinds_of body = Some [k] ->
    match k with
    | TQuant q => regex_parse (print_lit l ++ body) = Val (ParseOk (ELit l (Some q))) \/ ~ quant_ok (Some q)
    | TInvalid => exists errs, regex_parse (print_lit l ++ body) = Val (ParseErr errs)
    | _ => True
    end.
  Proof.
    intros Hk. pose proof (writes_lit l body) as Hw. rewrite Hk in Hw.
    destruct k as [|o|q|c|]; auto.
    - assert (D : quant_ok (Some q) \/ ~ quant_ok (Some q)).
      { unfold quant_ok, u32. destruct q; try (left; exact I); lia. }
      destruct D as [D|D]; [left|right; assumption].
      apply regex_parse_kinds; [|exact Hw]. right. constructor. constructor. constructor. assumption.
    - apply (invalid_rejected _ _ Hw).
      + apply balanced_no_close. intros k Hk'. apply in_app_or in Hk'. destruct Hk' as [H|[<-|[]]]; [|reflexivity].
        eapply lit_no_close; eassumption.
      + apply in_or_app. right. left. reflexivity.
  Qed.

  (** ** Escaped texts *)

  Definition text_expr (w : list char) : expr :=
    match w with
    | [] => EEmpty
    | [c] => ELit (LMatch c) None
    | _ => EConcat (map (fun c => ELit (LMatch c) None) w)
    end.

  Lemma text_items w : is_items (map (fun c => ELit (LMatch c) None) w).
  Proof. induction w; cbn; constructor; [constructor; exact I|assumption]. Qed.

  Lemma text_pattern w : is_pattern (text_expr w).
  Proof.
    destruct w as [|a [|b w]].
    - left. reflexivity.
    - right. do 3 constructor. exact I.
    - right. apply is_expr_sub. apply is_sub_many; [constructor; exact I..|]. apply text_items.
  Qed.

  Lemma text_print w : print_expr (text_expr w) = escape_text w.
  Proof.
    destruct w as [|a [|b w]]; cbn; rewrite ?app_nil_r; auto.
    do 2 f_equal. induction w as [|c w IH]; cbn; [reflexivity|]. rewrite app_nil_r, IH. reflexivity.
  Qed.

  Lemma escaped_parses w : regex_parse (escape_text w) = Val (ParseOk (text_expr w)).
  Proof. rewrite <- text_print. apply round_trip, text_pattern. Qed.

  Lemma text_lang w v : lang (text_expr w) v <-> v = w.
  Proof.
    assert (H1 : forall c v, lang (ELit (LMatch c) None) v <-> v = [c]).
    { intros c v0. cbn. split; [intros (x & -> & ->); reflexivity|intros ->; eauto]. }
    destruct w as [|a [|b w]]; [cbn; tauto|apply H1|].
    unfold text_expr. remember (a :: b :: w) as l eqn:El. clear a b w El.
    revert v. induction l as [|c l IH]; intros v; [cbn; tauto|].
    change (lang (EConcat (map (fun c => ELit (LMatch c) None) (c :: l))) v) with
      (lang_cat (lang (ELit (LMatch c) None)) (lang (EConcat (map (fun c => ELit (LMatch c) None) l))) v).
    split.
    - intros (x & y & -> & Hx & Hy). apply H1 in Hx. apply IH in Hy. subst. reflexivity.
    - intros ->. exists [c], l. repeat split; [apply H1; reflexivity|apply IH; reflexivity].
  Qed.

  (** ** Character sets *)

  Lemma space_spec c : is_whitespace c = true <-> space_char c.
  Proof.
    unfold is_whitespace, space_char. rewrite !orb_true_iff, !andb_true_iff, !N.leb_le, !N.eqb_eq. cbn [In]. lia.
  Qed.
  Lemma digit_spec c : is_ascii_digit c = true <-> digit_char c.
  Proof. unfold is_ascii_digit, digit_char. rewrite andb_true_iff, !N.leb_le. tauto. Qed.

  Lemma class_spec k c : class_contains k c = true <-> class_set k c.
  Proof.
    destruct k; cbn [class_contains class_set]; rewrite ?negb_true_iff; unfold word_char;
      rewrite <- ?space_spec, <- ?digit_spec, ?not_true_iff_false; tauto.
  Qed.

  Lemma glit_spec g c : glit_contains g c = true <-> glit_set g c.
  Proof.
    destruct g; cbn; [|apply class_spec|].
    - rewrite N.eqb_eq. split; congruence.
    - rewrite andb_true_iff, !N.leb_le. tauto.
  Qed.

  Lemma lit_spec l c : lit_contains l c = true <-> lit_set l c.
  Proof.
    destruct l as [m|k|neg gs]; cbn [lit_contains lit_set]; [|apply class_spec|].
    - rewrite N.eqb_eq. split; congruence.
    - assert (H : existsb (fun g => glit_contains g c) gs = true <-> exists g, In g gs /\ glit_set g c).
      { rewrite existsb_exists. split; intros (g & H1 & H2); exists g; rewrite ?glit_spec in *; auto. }
      destruct neg; rewrite <- H; destruct (existsb _ _); cbn; intuition congruence.
  Qed.
End RegexProofs.
