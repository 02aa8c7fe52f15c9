(** Properties C01, C02, C04-C07, C09: the regex front end. *)
From Verif Require Import Base RegexModel SpecRegex RegexPrintProofs RegexParseProofs RegexProofs.

(** C01: writing a regex of the documented grammar and parsing the text gives
    the regex back. *)
Theorem C01_print_parse_round_trip {env : Env} (e : expr) :
  is_pattern e -> regex_parse (print_expr e) = Val (ParseOk e).
Proof. exact (round_trip e). Qed.
Print Assumptions C01_print_parse_round_trip.

Definition C01_sample : expr :=
  EAlt (EConcat [ELit (LGroup true [GRange ($"a") ($"f"); GClass CDigit; GMatch ($"]")]) (Some (QRange 2 4000000000));
                 EGroup (EAlt (ELit (LMatch ($"*")) None) (EGroup (ELit (LClass CNonWord) (Some QPlus)) None)) (Some (QMin 3))])
       (ELit (LMatch 0%N) None).
Example C01_sample_ok : is_pattern C01_sample.
Proof.
  right. apply is_expr_alt.
  - apply is_sub_many; [| |constructor].
    + constructor. cbn. unfold u32. lia.
    + apply is_item_group; [|cbn; unfold u32; lia]. apply is_expr_alt.
      * do 2 constructor. exact I.
      * do 3 constructor; [|exact I]. do 3 constructor. exact I.
  - do 3 constructor. exact I.
Qed.
Example C01_sample_text :
  print_expr C01_sample = str "[^a-f\d\]]{2,4000000000}(\*|(\W+)){3,}|\0"%string.
Proof. reflexivity. Qed.

(** C02 is false: the pattern [a)b] is accepted as [a]. *)
Theorem C02_pattern_interpreted_completely_refuted :
  ~ (forall (env : Env) w e, regex_parse w = Val (ParseOk e) ->
       stream_kinds (tokens_of w) = Some (expr_tokens e)).
Proof.
  intros H. specialize (H (ascii_env true) (str "a)b"%string) (ELit (LMatch ($"a")) None) eq_refl).
  discriminate H.
Qed.
Print Assumptions C02_pattern_interpreted_completely_refuted.

(** C02, what holds: the regex is written with a prefix of the tokens, and what
    is dropped starts with a [)].  If every [)] of the pattern has a [(] before it,
    nothing is dropped.  Missing: patterns with a stray [)]. *)
Theorem C02_pattern_interpreted_completely_partial {env : Env} w e :
  regex_parse w = Val (ParseOk e) ->
  (exists ts rest, tokens_of w = map Tok ts ++ rest /\ map tk_kind ts = expr_tokens e /\
     (rest = [] \/ exists t r, rest = Tok t :: r /\ tk_kind t = TOp ORParen)) /\
  (forall ks, stream_kinds (tokens_of w) = Some ks -> balanced ks -> ks = expr_tokens e).
Proof.
  intros H. split; [|exact (fun ks => parse_balanced w e ks H)].
  destruct (regex_parse_ok w e H) as (rest & (ts & E1 & E2) & Hend & _).
  exists ts, rest. repeat split; auto. destruct Hend as [->|Hend]; [left; reflexivity|right].
  destruct rest as [|[t|] r]; try discriminate. injection Hend as Hend. eauto.
Qed.
Print Assumptions C02_pattern_interpreted_completely_partial.
Example C02_balanced_sample : let _ := ascii_env true in
  exists e ks, regex_parse (str "(a|b)*c"%string) = Val (ParseOk e) /\
    stream_kinds (tokens_of (str "(a|b)*c"%string)) = Some ks /\ ks = expr_tokens e /\ length ks = 7.
Proof. do 2 eexists. repeat split; reflexivity. Qed.

(** C04: tokenizing delivers at most one token per character and is finished
    within the fuel used, and the parser always answers. *)
Theorem C04_regex_parsing_terminates {env : Env} w :
  length (tokens_of w) <= length w /\
  (forall fuel, length w < fuel -> tok_stream fuel (ts_init w) = tokens_of w) /\
  (forall fuel, parse_fuel (tokens_of w) <= fuel -> p_parse fuel (tokens_of w) <> PFuel) /\
  regex_parse w <> Diverge.
Proof.
  split; [apply tokens_length|]. split; [|split; [|apply regex_parse_total]].
  - intros fuel Hf. apply RegexTokProofs.tok_stream_fuel; lia.
  - intros fuel Hf. unfold p_parse, p_peek. cbn [ps_toks]. destruct (tokens_of w) as [|[t|] r] eqn:E; try discriminate.
    rewrite <- E. apply (proj1 (parser_fuel _)). cbn [ps_toks]. unfold parse_fuel in Hf. rewrite <- E in Hf. lia.
Qed.
Print Assumptions C04_regex_parsing_terminates.
Example C04_sample : let _ := ascii_env true in
  length (tokens_of (str "((((a\x41{2,3}"%string)) = 7.
Proof. reflexivity. Qed.

(** C05 is false: a token cut off by the end of the pattern reports its end
    as 1. *)
Theorem C05_spans_tile_refuted :
  ~ (forall (env : Env) w ts, tokens_of w = map Tok ts -> spans_tile 0 (length w) (map tk_pos ts)).
Proof.
  intros H. specialize (H (ascii_env true) (str "ab\"%string)
    [{| tk_kind := TMatch ($"a"); tk_pos := (0, 1) |}; {| tk_kind := TMatch ($"b"); tk_pos := (1, 2) |};
     {| tk_kind := TInvalid; tk_pos := (2, 1) |}] eq_refl).
  cbn in H. repeat match goal with H : spans_tile _ _ (_ :: _) |- _ => inversion H; subst; clear H end. lia.
Qed.
Print Assumptions C05_spans_tile_refuted.

(** C05, what holds: the spans tile the pattern, except that the last token may
    be an invalid one whose end is reported as 1.  Missing: the end of that token. *)
Theorem C05_spans_tile_partial {env : Env} w ts : tokens_of w = map Tok ts ->
  spans_tile 0 (length w) (map tk_pos ts) \/
  exists ts' s, ts = ts' ++ [{| tk_kind := TInvalid; tk_pos := (s, 1) |}] /\
                spans_tile 0 s (map tk_pos ts') /\ s < length w.
Proof. exact (tokens_spans w ts). Qed.
Print Assumptions C05_spans_tile_partial.
Example C05_sample : let _ := ascii_env true in
  exists ts, tokens_of (str "a{12}\d[\x41]"%string) = map Tok ts /\
             map tk_pos ts = [(0, 1); (1, 5); (5, 7); (7, 8); (8, 12); (12, 13)].
Proof. eexists [_; _; _; _; _; _]. split; reflexivity. Qed.

(** C06 is false: [a{4294967296}] is read as [a{0}] in builds without overflow
    checks, and panics in builds with them. *)
Theorem C06_bounds_exact_or_rejected_refuted :
  ~ (forall (env : Env) ds, dec_string ds -> ~ u32 (dec_value ds) ->
       exists errs, regex_parse (str "a{"%string ++ ds ++ str "}"%string) = Val (ParseErr errs)) /\
  (let _ := ascii_env false in
   regex_parse (str "a{4294967296}"%string) = Val (ParseOk (ELit (LMatch ($"a")) (Some (QMax 0))))) /\
  (let _ := ascii_env true in regex_parse (str "a{4294967296}"%string) = Panic).
Proof.
  split; [|split; reflexivity]. intros H.
  destruct (H (ascii_env false) (str "4294967296"%string)) as (errs & E).
  - split; [discriminate|]. repeat constructor; unfold digit_char; cbn; lia.
  - unfold u32. change (dec_value (str "4294967296"%string)) with 4294967296%N. lia.
  - discriminate E.
Qed.
Print Assumptions C06_bounds_exact_or_rejected_refuted.

(** C06, what holds for every digit string without a prefix whose value is one of
    2^32 .. 2^32+3, in both builds and before any text: the number is read exactly if
    it fits, and the token is invalid otherwise.  On a literal this means: the
    quantifier with exactly this number, or rejection.  Missing: digit strings
    with such a prefix. *)
Theorem C06_bounds_exact_or_rejected_partial {env : Env} ds1 ds2 rest l :
  dec_string ds1 -> clear_digits ds1 -> dec_string ds2 -> clear_digits ds2 ->
  (stream_kinds (tokens_of ($"{" :: ds1 ++ $"}" :: rest)) =
     option_map (cons (match fits ds1 with Some n => TQuant (QMax n) | None => TInvalid end))
                (stream_kinds (tokens_of rest))) /\
  (stream_kinds (tokens_of ($"{" :: ds1 ++ $"," :: $"}" :: rest)) =
     option_map (cons (match fits ds1 with Some n => TQuant (QMin n) | None => TInvalid end))
                (stream_kinds (tokens_of rest))) /\
  (stream_kinds (tokens_of ($"{" :: ds1 ++ $"," :: ds2 ++ $"}" :: rest)) =
     option_map (cons (match fits ds1, fits ds2 with
                       | Some n, Some m => TQuant (QRange n m)
                       | _, _ => TInvalid end))
                (stream_kinds (tokens_of rest))) /\
  match fits ds1 with
  | Some n => regex_parse (print_lit l ++ $"{" :: ds1 ++ [$"}"]) = Val (ParseOk (ELit l (Some (QMax n)))) /\
              regex_parse (print_lit l ++ $"{" :: ds1 ++ [$","; $"}"]) = Val (ParseOk (ELit l (Some (QMin n))))
  | None => (exists errs, regex_parse (print_lit l ++ $"{" :: ds1 ++ [$"}"]) = Val (ParseErr errs)) /\
            (exists errs, regex_parse (print_lit l ++ $"{" :: ds1 ++ [$","; $"}"]) = Val (ParseErr errs))
  end /\
  match fits ds1, fits ds2 with
  | Some n, Some m =>
      regex_parse (print_lit l ++ $"{" :: ds1 ++ $"," :: ds2 ++ [$"}"]) = Val (ParseOk (ELit l (Some (QRange n m))))
  | _, _ => exists errs, regex_parse (print_lit l ++ $"{" :: ds1 ++ $"," :: ds2 ++ [$"}"]) = Val (ParseErr errs)
  end.
Proof.
  intros H1 C1 H2 C2.
  split; [exact (kinds_max ds1 rest H1 C1)|]. split; [exact (kinds_min ds1 rest H1 C1)|].
  split; [exact (kinds_range ds1 ds2 rest H1 C1 H2 C2)|].
  pose proof (parse_quantified l _ _ (kinds_max ds1 [] H1 C1)) as P1.
  pose proof (parse_quantified l _ _ (kinds_min ds1 [] H1 C1)) as P2.
  pose proof (parse_quantified l _ _ (kinds_range ds1 ds2 [] H1 C1 H2 C2)) as P3.
  assert (F : forall ds n, fits ds = Some n -> u32 n).
  { intros ds n. unfold fits, u32. destruct (_ <? _)%N eqn:E; [|discriminate]. intros [= <-]. apply N.ltb_lt. exact E. }
  destruct (fits ds1) as [n|] eqn:E1, (fits ds2) as [m|] eqn:E2; cbn in P1, P2, P3; repeat split; auto;
    try (destruct P1 as [P1|P1]; [assumption|contradiction (P1 (F _ _ E1))]);
    try (destruct P2 as [P2|P2]; [assumption|contradiction (P2 (F _ _ E1))]);
    try (destruct P3 as [P3|P3]; [assumption|contradiction (P3 (conj (F _ _ E1) (F _ _ E2)))]).
Qed.
Print Assumptions C06_bounds_exact_or_rejected_partial.
Example C06_sample_fits : dec_string (str "4294967295"%string) /\ clear_digits (str "4294967295"%string) /\
  fits (str "4294967295"%string) = Some 4294967295%N.
Proof.
  repeat split; try discriminate.
  - repeat constructor; unfold digit_char; cbn; lia.
  - apply fits_clear. unfold u32. change (dec_value (str "4294967295"%string)) with 4294967295%N. lia.
Qed.
Example C06_sample_big : dec_string (str "4294967300"%string) /\ clear_digits (str "4294967300"%string) /\
  fits (str "4294967300"%string) = None.
Proof.
  repeat split; try discriminate.
  - repeat constructor; unfold digit_char; cbn; lia.
  - intros u v E. do 11 (destruct u as [|? u]; [cbn; lia|injection E as <- E || discriminate E]).
Qed.

(** C07 is false: a hexadecimal digit after the escape is swallowed. *)
Theorem C07_escapes_exact_refuted :
  ~ (forall (env : Env) rest,
       stream_kinds (tokens_of (str "\x41"%string ++ rest)) =
       option_map (cons (TMatch 0x41)) (stream_kinds (tokens_of rest))) /\
  ~ (forall (env : Env) rest,
       stream_kinds (tokens_of (str "\u27A1"%string ++ rest)) =
       option_map (cons (TMatch 0x27A1)) (stream_kinds (tokens_of rest))) /\
  (forall env : Env,
     stream_kinds (tokens_of (str "\u27A1b"%string)) = Some [TMatch 0x27A1B]) /\
  (forall env : Env,
     stream_kinds (tokens_of (str "\u{100000041}"%string)) = Some [TMatch 0x41]) /\
  (forall env : Env,
     stream_kinds (tokens_of (str "\u{41}"%string)) <> Some [TMatch 0x41]).
Proof.
  repeat split.
  - intros H. specialize (H (ascii_env true) (str "b"%string)). discriminate H.
  - intros H. specialize (H (ascii_env true) (str "b"%string)). discriminate H.
  - intros env. discriminate.
Qed.
Print Assumptions C07_escapes_exact_refuted.

(** C07, what holds: exact if the text after [\xHH] and [\uHHHH] does not start
    with a hexadecimal digit, and for [\u{H..}] with at least four digits and a value below
    2^32 (whatever follows).  A code that is no character gives an invalid token. *)
Theorem C07_escapes_exact_partial {env : Env} h1 h2 h3 h4 d1 d2 d3 d4 us ds rest :
  hex_digit h1 d1 -> hex_digit h2 d2 -> hex_digit h3 d3 -> hex_digit h4 d4 ->
  Forall2 hex_digit us ds -> 4 <= length us -> u32 (hex_value 0 ds) ->
  let ks := stream_kinds (tokens_of rest) in
  (no_hex_next rest ->
     stream_kinds (tokens_of (str "\x"%string ++ [h1; h2] ++ rest)) =
     option_map (cons (TMatch (hex_value 0 [d1; d2]))) ks) /\
  (no_hex_next rest -> scalar (hex_value 0 [d1; d2; d3; d4]) ->
     stream_kinds (tokens_of (str "\u"%string ++ [h1; h2; h3; h4] ++ rest)) =
     option_map (cons (TMatch (hex_value 0 [d1; d2; d3; d4]))) ks) /\
  (no_hex_next rest -> ~ scalar (hex_value 0 [d1; d2; d3; d4]) ->
     stream_kinds (tokens_of (str "\u"%string ++ [h1; h2; h3; h4] ++ rest)) =
     option_map (cons TInvalid) ks) /\
  (scalar (hex_value 0 ds) ->
     stream_kinds (tokens_of (str "\u{"%string ++ us ++ str "}"%string ++ rest)) =
     option_map (cons (TMatch (hex_value 0 ds))) ks) /\
  (~ scalar (hex_value 0 ds) ->
     stream_kinds (tokens_of (str "\u{"%string ++ us ++ str "}"%string ++ rest)) =
     option_map (cons TInvalid) ks).
Proof.
  intros H1 H2 H3 H4 H5 Hl Hv ks. repeat split.
  - intros Hn. exact (tstep_kinds _ _ _ (tstep_x h1 h2 d1 d2 rest H1 H2 Hn)).
  - intros Hn Hs. rewrite <- (char_token_scalar _ Hs).
    exact (tstep_kinds _ _ _ (tstep_u4 h1 h2 h3 h4 d1 d2 d3 d4 rest H1 H2 H3 H4 Hn)).
  - intros Hn Hs. rewrite <- (char_token_not_scalar _ Hs).
    exact (tstep_kinds _ _ _ (tstep_u4 h1 h2 h3 h4 d1 d2 d3 d4 rest H1 H2 H3 H4 Hn)).
  - intros Hs. rewrite <- (char_token_scalar _ Hs). exact (tstep_kinds _ _ _ (tstep_ubrace us ds rest H5 Hl Hv)).
  - intros Hs. rewrite <- (char_token_not_scalar _ Hs). exact (tstep_kinds _ _ _ (tstep_ubrace us ds rest H5 Hl Hv)).
Qed.
Print Assumptions C07_escapes_exact_partial.
Example C07_sample : let _ := ascii_env true in
  stream_kinds (tokens_of (str "\x41-\u27A1z\u{1F315}a"%string)) =
  Some [TMatch 0x41; TOp OMinus; TMatch 0x27A1; TMatch ($"z"); TMatch 0x1F315; TMatch ($"a")].
Proof. reflexivity. Qed.
Example C07_hyps : hex_digit ($"4") 4 /\ hex_digit ($"F") 15 /\ no_hex_next (str "-"%string) /\ scalar 0x1F315.
Proof.
  unfold scalar. repeat split; try lia.
  - left. cbn; lia.
  - right; right; cbn; lia.
  - intros [d Hd]. unfold hex_digit in Hd. cbn in Hd. lia.
Qed.

(** C09: membership in a literal is membership in the documented set. *)
Theorem C09_character_sets {env : Env} (l : lit) (c : char) :
  lit_contains l c = true <-> lit_set l c.
Proof. exact (lit_spec l c). Qed.
Print Assumptions C09_character_sets.
Example C09_sample : let _ := ascii_env true in
  lit_contains (LGroup true [GRange ($"a") ($"f"); GClass CDigit]) ($"g") = true /\
  lit_contains (LGroup true [GRange ($"a") ($"f"); GClass CDigit]) ($"f") = false.
Proof. split; reflexivity. Qed.
