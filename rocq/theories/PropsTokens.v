(** Property C63: the tokens of every pattern text. *)
From Verif Require Import Base RegexModel SpecRegex SpecPattern SpecTokens RegexProofs RegexAcceptProofs RegexTokens.

(** C63: for every text, the tokens with their positions are exactly those of the
    specification. *)
Theorem C63_tokens {env : Env} w l : tokens_of w = l <-> tokenizes 0 w l.
Proof. exact (tokens_ok w l). Qed.
Print Assumptions C63_tokens.
(** Every text has exactly one list of tokens. *)
Theorem C63_one_list {env : Env} w : exists! l, tokenizes 0 w l.
Proof. exact (tokens_one w). Qed.
Print Assumptions C63_one_list.
(** C63 and C48 together, from the text to the regex: without the model of the
    tokenizer. *)
Theorem C63_regex {env : Env} w l ks : tokenizes 0 w l -> stream_kinds l = Some ks ->
  (forall e, regex_parse w = Val (ParseOk e) <-> read_as ks e) /\
  ((exists errs, regex_parse w = Val (ParseErr errs)) <-> ~ exists e, read_as ks e).
Proof. exact (tokens_regex w l ks). Qed.
Print Assumptions C63_regex.

(** Escapes of all kinds: [\v\cA\x41\u0042{2,}\u{1F315}\u{41}]; the last one
    is too short and leaves its brace. *)
Example C63_escapes : let _ := ascii_env true in
  tokenizes 0 (str "\v\cA\x41\u0042{2,}\u{1F315}\u{41}"%string)
    [Tok {| tk_kind := TMatch 11; tk_pos := (0, 2) |}; Tok {| tk_kind := TMatch 1; tk_pos := (2, 5) |};
     Tok {| tk_kind := TMatch $"A"; tk_pos := (5, 9) |}; Tok {| tk_kind := TMatch $"B"; tk_pos := (9, 15) |};
     Tok {| tk_kind := TQuant (QMin 2); tk_pos := (15, 19) |}; Tok {| tk_kind := TMatch 127765; tk_pos := (19, 28) |};
     Tok {| tk_kind := TInvalid; tk_pos := (28, 33) |}; Tok {| tk_kind := TMatch $"}"; tk_pos := (33, 34) |}].
Proof. intros env. apply (@C63_tokens env). vm_compute. reflexivity. Qed.
(** One token by the rules alone. *)
Example C63_by_rules : let _ := ascii_env true in
  tokenizes 0 (str "{12"%string) [Tok {| tk_kind := TInvalid; tk_pos := (0, 1) |}].
Proof.
  intros env. apply (tokenizes_token 0 (str "{12"%string) TInvalid [] true []).
  - apply (takes_exactly_cut (str "12"%string) (Some (dec_value (str "12"%string)))).
    + split; [discriminate|]. repeat constructor; unfold digit_char; cbn; lia.
    + apply reads_fits. unfold u32. vm_compute. reflexivity.
  - constructor.
Qed.
(** The numbers around 2^32 with and without overflow checks. *)
Example C63_overflow_checked : let _ := ascii_env true in
  tokenizes 0 (str "a{4294967297}"%string) [Tok {| tk_kind := TMatch $"a"; tk_pos := (0, 1) |}; TokPanic].
Proof. intros env. apply (@C63_tokens env). vm_compute. reflexivity. Qed.
Example C63_overflow_unchecked : let _ := ascii_env false in
  tokenizes 0 (str "{42949672970,4294967300}"%string) [Tok {| tk_kind := TInvalid; tk_pos := (0, 24) |}] /\
  tokenizes 0 (str "{42949672970}"%string) [Tok {| tk_kind := TQuant (QMax 10); tk_pos := (0, 13) |}].
Proof. intros env. split; apply (@C63_tokens env); vm_compute; reflexivity. Qed.
