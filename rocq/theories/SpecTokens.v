(** The tokens of a pattern: which characters make up a token and what it
    means, for every text. *)
From Verif Require Import Base RegexModel SpecRegex.

Definition op_table : list (char * op_kind) :=
  [($"[", OLBracket); ($"]", ORBracket); ($"(", OLParen); ($")", ORParen); ($"^", OCarret); ($"|", OVertical); ($"-", OMinus)].
Definition quant_table : list (char * quant) := [($"*", QAsterisk); ($"+", QPlus); ($"?", QQuestion)].
Definition class_table : list (char * class_kind) :=
  [($"w", CWord); ($"W", CNonWord); ($"d", CDigit); ($"D", CNonDigit); ($"s", CWhitespace); ($"S", CNonWhitespace)].
(** Escaped characters that stand for another one. *)
Definition escape_table : list (char * char) :=
  [($"f", 12); ($"n", 10); ($"r", 13); ($"t", 9); ($"v", 11); ($"0", 0)]%N.
(** Escaped characters that stand for themselves. *)
Definition quoted : list char := str "^$\.*+?()[]|/{-}"%string.

(** The n-th letter of the alphabet. *)
Definition letter (c : char) (n : N) : Prop := (1 <= n <= 26 /\ (c = 64 + n \/ c = 96 + n))%N.

(** The character with a code, if there is one. *)
Inductive coded (n : N) : token_kind -> Prop :=
| coded_char : scalar n -> coded n (TMatch n)
| coded_none : ~ scalar n -> coded n TInvalid.

Definition two32 : N := 4294967296.

Definition no_digit_next (rest : list char) : Prop :=
  match rest with [] => True | c :: _ => ~ digit_char c end.

Section Tokens.
  Context {env : Env}.

  (** The number read from a digit string: none if it does not fit, but the four
      numbers from 2^32 on are read as 0 to 3 if overflows are not checked. *)
  Inductive reads : list char -> option N -> Prop :=
  | reads_fits ds : u32 (dec_value ds) -> reads ds (Some (dec_value ds))
  | reads_big u d v : u32 (dec_value u) -> (two32 + 4 <= dec_value (u ++ [d]))%N -> reads (u ++ d :: v) None
  | reads_around u v n o : overflow_checks = false -> dec_value u = (two32 + n)%N -> (n < 4)%N ->
      reads (48 + n :: v)%N o -> reads (u ++ v) o.

  Definition bounded (f : N -> quant) (o : option N) : token_kind :=
    match o with Some n => TQuant (f n) | None => TInvalid end.
  Definition ranged (o1 o2 : option N) : token_kind :=
    match o1, o2 with Some a, Some b => TQuant (QRange a b) | _, _ => TInvalid end.

  (** [takes w k r cut]: the text [w] begins with a token of kind [k], followed
      by [r]; [cut] says that the end of the text was found where the token needed
      another character. *)
  Inductive takes : list char -> token_kind -> list char -> bool -> Prop :=
  | takes_char c r : ~ In c (str "\.[]()^|-*+?{"%string) -> takes (c :: r) (TMatch c) r false
  | takes_wildcard r : takes ($"." :: r) (TClass CWildcard) r false
  | takes_op c o r : In (c, o) op_table -> takes (c :: r) (TOp o) r false
  | takes_quant c q r : In (c, q) quant_table -> takes (c :: r) (TQuant q) r false
  (** Escapes *)
  | takes_class c k r : In (c, k) class_table -> takes ($"\" :: c :: r) (TClass k) r false
  | takes_escape c x r : In (c, x) escape_table -> takes ($"\" :: c :: r) (TMatch x) r false
  | takes_quoted c r : In c quoted -> takes ($"\" :: c :: r) (TMatch c) r false
  | takes_control c n r : letter c n -> takes ($"\" :: $"c" :: c :: r) (TMatch n) r false
  | takes_control_bad c r : (forall n, ~ letter c n) -> takes ($"\" :: $"c" :: c :: r) TInvalid r false
  | takes_control_cut : takes [$"\"; $"c"] TInvalid [] true
  | takes_x hs ds k r : Forall2 hex_digit hs ds -> no_hex_next r -> length hs = 2 -> coded (hex_value 0 ds) k ->
      takes ($"\" :: $"x" :: hs ++ r) k r false
  | takes_x_bad hs ds r : Forall2 hex_digit hs ds -> no_hex_next r -> length hs <> 2 ->
      takes ($"\" :: $"x" :: hs ++ r) TInvalid r false
  (** Any number of digits is taken, and the code is what is left of their
      value in 32 bits. *)
  | takes_u hs ds k r : Forall2 hex_digit hs ds -> no_hex_next r -> hs <> [] -> coded (hex_value 0 ds mod two32)%N k ->
      takes ($"\" :: $"u" :: hs ++ r) k r false
  | takes_u_bad c r : ~ is_hex c -> c <> $"{" -> takes ($"\" :: $"u" :: c :: r) TInvalid r false
  | takes_u_cut : takes [$"\"; $"u"] TInvalid [] true
  | takes_brace hs ds k r : Forall2 hex_digit hs ds -> 4 <= length hs -> coded (hex_value 0 ds mod two32)%N k ->
      takes ($"\" :: $"u" :: $"{" :: hs ++ $"}" :: r) k r false
  | takes_brace_short hs ds r : Forall2 hex_digit hs ds -> no_hex_next r -> length hs < 4 ->
      takes ($"\" :: $"u" :: $"{" :: hs ++ r) TInvalid r false
  | takes_brace_bad hs ds c r : Forall2 hex_digit hs ds -> 4 <= length hs -> ~ is_hex c -> c <> $"}" ->
      takes ($"\" :: $"u" :: $"{" :: hs ++ c :: r) TInvalid r false
  | takes_brace_cut hs ds : Forall2 hex_digit hs ds -> 4 <= length hs ->
      takes ($"\" :: $"u" :: $"{" :: hs) TInvalid [] true
  | takes_escape_bad c r : ~ In c (map fst class_table ++ map fst escape_table ++ quoted ++ str "cxu"%string) ->
      takes ($"\" :: c :: r) TInvalid r false
  | takes_escape_cut : takes [$"\"] TInvalid [] true
  (** Numbers of repetitions *)
  | takes_exactly ds o r : dec_string ds -> reads ds o ->
      takes ($"{" :: ds ++ $"}" :: r) (bounded QMax o) r false
  | takes_at_least ds o r : dec_string ds -> reads ds o ->
      takes ($"{" :: ds ++ $"," :: $"}" :: r) (bounded QMin o) r false
  | takes_between ds1 ds2 o1 o2 r : dec_string ds1 -> reads ds1 o1 -> dec_string ds2 -> reads ds2 o2 ->
      takes ($"{" :: ds1 ++ $"," :: ds2 ++ $"}" :: r) (ranged o1 o2) r false
  | takes_first_bad c r : ~ digit_char c -> takes ($"{" :: c :: r) TInvalid r false
  | takes_first_cut : takes [$"{"] TInvalid [] true
  | takes_exactly_bad ds o c r : dec_string ds -> reads ds o -> ~ digit_char c -> c <> $"," -> c <> $"}" ->
      takes ($"{" :: ds ++ c :: r) TInvalid r false
  | takes_exactly_cut ds o : dec_string ds -> reads ds o -> takes ($"{" :: ds) TInvalid [] true
  | takes_at_least_bad ds o c r : dec_string ds -> reads ds o -> ~ digit_char c -> c <> $"}" ->
      takes ($"{" :: ds ++ $"," :: c :: r) TInvalid r false
  | takes_at_least_cut ds o : dec_string ds -> reads ds o -> takes ($"{" :: ds ++ [$","]) TInvalid [] true
  | takes_between_bad ds1 ds2 o1 o2 c r : dec_string ds1 -> reads ds1 o1 -> dec_string ds2 -> reads ds2 o2 ->
      ~ digit_char c -> c <> $"}" -> takes ($"{" :: ds1 ++ $"," :: ds2 ++ c :: r) TInvalid r false
  | takes_between_cut ds1 ds2 o1 o2 : dec_string ds1 -> reads ds1 o1 -> dec_string ds2 -> reads ds2 o2 ->
      takes ($"{" :: ds1 ++ $"," :: ds2) TInvalid [] true.

  (** Reading the number overflows, and overflows are checked. *)
  Definition overflows (ds : list char) : Prop :=
    overflow_checks = true /\ dec_string ds /\ (two32 <= dec_value ds < two32 + 4)%N.
  Inductive crashes : list char -> Prop :=
  | crashes_first ds r : overflows ds -> crashes ($"{" :: ds ++ r)
  | crashes_second ds1 ds2 r : dec_string ds1 -> overflows ds2 -> crashes ($"{" :: ds1 ++ $"," :: ds2 ++ r).

  (** The tokens of the text [w] that begins at position [p].  A token that was
      cut off ends at position 1. *)
  Inductive tokenizes : nat -> list char -> list titem -> Prop :=
  | tokenizes_end p : tokenizes p [] []
  | tokenizes_crash p w : crashes w -> tokenizes p w [TokPanic]
  | tokenizes_token p w k r (cut : bool) l : takes w k r cut -> tokenizes (p + (length w - length r)) r l ->
      tokenizes p w (Tok {| tk_kind := k; tk_pos := (p, if cut then 1 else p + (length w - length r)) |} :: l).
End Tokens.
