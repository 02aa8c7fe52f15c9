(** Model of pango-lexer/src/regex: tokenizer, syntax tree and parser. *)
From Verif Require Import Base.

(** ** Syntax *)

(** tokenizer.rs:48-59 [ClassKind]. *)
Inductive class_kind := CWildcard | CWord | CWhitespace | CDigit | CNonWord | CNonDigit | CNonWhitespace.

(** tokenizer.rs:61-71 [OperatorKind]. *)
Inductive op_kind := OLBracket | ORBracket | OLParen | ORParen | OCarret | OVertical | OMinus.

(** tokenizer.rs:73-90 [QuantifierKind] and [QuantifierRangeKind]; the [u32]
    bounds are numbers below 2^32. *)
Inductive quant := QAsterisk | QPlus | QQuestion | QMax (n : N) | QMin (n : N) | QRange (a b : N).

(** tokenizer.rs:38-46 [TokenKind]. *)
Inductive token_kind :=
| TClass (k : class_kind)
| TOp (o : op_kind)
| TQuant (q : quant)
| TMatch (c : char)
| TInvalid.

(** tokenizer.rs:20-29 [Token]. *)
Record token := { tk_kind : token_kind; tk_pos : nat * nat }.

(** ast.rs:51-61 [GroupedLiteralKind]. *)
Inductive glit := GMatch (c : char) | GClass (k : class_kind) | GRange (a b : char).

(** ast.rs:36-49 [LiteralKind]. *)
Inductive lit := LMatch (c : char) | LClass (k : class_kind) | LGroup (negated : bool) (ls : list glit).

(** ast.rs:21-34 [ExprKind]. *)
Inductive expr :=
| EConcat (es : list expr)
| EEmpty
| EAlt (l r : expr)
| ELit (l : lit) (q : option quant)
| EGroup (e : expr) (q : option quant).

(** ** Character sets *)

Open Scope N_scope.

(** [char::is_ascii_digit] (standard library). *)
Definition is_ascii_digit (c : char) : bool := (48 <=? c) && (c <=? 57).

(** [char::is_whitespace] (standard library): the Unicode White_Space
    property. *)
Definition is_whitespace (c : char) : bool :=
  ((9 <=? c) && (c <=? 13)) || (c =? 32) || (c =? 0x85) || (c =? 0xA0) || (c =? 0x1680)
  || ((0x2000 <=? c) && (c <=? 0x200A)) || (c =? 0x2028) || (c =? 0x2029) || (c =? 0x202F)
  || (c =? 0x205F) || (c =? 0x3000).

Section Chars.
  Context {env : Env}.

  (** tokenizer.rs:418-431 [ClassKind::contains]. *)
  Definition class_contains (k : class_kind) (c : char) : bool :=
    match k with
    | CWildcard => true
    | CWord => is_alphabetic c
    | CWhitespace => is_whitespace c
    | CDigit => is_ascii_digit c
    | CNonWord => negb (is_alphabetic c)
    | CNonDigit => negb (is_ascii_digit c)
    | CNonWhitespace => negb (is_whitespace c)
    end.

  (** ast.rs:84-93 [GroupedLiteralKind::contains]. *)
  Definition glit_contains (g : glit) (c : char) : bool :=
    match g with
    | GMatch m => m =? c
    | GClass k => class_contains k c
    | GRange a b => (a <=? c) && (c <=? b)
    end.

  (** ast.rs:63-82 [LiteralKind::contains] and [W<Vec<..>>::contains]. *)
  Definition lit_contains (l : lit) (c : char) : bool :=
    match l with
    | LMatch m => m =? c
    | LClass k => class_contains k c
    | LGroup negated ls => xorb (existsb (fun g => glit_contains g c) ls) negated
    end.
End Chars.

(** tokenizer.rs:402-416 [QuantifierKind::is_satisfied]; a [u32] cast to
    [usize] is lossless (32 or 64 bit target). *)
Definition is_satisfied (q : quant) (count : nat) : bool :=
  let n := N.of_nat count in
  match q with
  | QAsterisk => true
  | QPlus => 0 <? n
  | QQuestion => n <=? 1
  | QMax m => n =? m
  | QMin m => m <=? n
  | QRange a b => (a <=? n) && (n <=? b)
  end.

(** ** Tokenizer *)

(** [CachedPeekable<Enumerate<Chars>>] (tokenizer.rs:17): the characters not
    yet consumed with their positions, and the cached current item.  Iter.v
    models [CachedPeekable] itself, and theorem C24 shows it behaves like
    this: peeking does not change what the client sees. *)
Record tstate := { ts_rest : list (nat * char); ts_cur : option (option (nat * char)) }.

Definition ts_next (s : tstate) : option (nat * char) * tstate :=
  match ts_rest s with
  | [] => (None, {| ts_rest := []; ts_cur := Some None |})
  | x :: r => (Some x, {| ts_rest := r; ts_cur := Some (Some x) |})
  end.

Definition u32_limit : N := 4294967296.

(** [char::to_digit(10)] (standard library). *)
Definition to_digit10 (c : char) : option N :=
  if is_ascii_digit c then Some (c - 48) else None.

(** [char::to_digit(16)] (standard library). *)
Definition to_digit16 (c : char) : option N :=
  if is_ascii_digit c then Some (c - 48)
  else if (97 <=? c) && (c <=? 102) then Some (c - 87)
  else if (65 <=? c) && (c <=? 70) then Some (c - 55)
  else None.

(** [char::from_u32] (standard library). *)
Definition char_from_u32 (n : N) : option char :=
  if (n <? 0xD800) || ((0xDFFF <? n) && (n <? 0x110000)) then Some n else None.

(** [cautious_map_while] drained by [fold] (tokenizer.rs:374-388): take the
    longest run of characters on which [f] is defined. *)
Fixpoint take_map_while (f : char -> option N) (rest : list (nat * char))
    (cur : option (option (nat * char))) : list N * tstate :=
  match rest with
  | [] => ([], {| ts_rest := []; ts_cur := cur |})
  | (p, c) :: r =>
      match f c with
      | Some d => let '(ds, s) := take_map_while f r (Some (Some (p, c))) in (d :: ds, s)
      | None => ([], {| ts_rest := rest; ts_cur := cur |})
      end
  end.

Definition ts_take (f : char -> option N) (s : tstate) : list N * tstate :=
  take_map_while f (ts_rest s) (ts_cur s).

(** Body of the fold at tokenizer.rs:378 on the number: [(n << 4) + d]; the
    shift drops the high bits and the addition cannot overflow. *)
Definition hex_step (n d : N) : N := (n * 16) mod u32_limit + d.

(** tokenizer.rs:356-380 [take_next_hexadecimals_and_convert_to_u32].  The
    two assertions hold at every call site (2, 5 and 4 digits; the start digit
    comes from [to_digit(16)]), and the argument [max_digits] has no other
    use, so it is dropped.  The digit count is unbounded. *)
Definition take_hex (start : option N) (s : tstate) : (nat * N) * tstate :=
  let '(count, n) := match start with Some d => (1%nat, d) | None => (0%nat, 0) end in
  let '(ds, s') := ts_take to_digit16 s in
  ((count + length ds)%nat, fold_left hex_step ds n, s').

Section Tokenizer.
  Context {env : Env}.

  (** Body of the fold at tokenizer.rs:387: [Some(acc?.checked_mul(10)? + d)].
      The multiplication is checked, the addition is not: it panics or wraps
      depending on the build. *)
  Definition dec_step (acc : res (option N)) (d : N) : res (option N) :=
    let! a := acc in
    match a with
    | None => Val None
    | Some n =>
        if n * 10 <? u32_limit then
          if n * 10 + d <? u32_limit then Val (Some (n * 10 + d))
          else if overflow_checks then Panic
          else Val (Some ((n * 10 + d) mod u32_limit))
        else Val None
    end.

  (** tokenizer.rs:384-388 [take_next_decimals_and_convert_to_u32]; every call
      passes [Some] digit. *)
  Definition take_dec (start : N) (s : tstate) : res (option N * tstate) :=
    let '(ds, s') := ts_take to_digit10 s in
    let! v := fold_left dec_step ds (Val (Some start)) in
    Val (v, s').

  (** tokenizer.rs:147-215, the range quantifier after its [{]. *)
  Definition handle_range (s : tstate) : res (token_kind * tstate) :=
    let '(o1, s1) := ts_next s in
    match o1 with
    | None => Val (TInvalid, s1)
    | Some (_, ch) =>
        match to_digit10 ch with
        | None => Val (TInvalid, s1)
        | Some d =>
            let! (first, s2) := take_dec d s1 in
            let '(o3, s3) := ts_next s2 in
            match o3 with
            | None => Val (TInvalid, s3)
            | Some (_, ch) =>
                let '(o4, s4, comma) :=
                  if ch =? $"," then let '(o, s') := ts_next s3 in (o, s', true)
                  else (o3, s3, false) in
                match o4 with
                | None => Val (TInvalid, s4)
                | Some (_, ch) =>
                    if ch =? $"}" then
                      match first with
                      | None => Val (TInvalid, s4)
                      | Some v => Val (TQuant (if comma then QMin v else QMax v), s4)
                      end
                    else
                      match to_digit10 ch with
                      | None => Val (TInvalid, s4)
                      | Some d2 =>
                          let! (second, s5) := take_dec d2 s4 in
                          let '(o6, s6) := ts_next s5 in
                          match o6 with
                          | None => Val (TInvalid, s6)
                          | Some (_, ch) =>
                              if ch =? $"}" then
                                match first, second with
                                | Some a, Some b => Val (TQuant (QRange a b), s6)
                                | _, _ => Val (TInvalid, s6)
                                end
                              else Val (TInvalid, s6)
                          end
                      end
                end
            end
        end
    end.

  Definition match_or_invalid (o : option char) : token_kind :=
    match o with Some c => TMatch c | None => TInvalid end.

  (** tokenizer.rs:269-283, the [\c] escape. *)
  Definition handle_control (s : tstate) : option char * tstate :=
    let '(o, s') := ts_next s in
    match o with
    | None => (None, s')
    | Some (_, ch) =>
        if ((97 <=? ch) && (ch <=? 122)) || ((65 <=? ch) && (ch <=? 90))
        then (Some (ch mod 32), s') else (None, s')
    end.

  (** tokenizer.rs:291-305, the [\x] escape. *)
  Definition handle_x (s : tstate) : option char * tstate :=
    let '(count, code, s') := take_hex None s in
    if (count =? 2)%nat then (char_from_u32 code, s') else (None, s').

  (** tokenizer.rs:306-347, the [\u] escape. *)
  Definition handle_u (s : tstate) : option char * tstate :=
    let '(o, s1) := ts_next s in
    match o with
    | None => (None, s1)
    | Some (_, ch) =>
        if ch =? $"{" then
          let '(count, code, s2) := take_hex None s1 in
          if (count <? 4)%nat then (None, s2)
          else
            let '(o3, s3) := ts_next s2 in
            match o3 with
            | None => (None, s3)
            | Some (_, b) => if b =? $"}" then (char_from_u32 code, s3) else (None, s3)
            end
        else
          match to_digit16 ch with
          | None => (None, s1)
          | Some d =>
              let '(_, code, s2) := take_hex (Some d) s1 in
              (char_from_u32 code, s2)
          end
    end.

  (** tokenizer.rs:246-257 [handle_class]. *)
  Definition class_of (ch : char) : option class_kind :=
    if ch =? $"w" then Some CWord
    else if ch =? $"W" then Some CNonWord
    else if ch =? $"d" then Some CDigit
    else if ch =? $"D" then Some CNonDigit
    else if ch =? $"s" then Some CWhitespace
    else if ch =? $"S" then Some CNonWhitespace
    else None.

  (** tokenizer.rs:261-268, the one-character escapes of
      [handle_escape_sequence]. *)
  Definition simple_escape (ch : char) : option char :=
    if ch =? $"f" then Some 0xc
    else if ch =? $"n" then Some 10
    else if ch =? $"r" then Some 13
    else if ch =? $"t" then Some 9
    else if ch =? $"v" then Some 0xb
    else if ch =? $"0" then Some 0
    else if existsb (N.eqb ch) (str "^$\.*+?()[]|/{-}"%string) then Some ch
    else None.

  (** tokenizer.rs:223-244 [handle_class_or_escape_sequence]. *)
  Definition handle_escape (s : tstate) : token_kind * tstate :=
    let '(o, s1) := ts_next s in
    match o with
    | None => (TInvalid, s1)
    | Some (_, ch) =>
        match class_of ch with
        | Some k => (TClass k, s1)
        | None =>
            match simple_escape ch with
            | Some c => (TMatch c, s1)
            | None =>
                if ch =? $"c" then let '(r, s2) := handle_control s1 in (match_or_invalid r, s2)
                else if ch =? $"x" then let '(r, s2) := handle_x s1 in (match_or_invalid r, s2)
                else if ch =? $"u" then let '(r, s2) := handle_u s1 in (match_or_invalid r, s2)
                else (TInvalid, s1)
            end
        end
    end.

  (** tokenizer.rs:126-140 [handle_operators]. *)
  Definition op_of (ch : char) : option op_kind :=
    if ch =? $"[" then Some OLBracket
    else if ch =? $"]" then Some ORBracket
    else if ch =? $"(" then Some OLParen
    else if ch =? $")" then Some ORParen
    else if ch =? $"^" then Some OCarret
    else if ch =? $"|" then Some OVertical
    else if ch =? $"-" then Some OMinus
    else None.

  (** tokenizer.rs:98-105 and 142-146: dispatch on the first character of a
      token. *)
  Definition token_kind_at (ch : char) (s : tstate) : res (token_kind * tstate) :=
    if ch =? $"\" then Val (handle_escape s)
    else if ch =? $"." then Val (TClass CWildcard, s)
    else match op_of ch with
         | Some o => Val (TOp o, s)
         | None =>
             if ch =? $"*" then Val (TQuant QAsterisk, s)
             else if ch =? $"+" then Val (TQuant QPlus, s)
             else if ch =? $"?" then Val (TQuant QQuestion, s)
             else if ch =? $"{" then handle_range s
             else Val (TMatch ch, s)
         end.

  (** tokenizer.rs:394-399 [get_token_end_cursor_pos]. *)
  Definition token_end (s : tstate) : nat :=
    match ts_cur s with
    | Some (Some (p, _)) => (p + 1)%nat
    | _ => 1%nat
    end.

  (** tokenizer.rs:95-114 [Tokenizer::next]. *)
  Definition tok_next (s : tstate) : res (option token * tstate) :=
    let '(o, s1) := ts_next s in
    match o with
    | None => Val (None, s1)
    | Some (p, ch) =>
        let! (k, s2) := token_kind_at ch s1 in
        Val (Some {| tk_kind := k; tk_pos := (p, token_end s2) |}, s2)
    end.

  (** What the lazy tokenizer delivers when it is driven: its tokens in order,
      ended by a panic if one of its steps panics. *)
  Inductive titem := Tok (t : token) | TokPanic.

  (** All tokens of the input.  The fuel bounds the number of tokens; one unit
      per remaining character is always enough ([tok_stream_fuel]). *)
  Fixpoint tok_stream (fuel : nat) (s : tstate) : list titem :=
    match fuel with
    | O => []
    | S fuel' =>
        match tok_next s with
        | Val (Some t, s') => Tok t :: tok_stream fuel' s'
        | Val (None, _) => []
        | _ => [TokPanic]
        end
    end.

  (** [str::chars().enumerate()] (tokenizer.rs:122). *)
  Fixpoint enumerate (n : nat) (w : list char) : list (nat * char) :=
    match w with
    | [] => []
    | c :: r => (n, c) :: enumerate (S n) r
    end.

  Definition ts_init (w : list char) : tstate := {| ts_rest := enumerate 0 w; ts_cur := None |}.

  (** tokenizer.rs:117-124 [Tokenizer::new] driven to the end. *)
  Definition tokens_of (w : list char) : list titem := tok_stream (S (length w)) (ts_init w).
End Tokenizer.
Close Scope N_scope.

(** ** Parser *)

(** parser.rs:29-42 [ParseErrorKind]. *)
Inductive perr_kind :=
| PLeftParan | PRightParan | PLeftBracket | PRightBracket | PSubExpression
| PTokenForSubExpression | PMatch | PMatchCharacterClassLeftBracket | PCharacterGroupItem
| PCharacterClassCharacter | PTokenForCharacterGroupItem.

(** parser.rs:22-27 [ParseError]. *)
Record perr := { pe_kind : perr_kind; pe_pos : nat * nat }.

(** parser.rs:12-17 [Parser]: the token stream and the cached current token.
    [Parser::errors] is empty until [parse] returns, so it is not kept. *)
Record pstate := { ps_toks : list titem; ps_cur : option token }.

(** Outcome of a parsing function: [ParseResult], a panic (in the tokenizer),
    or out of fuel. *)
Inductive pres (A : Type) : Type :=
| POk (a : A) (s : pstate)
| PErr (e : list perr)
| PPanic
| PFuel.
Arguments POk {A} a s.
Arguments PErr {A} e.
Arguments PPanic {A}.
Arguments PFuel {A}.

Definition pbind {A B} (x : pres A) (f : A -> pstate -> pres B) : pres B :=
  match x with
  | POk a s => f a s
  | PErr e => PErr e
  | PPanic => PPanic
  | PFuel => PFuel
  end.

(** [self.tokens.peek()]: the kind of the next token. *)
Definition p_peek {A} (s : pstate) (k : option token -> pres A) : pres A :=
  match ps_toks s with
  | [] => k None
  | Tok t :: _ => k (Some t)
  | TokPanic :: _ => PPanic
  end.

(** [self.tokens.next()]. *)
Definition p_next {A} (s : pstate) (k : option token -> pstate -> pres A) : pres A :=
  match ps_toks s with
  | [] => k None {| ps_toks := []; ps_cur := None |}
  | Tok t :: r => k (Some t) {| ps_toks := r; ps_cur := Some t |}
  | TokPanic :: _ => PPanic
  end.

(** parser.rs:397-416 [get_current_token_position], used for a single error. *)
Definition p_err_here {A} (k : perr_kind) (s : pstate) : pres A :=
  p_peek s (fun o =>
    PErr [{| pe_kind := k;
             pe_pos := match o, ps_cur s with
                       | Some t, _ => tk_pos t
                       | None, Some t => (snd (tk_pos t) - 1, snd (tk_pos t))
                       | None, None => (0, 1)
                       end |}]).

(** parser.rs:346-394 [character_group_item]. *)
Definition p_character_group_item (s : pstate) : pres glit :=
  p_next s (fun o s1 =>
    match o with
    | Some t =>
        match tk_kind t with
        | TClass k => POk (GClass k) s1
        | TMatch start =>
            p_peek s1 (fun o2 =>
              match o2 with
              | Some {| tk_kind := TOp OMinus |} =>
                  p_next s1 (fun _ s2 =>
                    p_next s2 (fun o3 s3 =>
                      match o3 with
                      | Some {| tk_kind := TMatch e |} => POk (GRange start e) s3
                      | _ => p_err_here PMatch s3
                      end))
              | _ => POk (GMatch start) s1
              end)
        | _ => PErr [{| pe_kind := PCharacterClassCharacter; pe_pos := tk_pos t |}]
        end
    | None => p_err_here PTokenForCharacterGroupItem s1
    end).

(** parser.rs:312-323, the loop of [character_group]. *)
Fixpoint p_group_items (fuel : nat) (acc : list glit) (s : pstate) : pres (list glit) :=
  match fuel with
  | 0 => PFuel
  | S fuel' =>
      p_peek s (fun o =>
        match o with
        | None => POk acc s
        | Some {| tk_kind := TOp ORBracket |} => POk acc s
        | Some _ => pbind (p_character_group_item s) (fun g s' => p_group_items fuel' (acc ++ [g]) s')
        end)
  end.

(** The part of [p_character_group] below after the optional [^]. *)
Definition p_group_after (fuel : nat) (negated : bool) (s2 : pstate) : pres lit :=
  p_peek s2 (fun o2 =>
    match o2 with
    | None => p_err_here PCharacterGroupItem s2
    | Some _ =>
        pbind (p_group_items fuel [] s2) (fun ls s3 =>
          p_next s3 (fun o3 s4 =>
            match o3 with
            | Some {| tk_kind := TOp ORBracket |} => POk (LGroup negated ls) s4
            | _ => p_err_here PRightBracket s4
            end))
    end).

(** parser.rs:276-342 [character_group]. *)
Definition p_character_group (fuel : nat) (s : pstate) : pres lit :=
  p_next s (fun o s1 =>
    match o with
    | Some {| tk_kind := TOp OLBracket |} =>
        p_peek s1 (fun o1 =>
          match o1 with
          | Some {| tk_kind := TOp OCarret |} => p_next s1 (fun _ s2 => p_group_after fuel true s2)
          | _ => p_group_after fuel false s1
          end)
    | _ => p_err_here PLeftBracket s1
    end).

(** parser.rs:242-272 [match_item]. *)
Definition p_match_item (fuel : nat) (s : pstate) : pres lit :=
  p_peek s (fun o =>
    match o with
    | Some {| tk_kind := TMatch c |} => p_next s (fun _ s1 => POk (LMatch c) s1)
    | Some {| tk_kind := TOp OLBracket |} => p_character_group fuel s
    | Some {| tk_kind := TClass k |} => p_next s (fun _ s1 => POk (LClass k) s1)
    | _ => p_err_here PMatchCharacterClassLeftBracket s
    end).

(** parser.rs:208-218 and 227-236: the optional quantifier. *)
Definition p_quantifier (s : pstate) : pres (option quant) :=
  p_peek s (fun o =>
    match o with
    | Some {| tk_kind := TQuant q |} => p_next s (fun _ s1 => POk (Some q) s1)
    | _ => POk None s
    end).

(** parser.rs:224-239 [match_]. *)
Definition p_match (fuel : nat) (s : pstate) : pres expr :=
  pbind (p_match_item fuel s) (fun l s1 =>
    pbind (p_quantifier s1) (fun q s2 => POk (ELit l q) s2)).

(** parser.rs:115-119: a list of one item is that item. *)
Definition concat_of (l : list expr) : expr :=
  match l with [e] => e | _ => EConcat l end.

(** The mutually recursive part.  Every call uses one unit of fuel. *)
Fixpoint p_expression (fuel : nat) (s : pstate) {struct fuel} : pres expr :=
  (** parser.rs:113-134 [expression]. *)
  match fuel with
  | 0 => PFuel
  | S fuel' =>
      pbind (p_sub_expression fuel' s) (fun lhs s1 =>
        let lhs := concat_of lhs in
        p_peek s1 (fun o =>
          match o with
          | Some {| tk_kind := TOp OVertical |} =>
              p_next s1 (fun _ s2 =>
                pbind (p_expression fuel' s2) (fun rhs s3 => POk (EAlt lhs rhs) s3))
          | _ => POk lhs s1
          end))
  end
with p_sub_expression (fuel : nat) (s : pstate) {struct fuel} : pres (list expr) :=
  (** parser.rs:137-144 [sub_expression]. *)
  match fuel with
  | 0 => PFuel
  | S fuel' =>
      p_peek s (fun o =>
        match o with
        | None => p_err_here PSubExpression s
        | Some _ => p_sub_loop fuel' [] s
        end)
  end
with p_sub_loop (fuel : nat) (acc : list expr) (s : pstate) {struct fuel} : pres (list expr) :=
  (** parser.rs:145-157, the loop of [sub_expression]. *)
  match fuel with
  | 0 => PFuel
  | S fuel' =>
      p_peek s (fun o =>
        match o with
        | None => POk acc s
        | Some {| tk_kind := TOp OVertical |} => POk acc s
        | Some {| tk_kind := TOp ORParen |} => POk acc s
        | Some _ => pbind (p_sub_item fuel' s) (fun e s' => p_sub_loop fuel' (acc ++ [e]) s')
        end)
  end
with p_sub_item (fuel : nat) (s : pstate) {struct fuel} : pres expr :=
  (** parser.rs:161-173 [sub_expression_item]. *)
  match fuel with
  | 0 => PFuel
  | S fuel' =>
      p_peek s (fun o =>
        match o with
        | None => p_err_here PTokenForSubExpression s
        | Some {| tk_kind := TOp OLParen |} => p_group fuel' s
        | Some _ => p_match fuel' s
        end)
  end
with p_group (fuel : nat) (s : pstate) {struct fuel} : pres expr :=
  (** parser.rs:176-221 [group]. *)
  match fuel with
  | 0 => PFuel
  | S fuel' =>
      p_next s (fun o s1 =>
        match o with
        | Some {| tk_kind := TOp OLParen |} =>
            pbind (p_expression fuel' s1) (fun e s2 =>
              p_next s2 (fun o2 s3 =>
                match o2 with
                | Some {| tk_kind := TOp ORParen |} =>
                    pbind (p_quantifier s3) (fun q s4 => POk (EGroup e q) s4)
                | _ => p_err_here PRightParan s3
                end))
        | _ => p_err_here PLeftParan s1
        end)
  end.

(** parser.rs:98-110 [parse] on a token stream.  Returns the final state too,
    so that properties can talk about the tokens left unread. *)
Definition p_parse (fuel : nat) (toks : list titem) : pres expr :=
  let s := {| ps_toks := toks; ps_cur := None |} in
  p_peek s (fun o =>
    match o with
    | None => POk EEmpty s
    | Some _ => p_expression fuel s
    end).

(** Fuel for the parser, enough for every token stream ([regex_parse_fuel]). *)
Definition parse_fuel (toks : list titem) : nat := 5 * length toks + 10.

(** [ParseResult<Ast>] of [Parser::new(w).parse()]. *)
Inductive parse_result := ParseOk (e : expr) | ParseErr (errs : list perr).

(** parser.rs:86-110 [Parser::new] and [parse]. *)
Definition regex_parse {env : Env} (w : list char) : res parse_result :=
  let toks := tokens_of w in
  match p_parse (parse_fuel toks) toks with
  | POk e _ => Val (ParseOk e)
  | PErr errs => Val (ParseErr errs)
  | PPanic => Panic
  | PFuel => Diverge
  end.
