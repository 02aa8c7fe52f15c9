(** Model of the [Debug] text of the types of pango-lexer/src/regex and of the
    inputs and runs of the automata, on top of DebugModel.v. *)
From Verif Require Import Base RegexModel NfaModel DotModel DebugModel.

(** [Debug for u32] and [Debug for bool] (standard library). *)
Definition dbg_u32 (n : N) : dbg := Atom (show_num n).
Definition dbg_bool (b : bool) : dbg := Atom (if b then str "true" else str "false").

(** Derived [Debug] of [Option] (standard library). *)
Definition dbg_option {A} (f : A -> dbg) (o : option A) : dbg :=
  match o with Some x => dtuple (str "Some") [f x] | None => Atom (str "None") end.

(** A pair of positions. *)
Definition dbg_pos (p : nat * nat) : dbg := dtuple [] [dbg_nat (fst p); dbg_nat (snd p)].

(** tokenizer.rs:48-59: derived for [ClassKind]. *)
Definition dbg_class (k : class_kind) : dbg :=
  Atom (match k with
        | CWildcard => str "Wildcard"
        | CWord => str "Word"
        | CWhitespace => str "Whitespace"
        | CDigit => str "Digit"
        | CNonWord => str "NonWord"
        | CNonDigit => str "NonDigit"
        | CNonWhitespace => str "NonWhitespace"
        end).

(** tokenizer.rs:61-71: derived for [OperatorKind]. *)
Definition dbg_op (o : op_kind) : dbg :=
  Atom (match o with
        | OLBracket => str "LeftBracket"
        | ORBracket => str "RightBracket"
        | OLParen => str "LeftParen"
        | ORParen => str "RightParen"
        | OCarret => str "Carret"
        | OVertical => str "Vertical"
        | OMinus => str "Minus"
        end).

(** tokenizer.rs:73-90: derived for [QuantifierKind] and [QuantifierRangeKind]. *)
Definition dbg_quant (q : quant) : dbg :=
  match q with
  | QAsterisk => Atom (str "Asterisk")
  | QPlus => Atom (str "Plus")
  | QQuestion => Atom (str "QuestionMark")
  | QMax n => dtuple (str "Range") [dtuple (str "Max") [dbg_u32 n]]
  | QMin n => dtuple (str "Range") [dtuple (str "Min") [dbg_u32 n]]
  | QRange a b => dtuple (str "Range") [dtuple (str "Range") [dbg_u32 a; dbg_u32 b]]
  end.

Section Regex.
  (** The Unicode table behind [char::escape_debug], as in [show_char]. *)
  Context (printable : char -> bool).

  (** [Debug for char] (standard library). *)
  Definition dbg_char (c : char) : dbg := Atom (show_char printable c).

  (** tokenizer.rs:38-46: derived for [TokenKind]. *)
  Definition dbg_token_kind (k : token_kind) : dbg :=
    match k with
    | TClass k => dtuple (str "Class") [dbg_class k]
    | TOp o => dtuple (str "Operator") [dbg_op o]
    | TQuant q => dtuple (str "Quantifier") [dbg_quant q]
    | TMatch c => dtuple (str "Match") [dbg_char c]
    | TInvalid => Atom (str "Invalid")
    end.

  (** tokenizer.rs:20-29: derived for the regex [Token]. *)
  Definition dbg_rtoken (t : token) : dbg :=
    dstruct (str "Token") [(str "kind", dbg_token_kind (tk_kind t)); (str "pos", dbg_pos (tk_pos t))].

  (** ast.rs:51-61: derived for [GroupedLiteralKind]. *)
  Definition dbg_glit (g : glit) : dbg :=
    match g with
    | GMatch c => dtuple (str "Match") [dbg_char c]
    | GClass k => dtuple (str "Class") [dbg_class k]
    | GRange a b => dtuple (str "Range") [dbg_char a; dbg_char b]
    end.

  (** ast.rs:36-49: derived for [LiteralKind]; prelude.rs:2-3: for [W]. *)
  Definition dbg_lit (l : lit) : dbg :=
    match l with
    | LMatch c => dtuple (str "Match") [dbg_char c]
    | LClass k => dtuple (str "Class") [dbg_class k]
    | LGroup neg ls =>
        dstruct (str "Group") [(str "negated", dbg_bool neg); (str "literals", dtuple (str "W") [dlist (map dbg_glit ls)])]
    end.

  (** ast.rs:21-34: derived for [ExprKind]. *)
  Fixpoint dbg_expr (e : expr) : dbg :=
    match e with
    | EConcat es => dtuple (str "Concat") [dlist (map dbg_expr es)]
    | EEmpty => Atom (str "Empty")
    | EAlt l r => dtuple (str "Alt") [dbg_expr l; dbg_expr r]
    | ELit l q => dtuple (str "Lit") [dbg_lit l; dbg_option dbg_quant q]
    | EGroup e q => dtuple (str "Group") [dbg_expr e; dbg_option dbg_quant q]
    end.

  (** model.rs:36-47: derived for [Input]. *)
  Definition dbg_input (i : input) : dbg :=
    match i with
    | ILit l => dtuple (str "Literal") [dbg_lit l]
    | IEps => Atom (str "Eps")
    | IQuant q => dtuple (str "Quantified") [dbg_quant q]
    end.
End Regex.

(** parser.rs:29-42: derived for [ParseErrorKind]. *)
Definition dbg_perr_kind (k : perr_kind) : dbg :=
  Atom (match k with
        | PLeftParan => str "LeftParan"
        | PRightParan => str "RightParan"
        | PLeftBracket => str "LeftBracket"
        | PRightBracket => str "RightBracket"
        | PSubExpression => str "SubExpression"
        | PTokenForSubExpression => str "TokenForSubExpression"
        | PMatch => str "Match"
        | PMatchCharacterClassLeftBracket => str "MatchCharacterClassLeftBracket"
        | PCharacterGroupItem => str "CharacterGroupItem"
        | PCharacterClassCharacter => str "CharacterClassCharacter"
        | PTokenForCharacterGroupItem => str "TokenForCharacterGroupItem"
        end).

(** parser.rs:22-27: derived for [ParseError]; prelude.rs:2-3: for [W]. *)
Definition dbg_perr (e : perr) : dbg :=
  dstruct (str "ParseError") [(str "kind", dbg_perr_kind (pe_kind e)); (str "pos", dbg_pos (pe_pos e))].
Definition dbg_errors (errs : list perr) : dbg := dtuple (str "W") [dlist (map dbg_perr errs)].

(** The message of the panic of [unwrap] on an [Err] of parser.rs:20
    [ParseResult] (standard library), as the examples and tests call it on
    [with_token]. *)
Definition unwrap_message (errs : list perr) : list char :=
  str "called `Result::unwrap()` on an `Err` value: " ++ plain (dbg_errors errs).

(** sim.rs:26-31: derived for [Run]; the counters are a [BTreeMap], printed in
    order of the states. *)
Definition dbg_run (r : run) : dbg :=
  dstruct (str "Run")
    [(str "state_id", dbg_nat (r_state r));
     (str "state_counters", dmap (map (fun e => (dbg_nat (fst e), dbg_nat (snd e))) (r_cnt r)))].
