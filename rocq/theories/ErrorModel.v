(** Model of the texts of regex errors, pango-lexer/src/regex/parser.rs:45-84. *)
From Verif Require Import Base RegexModel DotModel.

(** parser.rs:45-67 [Display for ParseErrorKind]. *)
Definition show_error_kind (k : perr_kind) : list char :=
  match k with
  | PSubExpression => str "expected at least one sub expression"
  | PTokenForSubExpression => str "expected at least one token for a subexpression"
  | PLeftParan => str "expected LEFT_PAREN"
  | PRightParan => str "expected RIGTH_PAREN"
  | PMatchCharacterClassLeftBracket => str "expected MATCH, CHARACTER_CLASS or LEFT_BRACKET"
  | PLeftBracket => str "expected LEFT_BRACKET"
  | PRightBracket => str "expected RIGHT_BRACKET"
  | PCharacterGroupItem => str "expected at least one character group item"
  | PMatch => str "expected MATCH"
  | PCharacterClassCharacter => str "expected CHARACTER_CLASS or CHARACTER"
  | PTokenForCharacterGroupItem => str "expected at least one token for the character group item"
  end.

(** parser.rs:69-73 [Display for ParseError]; [writeln!] adds the newline. *)
Definition show_error (e : perr) : list char :=
  str "[ERROR] (" ++ show_id (fst (pe_pos e)) ++ str ", " ++ show_id (snd (pe_pos e)) ++ str "): "
  ++ show_error_kind (pe_kind e) ++ newline.

(** parser.rs:75-83 [Display for W<Vec<ParseError>>]; another newline each. *)
Definition show_errors (errs : list perr) : list char := concat (map (fun e => show_error e ++ newline) errs).
