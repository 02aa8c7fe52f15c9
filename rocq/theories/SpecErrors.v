(** Specification of where an error of the regex parser belongs, on the kinds
    of the tokens only. *)
From Verif Require Import Base RegexModel SpecRegex SpecPattern.

(** Some pattern begins with these tokens. *)
Definition viable (ks : list token_kind) : Prop := exists more e, read_as (ks ++ more) e.

(** [pre] are the tokens before the place where the text cannot be continued to
    a pattern, [suf] the ones from there on. *)
Definition breaks_at (pre : list token) (suf : list titem) : Prop :=
  viable (map tk_kind pre) /\
  match suf with
  | [] => forall e, ~ read_as (map tk_kind pre) e
  | Tok t :: _ => ~ viable (map tk_kind pre ++ [tk_kind t])
  | TokPanic :: _ => False
  end.

(** The last of some tokens. *)
Definition last_token (ts : list token) : option token := match rev ts with [] => None | t :: _ => Some t end.
(** One column, at the end of a token. *)
Definition end_of (t : token) : nat * nat := (snd (tk_pos t) - 1, snd (tk_pos t)).

(** The position that goes with an error, when the tokens break between [pre] and [suf]. *)
Definition reported (k : perr_kind) (pos : nat * nat) (pre : list token) (suf : list titem) : Prop :=
  match k with
  (** a token that begins no item: that token *)
  | PMatchCharacterClassLeftBracket | PCharacterClassCharacter => exists t r, suf = Tok t :: r /\ pos = tk_pos t
  (** the text ended: the end of the last token *)
  | PSubExpression | PCharacterGroupItem =>
      suf = [] /\ pos = match last_token pre with Some t => end_of t | None => (0, 1) end
  (** the text ended inside parentheses or brackets: the first column *)
  | PRightParan | PRightBracket => suf = [] /\ pos = (0, 1)
  (** a range without an end: the first column when the text ended, otherwise
      what follows the bad token *)
  | PMatch =>
      (suf = [] /\ pos = (0, 1)) \/
      (exists t, suf = [Tok t] /\ pos = end_of t) \/
      (exists t t2 r, suf = Tok t :: Tok t2 :: r /\ pos = tk_pos t2)
  | PLeftParan | PLeftBracket | PTokenForSubExpression | PTokenForCharacterGroupItem => False
  end.

(** The decimal form of a number, without superfluous zeros. *)
Definition is_digit (c : char) : Prop := (48 <= c <= 57)%N.
Definition number (ds : list char) : N := fold_left (fun v c => 10 * v + (c - 48))%N ds 0%N.
Definition decimal (n : nat) (ds : list char) : Prop :=
  Forall is_digit ds /\ number ds = N.of_nat n /\ (ds = [48%N] \/ exists d r, ds = d :: r /\ d <> 48%N).

(** What an error says was expected. *)
Definition wanted (k : perr_kind) : list char :=
  match k with
  | PSubExpression => str "at least one sub expression"
  | PTokenForSubExpression => str "at least one token for a subexpression"
  | PLeftParan => str "LEFT_PAREN"
  | PRightParan => str "RIGTH_PAREN"
  | PMatchCharacterClassLeftBracket => str "MATCH, CHARACTER_CLASS or LEFT_BRACKET"
  | PLeftBracket => str "LEFT_BRACKET"
  | PRightBracket => str "RIGHT_BRACKET"
  | PCharacterGroupItem => str "at least one character group item"
  | PMatch => str "MATCH"
  | PCharacterClassCharacter => str "CHARACTER_CLASS or CHARACTER"
  | PTokenForCharacterGroupItem => str "at least one token for the character group item"
  end.

(** The line of an error. *)
Definition error_line (e : perr) (l : list char) : Prop :=
  exists a b, decimal (fst (pe_pos e)) a /\ decimal (snd (pe_pos e)) b /\
    l = str "[ERROR] (" ++ a ++ str ", " ++ b ++ str "): expected " ++ wanted (pe_kind e).
