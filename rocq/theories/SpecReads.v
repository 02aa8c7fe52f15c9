(** Specification of the number of characters the calls of a lexer read. *)
From Verif Require Import Base RegexModel SpecNfa LexerModel SpecLexer SpecCalls.

Section Reads.
  Context {env : Env} {K : Type}.
  Context (L : expr -> list char -> Prop) (es : list expr) (gens : list (generator K)).

  (** A call reads up to and with the first character that cannot be fed, or all
      that is left. *)
  Inductive reads (s : held) : nat -> Prop :=
  | reads_stop v c r : ahead s = v ++ c :: r -> feedable es (letters v) -> ~ feedable es (letters (v ++ [c])) -> reads s (S (length v))
  | reads_all_left : feedable es (letters (ahead s)) -> reads s (length (ahead s)).

  (** The calls of SpecCalls.v with the number of characters read by each. *)
  Inductive read_calls : held -> list (option (ltoken K)) -> list nat -> Prop :=
  | read_nil s : read_calls s [] []
  | read_cons s o s' k os ks : call L es gens s o s' -> reads s k -> read_calls s' os ks -> read_calls s (o :: os) (k :: ks).
End Reads.
