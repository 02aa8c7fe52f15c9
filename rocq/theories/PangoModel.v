(** Model of the parser reading from a lexer. *)
From Verif Require Import Base RegexModel NfaModel LexerModel GrammarModel CfsmModel SlrModel.

Section Pango.
  Context {env : Env} {ho : HashOrder} {V K : Type} {dv : DecEq V} {dt : DecEq K}.
  Context (teq : K -> K -> bool).

  (** parser/slr.rs:58 [input.next()]; of the token only the kind is used (lines
      98-101 and 116-118). *)
  Definition next_kind (fuel : nat) (lx : lexer K) : res (option K * lexer K) :=
    let! (o, lx') := lex_next fuel lx in
    Val (match o with Some t => Some (lt_kind t) | None => None end, lx').

  (** parser/slr.rs:44-90 [Slr::parse] on a [Lexer]. *)
  Definition parse_lexer (fuel : nat) (tb : table V K) (lx : lexer K) : res (option (node V K)) :=
    parse_from teq (next_kind fuel) fuel tb lx.
End Pango.
