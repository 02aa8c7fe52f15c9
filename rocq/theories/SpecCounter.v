(** Positions of tokens, for all calls of a lexer. *)
From Verif Require Import Base LexerModel.

(** Every token begins where the one before it has ended, the first at [p]; none is
    empty, none ends after [n], and none has more characters than fit. *)
Inductive adjacent {K} (n : nat) : nat -> list (ltoken K) -> Prop :=
| adjacent_nil p : adjacent n p []
| adjacent_cons p q t ts : lt_pos t = (p, q) -> p < q <= n -> 1 <= length (lt_source t) <= q - p ->
    adjacent n q ts -> adjacent n p (t :: ts).
