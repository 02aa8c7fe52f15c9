(** Specification of tokenizing a text by maximal munch. *)
From Verif Require Import Base RegexModel LexerModel SpecLexer.

Section Munch.
  Context {env : Env} {K : Type}.
  Context (L : expr -> list char -> Prop) (es : list expr) (gens : list (generator K)).

  (** From position [p] on: the longest match, as a token of the first pattern
      that matches it, and so on until nothing matches. *)
  Inductive munches (input : list char) : nat -> list (ltoken K) -> Prop :=
  | munch_end p : (forall x y, skipn p input = x ++ y -> x <> [] -> ~ matched L es x) -> munches input p []
  | munch_token p x y i g ts :
      skipn p input = x ++ y -> x <> [] ->
      first_match L es x i -> nth_error gens i = Some g ->
      (forall x' y', skipn p input = x' ++ y' -> length x < length x' -> ~ matched L es x') ->
      munches input (p + length x) ts ->
      munches input p ({| lt_kind := gen_run g x; lt_source := x; lt_pos := (p, p + length x) |} :: ts).
End Munch.

(** The kinds of the tokens of a text that maximal munch covers completely. *)
Definition reads_all {env : Env} {K} (L : expr -> list char -> Prop) (es : list expr) (gens : list (generator K)) (input : list char) (ks : list K) : Prop :=
  exists tks, munches L es gens input 0 tks /\ flat_map lt_source tks = input /\ map lt_kind tks = ks.
