(** Vocabulary of the exact conditions for lexing. *)
From Verif Require Import Base RegexModel SpecNfa SpecLexer.

(** [v] can be fed but not [v] and [c], and no part of [v] from its beginning is
    matched: a call that reads this gives [None] before the end of the text. *)
Definition dead_end {env : Env} (L : expr -> list char -> Prop) (es : list expr) (v : list char) (c : char) : Prop :=
  feedable es v /\ ~ feedable es (v ++ [c]) /\ forall v1 v2, v = v1 ++ v2 -> v1 <> [] -> ~ matched L es v1.
