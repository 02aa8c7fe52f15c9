(** The calls of a lexer that never return, described on the regexes and on the
    calls of the specification. *)
From Verif Require Import Base RegexModel SpecNfa SpecSpin LexerModel SpecLexer SpecCalls.

Section Stuck.
  Context {env : Env} {K : Type}.
  Context (L : expr -> list char -> Prop) (es : list expr) (gens : list (generator K)).

  (** The calls of the specification return these results and leave this. *)
  Inductive reaches : held -> list (option (ltoken K)) -> held -> Prop :=
  | reaches_nil s : reaches s [] s
  | reaches_cons s o s' os s'' : call L es gens s o s' -> reaches s' os s'' -> reaches s (o :: os) s''.

  (** What is to be read next makes a pattern spin. *)
  Definition stuck (s : held) : Prop := exists e, In e es /\ spinning e (letters (ahead s)).
End Stuck.
