(** Specification of what a build with debug assertions writes while lexing. *)
From Verif Require Import Base RegexModel NfaModel SpecNfa LexerModel SpecLexer SpecCalls.

(** What is shown of one character that is fed: the character, the runs after it,
    and whether one of them is in a final state. *)
Record shown := { sh_char : char; sh_runs : list run; sh_accepts : bool }.

Section Shows.
  Context {env : Env} {K : Type}.
  Context (L : expr -> list char -> Prop) (es : list expr) (gens : list (generator K)).

  (** There is a run after every character, and the answer shown with it is
      whether the text up to it is matched. *)
  Definition answers (v : list (nat * char)) (l : list shown) : Prop :=
    map sh_char l = letters v /\ (forall e, In e l -> sh_runs e <> []) /\
    forall l1 e l2, l = l1 ++ e :: l2 -> (sh_accepts e = true <-> matched L es (map sh_char (l1 ++ [e]))).

  (** A call shows the characters before the first one that cannot be fed. *)
  Definition shows (s : held) (l : list shown) : Prop :=
    exists v r, ahead s = v ++ r /\ feedable es (letters v) /\
      (forall c r', r = c :: r' -> ~ feedable es (letters (v ++ [c]))) /\ answers v l.

  (** The calls of SpecCalls.v with all that is shown. *)
  Inductive show_calls : held -> list (option (ltoken K)) -> list shown -> Prop :=
  | show_nil s : show_calls s [] []
  | show_cons s o s' l os ls : call L es gens s o s' -> shows s l -> show_calls s' os ls -> show_calls s (o :: os) (l ++ ls).
End Shows.
