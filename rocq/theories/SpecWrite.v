(** Specification of writing tokens so that they can be read back. *)
From Verif Require Import Base RegexModel LexerModel SpecLexer.

Section Write.
  Context {env : Env} {K : Type}.
  Context (L : expr -> list char -> Prop) (es : list expr) (gens : list (generator K)).

  (** The text [x] alone is a token of kind [k]. *)
  Definition text_of (x : list char) (k : K) : Prop :=
    x <> [] /\ exists i g, first_match L es x i /\ nth_error gens i = Some g /\ k = gen_run g x.

  (** Texts of tokens one after the other; no text and the character behind it
      is a token as well. *)
  Inductive written : list char -> list K -> Prop :=
  | written_none : written [] []
  | written_one x k text ks : text_of x k -> (forall c r, text = c :: r -> ~ matched L es (x ++ [c])) -> written text ks ->
      written (x ++ text) (k :: ks).

  (** A character that is found in no token but the one it is itself. *)
  Definition separator (s : char) : Prop := forall x, matched L es x -> In s x -> x = [s].
End Write.

(** The texts with [s] between them, and the same for kinds. *)
Fixpoint joined (s : char) (xs : list (list char)) : list char :=
  match xs with
  | [] => []
  | [x] => x
  | x :: r => x ++ s :: joined s r
  end.
Fixpoint between {K} (k : K) (ks : list K) : list K :=
  match ks with
  | [] => []
  | [x] => [x]
  | x :: r => x :: k :: between k r
  end.
