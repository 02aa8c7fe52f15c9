(** Functions that tell of which kind the tokens of a text can be. *)
From Verif Require Import Base RegexModel SpecRegex NfaModel SpecNfa LexerModel SpecLexer SpecKleene KleeneProofs SpecQuery.

Section Kinds.
  Context {env : Env} {K : Type} (bs : list N).
  (** A text is matched by the pattern, and by none before it. *)
  Definition makes (before : list expr) (x : expr) : bool := exists_text bs [r_impl x; r_matched before] one_only.
  (** No other text than the character. *)
  Definition makes_only (before : list expr) (x : expr) (c : char) : bool :=
    negb (exists_text bs [r_impl x; r_matched before; Sym (LMatch c)] (fun l => match l with [a; b; d] => a && negb b && negb d | _ => false end)).

  (** Tokens equal to [o] are not made, and those equal to [e] of the character [c] only; tokens
      that are made of their text are not looked at. *)
  Fixpoint kindsb (teq : K -> K -> bool) (o e : K) (c : char) (before es : list expr) (gens : list (generator K)) : bool :=
    match es, gens with
    | x :: es', k :: gens' =>
        match k with
        | GenUnit f => (negb (teq o (f tt)) || negb (makes before x)) && (negb (teq e (f tt)) || makes_only before x c)
        | GenMap _ => true
        end && kindsb teq o e c (before ++ [x]) es' gens'
    | _, _ => true
    end.

  Definition unit_kind (k : generator K) : bool := match k with GenUnit _ => true | GenMap _ => false end.
End Kinds.
