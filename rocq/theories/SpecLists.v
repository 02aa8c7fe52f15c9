(** Specification of changes to the list of patterns of a lexer: another order,
    fewer patterns, other kinds. *)
From Verif Require Import Base RegexModel SpecNfa SpecSpin LexerModel SpecLexer.

Section Lists.
  Context {env : Env}.
  Context (L : expr -> list char -> Prop).

  (** Some text that a token may have is matched by both. *)
  Definition overlap (e e' : expr) : Prop := exists x, x <> [] /\ L e x /\ L e' x.

  (** Neighbours that do not overlap are swapped, any number of times: patterns
      that overlap stay in the same order. *)
  Inductive reordered {B : Type} : list (expr * B) -> list (expr * B) -> Prop :=
  | reordered_same l : reordered l l
  | reordered_swap l a b r : ~ overlap (fst a) (fst b) -> reordered (l ++ a :: b :: r) (l ++ b :: a :: r)
  | reordered_again l l' l'' : reordered l l' -> reordered l' l'' -> reordered l l''.

  (** Whatever [e] matches is matched by an earlier pattern. *)
  Definition shadowed (before : list expr) (e : expr) : Prop := forall x, x <> [] -> L e x -> matched L before x.

  (** Whatever can be read along [e] can be read along another pattern, and [e]
      only spins if another one does. *)
  Definition redundant (others : list expr) (e : expr) : Prop :=
    (forall x, impl_begun e x -> feedable others x) /\
    forall w, spinning e w -> exists e', In e' others /\ spinning e' w.
End Lists.

(** Whenever [lx] returns these results, [lx'] returns them, translated. *)
Definition imitates {env : Env} {K K' : Type} (f : K -> K') (lx : lexer K) (lx' : lexer K') : Prop :=
  forall (ho : HashOrder) fuel n os lx1, lex_calls fuel n lx = Val (os, lx1) ->
    exists N lx2, forall (ho' : HashOrder) fuel', N <= fuel' ->
      lex_calls fuel' n lx' =
      Val (map (option_map (fun t => {| lt_kind := f (lt_kind t); lt_source := lt_source t; lt_pos := lt_pos t |})) os, lx2).
