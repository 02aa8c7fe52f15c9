(** Specification of lexing a text in parts. *)
From Verif Require Import Base RegexModel SpecNfa LexerModel SpecLexer.

(** The same token, [d] characters later. *)
Definition later {K : Type} (d : nat) (t : ltoken K) : ltoken K :=
  {| lt_kind := lt_kind t; lt_source := lt_source t; lt_pos := (d + fst (lt_pos t), d + snd (lt_pos t)) |}.

(** No pattern can read on with [c], a line break for example. *)
Definition breaks {env : Env} (es : list expr) (c : char) : Prop := forall x, x <> [] -> ~ feedable es (x ++ [c]).

(** The lexer returns these tokens and then [None]. *)
Definition tokens_are {env : Env} {K : Type} (lx : lexer K) (tks : list (ltoken K)) : Prop :=
  exists N lx', forall (ho : HashOrder) fuel, N <= fuel -> lex_calls fuel (S (length tks)) lx = Val (map Some tks ++ [None], lx').
