(** Specification of the parser reading a text, for all patterns and grammars: the
    calls of the lexer (SpecCalls.v, SpecStuck.v) feed the machine on symbols
    (SpecMachine.v). *)
From Verif Require Import Base RegexModel SpecNfa LexerModel SpecLexer SpecCalls SpecSpin SpecStuck GrammarModel SlrModel SpecCfg SpecMachine.

Section Whole.
  Context {env : Env} {K : Type}.
  Context (L : expr -> list char -> Prop) (es : list expr) (gens : list (generator K)).

  (** The lexer returns tokens of these kinds and comes to the second state; no
      pattern spins on the way. *)
  Inductive lexed : held -> list K -> held -> Prop :=
  | lexed_nil s : lexed s [] s
  | lexed_cons s t s1 ks s2 :
      ~ stuck es s -> SpecCalls.call L es gens s (Some t) s1 -> lexed s1 ks s2 -> lexed s (lt_kind t :: ks) s2.

  (** The next call returns nothing, which the parser takes for the end. *)
  Definition over (s : held) : Prop := ~ stuck es s /\ exists s', SpecCalls.call L es gens s None s'.

  Context {V : Type} (teq : K -> K -> bool) (g : grammar V K).

  (** The machine comes to [m] with the tokens the lexer has returned; in [m] it
      looks at a token or the lexer has nothing more. *)
  Definition arrives (s : held) (m : config V K) : Prop :=
    exists ks s' k, lexed s ks s' /\ mmoves teq g k (initial ks) m /\ (snd m <> [] \/ over s').

  (** The machine asks for a token and the call never returns. *)
  Definition starves (s : held) : Prop :=
    exists ks s' k m, lexed s ks s' /\ mmoves teq g k (initial ks) m /\ snd m = [] /\ stuck es s'.

  (** The machine moves on and on with the tokens it has. *)
  Definition roams (s : held) : Prop :=
    exists ks s', lexed s ks s' /\ forall k, exists m, mmoves teq g k (initial ks) m.
End Whole.
