(** Specification of the wrapping that makes the parser exact: an end token after
    the start variable, and the textbook condition on the grammar it is applied to. *)
From Verif Require Import Base GrammarModel CfsmModel SlrModel SpecCfg.

Section Wrap.
  Context {V T : Type}.

  (** The calls [cs], whose start variable is [s], followed by two rules
      [z -> s e | z o] for a new start variable [z], an end token [e] and a token [o]
      that is never sent. *)
  Definition wrapped (cs : list (call V T)) (s z : V) (e o : T) : list (call V T) :=
    cs ++ [CallRule z [Var s; Ter e]; CallRule z [Var z; Ter o]; CallStart z].

  (** The variable occurs in no rule. *)
  Definition fresh_variable (g : grammar V T) (z : V) : Prop := forall v bd, rule g v bd -> v <> z /\ ~ In (Var z) bd.

  (** No terminal of the rules equals [e]. *)
  Definition fresh_terminal (teq : T -> T -> bool) (g : grammar V T) (e : T) : Prop :=
    forall v bd t, rule g v bd -> In (Ter t) bd -> teq t e = false.

  (** Without epsilon and useless variables. *)
  Definition clean (g : grammar V T) : Prop :=
    epsilon_free g /\ all_reachable g /\ forall v bd, rule g v bd -> productive g v.

  (** The textbook table: the item [d], read after [w], asks for an action under
      the key [k]; a complete item does under all that may follow its variable, the end of the
      input included. *)
  Definition asks (g : grammar V T) (w : list (symbol V T)) (d : dotted V T) (k : option T) : Prop :=
    lr0 g w d /\
    match d, k with
    | (_, _, Ter t :: _), Some t' => t = t'
    | (h, _, []), k => lookahead g h k
    | _, _ => False
    end.

  (** Two requests for one cell, or a reduction of the start symbol alone where
      the input is accepted. *)
  Definition textbook_clash (g : grammar V T) (teq : T -> T -> bool) : Prop :=
    (exists w d k d' k', asks g w d k /\ asks g w d' k' /\ (d, k) <> (d', k') /\ same_key teq k k') \/
    exists d, snd d = [] /\ asks g [Var (g_start g)] d None.
End Wrap.
