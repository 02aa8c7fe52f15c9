(** Specification of what becomes of a pattern text: the regex it is read as,
    and when reading it or adding it to a lexer panics. *)
From Verif Require Import Base RegexModel SpecRegex SpecPattern SpecErrors SpecTokens.

(** The tokens are a whole regex followed by a stray [)], after which nothing is
    looked at. *)
Definition stopped (ks : list token_kind) (e : expr) : Prop :=
  loose_expr e /\ exists rest, ks = expr_tokens e ++ TOp ORParen :: rest.

(** Only a character can come next: the end of a range. *)
Definition range_due (ks : list token_kind) : Prop :=
  viable ks /\ forall k, viable (ks ++ [k]) -> exists c, k = TMatch c.

(** The token after these ones is looked at: they can be continued to a pattern
    and are not a whole one; or they cannot, but the wrong one is the last and
    stands where the end of a range is due. *)
Definition looks_on (ks : list token_kind) : Prop :=
  (viable ks /\ ~ exists e, stopped ks e) \/
  exists ks' k, ks = ks' ++ [k] /\ range_due ks' /\ ~ viable ks.

Section Panic.
  Context {env : Env}.

  (** The text is read as the regex [e]. *)
  Definition pattern_of (w : list char) (e : expr) : Prop :=
    (exists ts, tokenizes 0 w (map Tok ts) /\ read_as (map tk_kind ts) e) \/
    (exists ts, tokenizes 0 w (map Tok ts ++ [TokPanic]) /\ stopped (map tk_kind ts) e).

  (** Reading the text panics. *)
  Definition pattern_crashes (w : list char) : Prop :=
    exists ts, tokenizes 0 w (map Tok ts ++ [TokPanic]) /\ looks_on (map tk_kind ts).
End Panic.

(** Somewhere in the regex an alternative is empty. *)
Inductive gapped : expr -> Prop :=
| gapped_here : gapped (EConcat [])
| gapped_item es e : In e es -> gapped e -> gapped (EConcat es)
| gapped_left l r : gapped l -> gapped (EAlt l r)
| gapped_right l r : gapped r -> gapped (EAlt l r)
| gapped_group e q : gapped e -> gapped (EGroup e q).
