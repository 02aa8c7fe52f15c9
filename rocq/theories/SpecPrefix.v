(** Specification of what the parser reads: token sources about whose first
    tokens something is known. *)
From Verif Require Import Base GrammarModel SlrModel SpecCfg.

(** The calls of [next] return these tokens, one by one; what the source does
    afterwards is open. *)
Inductive reads {T L : Type} (next : L -> res (option T * L)) : L -> list T -> L -> Prop :=
| reads_none : forall l, reads next l [] l
| reads_some : forall l t l' ts l'', next l = Val (Some t, l') -> reads next l' ts l'' -> reads next l (t :: ts) l''.

(** Some sentence begins with these tokens. *)
Definition begins_sentence {V T} (g : grammar V T) (teq : T -> T -> bool) (ts : list T) : Prop :=
  exists rest x, parses g teq (ts ++ rest) x.
