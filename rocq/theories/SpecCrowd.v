(** Regexes in which every character can be read in at most so many ways once
    something has been read. *)
From Verif Require Import Base RegexModel SpecRegex SpecOnce.

Section Crowd.
  Context {env : Env}.

  (** No character is in more than [d] of the literals, counted by their places. *)
  Definition crowd (d : nat) (ls : list lit) : Prop :=
    forall c places, NoDup places -> (forall i, In i places -> exists l, nth_error ls i = Some l /\ lit_set l c) -> length places <= d.

  (** After every literal of [e] this is so for the ones that can read the next
      character; [k] are the ones that can follow [e]. *)
  Fixpoint crowded (d : nat) (e : expr) (k : list lit) : Prop :=
    match e with
    | EConcat es => (fix go (es : list expr) : Prop :=
                       match es with [] => True | e :: es' => crowded d e (openers (EConcat es') k) /\ go es' end) es
    | EEmpty => True
    | EAlt l r => crowded d l k /\ crowded d r k
    | ELit l None => crowd d k
    | ELit l (Some _) => crowd d (l :: k)
    | EGroup e None => crowded d e k
    | EGroup e (Some _) => crowded d e (openers e [] ++ k)
    end.
End Crowd.
