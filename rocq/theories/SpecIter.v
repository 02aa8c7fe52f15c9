(** Specification of the iterator wrappers: the plain iterator plus a memory of
    the last item taken. *)
From Verif Require Import Base Iter.

Section SpecIter.
  Context {S A : Type} (it_next : S -> option A * S).

  (** State: plain iterator state and the answer of the last consuming call. *)
  Definition spec_step (st : S * option A) (o : cp_op A) : option A * (S * option A) :=
    let '(s, last) := st in
    let '(v, s') := it_next s in
    match o with
    | OpNext => (v, (s', v))
    | OpPeek => (v, st)
    | OpNextIf f =>
        match v with
        | Some a => if f a then (Some a, (s', Some a)) else (None, st)
        | None => (None, st)
        end
    | OpCurrent => (last, st)
    end.

  Fixpoint spec_run (st : S * option A) (os : list (cp_op A)) : list (option A) :=
    match os with
    | [] => []
    | o :: os' => let '(v, st') := spec_step st o in v :: spec_run st' os'
    end.

  Fixpoint spec_exec (st : S * option A) (os : list (cp_op A)) : S * option A :=
    match os with
    | [] => st
    | o :: os' => spec_exec (snd (spec_step st o)) os'
    end.

  (** The wrapper state after a sequence of calls. *)
  Fixpoint cp_exec (c : cached S A) (os : list (cp_op A)) : cached S A :=
    match os with
    | [] => c
    | o :: os' => cp_exec (snd (cp_step it_next c o)) os'
    end.

  (** The plain iterator with another item, if any, in front of it. *)
  Definition front_next (st : option A * S) : option A * (option A * S) :=
    match fst st with
    | Some a => (Some a, (None, snd st))
    | None => (fst (it_next (snd st)), (None, snd (it_next (snd st))))
    end.

  (** [peek_mut] puts the changed item in place of the next one. *)
  Definition spec_mut (f : A -> A) (st : (option A * S) * option A) : option A * ((option A * S) * option A) :=
    match front_next (fst st) with
    | (Some a, (_, s')) => (Some a, ((Some (f a), s'), snd st))
    | (None, _) => (None, st)
    end.
End SpecIter.

Section SpecAny.
  Context {S A : Type} (it_next : S -> option A * S).

  Definition any_step (st : (option A * S) * option A) (o : cp_any A) : option A * ((option A * S) * option A) :=
    match o with
    | AnyOp o => spec_step (front_next it_next) st o
    | AnyMut f => spec_mut it_next f st
    end.

  Fixpoint any_run (st : (option A * S) * option A) (os : list (cp_any A)) : list (option A) :=
    match os with
    | [] => []
    | o :: os' => let '(v, st') := any_step st o in v :: any_run st' os'
    end.
End SpecAny.

Section SpecDelivers.
  Context {S A : Type} (it_next : S -> option A * S).

  (** [s] delivers the items [l] and is then in state [s']. *)
  Inductive delivers : S -> list A -> S -> Prop :=
  | delivers_nil s : delivers s [] s
  | delivers_cons s a s1 l s2 :
      it_next s = (Some a, s1) -> delivers s1 l s2 -> delivers s (a :: l) s2.

  (** The next item of [s], if any, fails the predicate. *)
  Definition stops_at (p : A -> bool) (s : S) : Prop :=
    match fst (it_next s) with Some a => p a = false | None => True end.
End SpecDelivers.
