(** Model of pango-lexer/src/iter: the peekable iterators and the cautious
    adapters. *)
From Verif Require Import Base.

Section Iter.
  (** Any underlying iterator: a state and its [next]. *)
  Context {S A : Type} (it_next : S -> option A * S).

  (** [std::iter::Peekable]: the underlying iterator plus the peeked item
      (standard library; used at pango-lexer/src/iter/peekable.rs:130-150). *)
  Record peekable := { pk_iter : S; pk_peeked : option (option A) }.

  Definition pk_new (s : S) : peekable := {| pk_iter := s; pk_peeked := None |}.

  Definition pk_next (p : peekable) : option A * peekable :=
    match pk_peeked p with
    | Some v => (v, {| pk_iter := pk_iter p; pk_peeked := None |})
    | None => let '(v, s) := it_next (pk_iter p) in (v, {| pk_iter := s; pk_peeked := None |})
    end.

  Definition pk_peek (p : peekable) : option A * peekable :=
    match pk_peeked p with
    | Some v => (v, p)
    | None => let '(v, s) := it_next (pk_iter p) in (v, {| pk_iter := s; pk_peeked := Some v |})
    end.

  Definition pk_next_if (f : A -> bool) (p : peekable) : option A * peekable :=
    let '(v, p') := pk_next p in
    match v with
    | Some a => if f a then (Some a, p')
                else (None, {| pk_iter := pk_iter p'; pk_peeked := Some (Some a) |})
    | None => (None, {| pk_iter := pk_iter p'; pk_peeked := Some None |})
    end.

  (** peekable.rs:152-158 [CachedPeekable]. *)
  Record cached := { cp_iter : peekable; cp_current : option (option A) }.

  (** peekable.rs:184-191 [cached_peekable]. *)
  Definition cp_new (s : S) : cached := {| cp_iter := pk_new s; cp_current := None |}.

  (** peekable.rs:164-173 [next]. *)
  Definition cp_next (c : cached) : option A * cached :=
    let '(v, p) := pk_next (cp_iter c) in
    (v, {| cp_iter := p; cp_current := Some v |}).

  (** peekable.rs:175-182 [current]. *)
  Definition cp_cur (c : cached) : option A :=
    match cp_current c with Some v => v | None => None end.

  (** peekable.rs:197-199 [peek]. *)
  Definition cp_peek (c : cached) : option A * cached :=
    let '(v, p) := pk_peek (cp_iter c) in
    (v, {| cp_iter := p; cp_current := cp_current c |}).

  (** peekable.rs:205-226 [next_if]; [next_if_eq] is the instance where the
      condition is equality with the expected item. *)
  Definition cp_next_if (f : A -> bool) (c : cached) : option A * cached :=
    let '(v, p) := pk_next_if f (cp_iter c) in
    match v with
    | Some a => (Some a, {| cp_iter := p; cp_current := Some (Some a) |})
    | None => (None, {| cp_iter := p; cp_current := cp_current c |})
    end.

  (** The calls a client can make; [peek_mut], which the code never uses, is
      added below. *)
  Inductive cp_op :=
  | OpNext
  | OpPeek
  | OpNextIf (f : A -> bool)
  | OpCurrent.

  Definition cp_step (c : cached) (o : cp_op) : option A * cached :=
    match o with
    | OpNext => cp_next c
    | OpPeek => cp_peek c
    | OpNextIf f => cp_next_if f c
    | OpCurrent => (cp_cur c, c)
    end.

  Fixpoint cp_run (c : cached) (os : list cp_op) : list (option A) :=
    match os with
    | [] => []
    | o :: os' => let '(v, c') := cp_step c o in v :: cp_run c' os'
    end.

  (** [std::iter::Peekable::peek_mut] (standard library); [f] is what the
      client does to the item it is lent, the answer is the item it sees before. *)
  Definition pk_peek_mut (f : A -> A) (p : peekable) : option A * peekable :=
    let '(v, p') := pk_peek p in
    (v, {| pk_iter := pk_iter p'; pk_peeked := Some (option_map f v) |}).

  (** peekable.rs:201-203 [peek_mut]. *)
  Definition cp_peek_mut (f : A -> A) (c : cached) : option A * cached :=
    let '(v, p) := pk_peek_mut f (cp_iter c) in
    (v, {| cp_iter := p; cp_current := cp_current c |}).

  (** All calls: those above, and [peek_mut] with what is done to the item. *)
  Inductive cp_any :=
  | AnyOp (o : cp_op)
  | AnyMut (f : A -> A).

  Definition cp_any_step (c : cached) (o : cp_any) : option A * cached :=
    match o with
    | AnyOp o => cp_step c o
    | AnyMut f => cp_peek_mut f c
    end.

  Fixpoint cp_any_run (c : cached) (os : list cp_any) : list (option A) :=
    match os with
    | [] => []
    | o :: os' => let '(v, c') := cp_any_step c o in v :: cp_any_run c' os'
    end.

  (** cautious/map_while.rs:23-44 [next]. *)
  Definition cmw_next {B} (f : A -> option B) (c : cached) : option B * cached :=
    let '(v, c1) := cp_peek c in
    match v with
    | Some a => match f a with
                | Some b => let '(_, c2) := cp_next c1 in (Some b, c2)
                | None => (None, c1)
                end
    | None => (None, c1)
    end.

  (** Draining the adapter ([fold]/[collect] at tokenizer.rs:374-388): calls
      [next] until it answers [None]; [None] here when the fuel is used up. *)
  Fixpoint cmw_drain {B} (fuel : nat) (f : A -> option B) (c : cached) : option (list B * cached) :=
    match fuel with
    | 0 => None
    | Datatypes.S fuel' =>
        let '(v, c1) := cmw_next f c in
        match v with
        | Some b => match cmw_drain fuel' f c1 with
                    | Some (bs, c2) => Some (b :: bs, c2)
                    | None => None
                    end
        | None => Some ([], c1)
        end
    end.

  (** cautious/take_while.rs:23-42 [next]. *)
  Definition ctw_next (f : A -> bool) (c : cached) : option A * cached :=
    let '(v, c1) := cp_peek c in
    let return_next := match v with Some a => f a | None => false end in
    if return_next then cp_next c1 else (None, c1).

  Fixpoint ctw_drain (fuel : nat) (f : A -> bool) (c : cached) : option (list A * cached) :=
    match fuel with
    | 0 => None
    | Datatypes.S fuel' =>
        let '(v, c1) := ctw_next f c in
        match v with
        | Some b => match ctw_drain fuel' f c1 with
                    | Some (bs, c2) => Some (b :: bs, c2)
                    | None => None
                    end
        | None => Some ([], c1)
        end
    end.
End Iter.
Arguments cp_op A : clear implicits.
Arguments OpNext {A}.
Arguments OpPeek {A}.
Arguments OpNextIf {A} f.
Arguments OpCurrent {A}.
Arguments cp_any A : clear implicits.
Arguments AnyOp {A} o.
Arguments AnyMut {A} f.
Arguments peekable S A : clear implicits.
Arguments cached S A : clear implicits.

(** [str::chars], [Enumerate] and [vec::IntoIter] iterate over a list. *)
Definition list_next {A} (l : list A) : option A * list A :=
  match l with [] => (None, []) | a :: r => (Some a, r) end.
