(** Specification of the parser for every grammar, as a machine on symbols: its
    stack holds symbols and syntax trees instead of numbered states, and its moves
    are given by the LR(0) items and FOLLOW.  As in the code a reduction takes as
    many entries as the body has symbols, epsilons included, and at the end of the
    input it only accepts. *)
From Verif Require Import Base GrammarModel CfsmModel SlrModel SpecCfg.

Section Machine.
  Context {V T : Type}.
  Notation sym := (symbol V T).
  Notation nd := (node V T).
  Variable teq : T -> T -> bool.
  Variable g : grammar V T.
  (** The start variable has an entry in the FOLLOW map. *)
  Variable e : Prop.

  (** The entries of the stack, last one first, without the one at the bottom,
      which is never looked at but can be taken as a child. *)
  Definition stack : Type := list (sym * nd).
  Definition word (st : stack) : list sym := rev (map fst st).
  Definition bottom : nd := Node (Var (g_start g)) [].

  (** A stack and the remaining tokens. *)
  Definition config : Type := stack * list T.
  Definition initial (ts : list T) : config := ([], ts).

  Inductive mmove : config -> config -> Prop :=
  | mmove_shift : forall st t ts t' h a r,
      lr0 g (word st) (h, a, Ter t' :: r) -> teq t t' = true ->
      mmove (st, t :: ts) ((Ter t', Node (Ter t) []) :: st, ts)
  | mmove_reduce : forall popped st t ts t' h bd h' a r,
      lr0 g (word (popped ++ st)) (h, bd, []) -> followed_by g h t' -> teq t t' = true ->
      length popped = length bd -> lr0 g (word st) (h', a, Var h :: r) ->
      mmove (popped ++ st, t :: ts) ((Var h, Node (Var h) (map snd popped)) :: st, t :: ts).

  Inductive mmoves : nat -> config -> config -> Prop :=
  | mmoves_none : forall m, mmoves 0 m m
  | mmoves_one : forall k m m1 m2, mmove m m1 -> mmoves k m1 m2 -> mmoves (S k) m m2.

  Definition maccepts (m : config) (n : nd) : Prop :=
    let '(st, ts) := m in
    ts = [] /\ e /\ exists bd, lr0 g (word st) (g_start g, bd, []) /\ length bd <= S (length st) /\
      n = Node (Var (g_start g)) (firstn (length bd) (map snd st ++ [bottom])).

  (** Neither a move nor an end. *)
  Definition mstuck (m : config) : Prop := (forall m', ~ mmove m m') /\ forall n, ~ maccepts m n.

  (** A body is longer than the stack. *)
  Definition mshort (m : config) : Prop :=
    match m with
    | (st, t :: _) => exists t' h bd, lr0 g (word st) (h, bd, []) /\ followed_by g h t' /\ teq t t' = true /\ length st < length bd
    | (st, []) => e /\ exists bd, lr0 g (word st) (g_start g, bd, []) /\ S (length st) < length bd
    end.

  (** ** How the machine is stuck *)

  (** There is an entry in the action table, and in the goto table, after [w]. *)
  Definition macts (w : list sym) : Prop :=
    (exists h a t r, lr0 g w (h, a, Ter t :: r)) \/ (exists h bd t, lr0 g w (h, bd, []) /\ followed_by g h t) \/
    (e /\ exists bd, lr0 g w (g_start g, bd, [])).
  Definition mgotos (w : list sym) : Prop := exists h a v r, lr0 g w (h, a, Var v :: r).

  (** The rule to reduce by before [t]. *)
  Definition mreduces (st : stack) (t : T) (h : V) (bd : list sym) : Prop :=
    exists t', lr0 g (word st) (h, bd, []) /\ followed_by g h t' /\ teq t t' = true.

  (** There are entries, but not the one looked for. *)
  Definition mrefused (m : config) : Prop :=
    let '(st, ts) := m in
    macts (word st) /\
    match ts with
    | [] => ~ (e /\ exists bd, lr0 g (word st) (g_start g, bd, []))
    | t :: _ =>
        (forall h a t' r, teq t t' = true -> ~ lr0 g (word st) (h, a, Ter t' :: r)) /\
        ((forall h bd, ~ mreduces st t h bd) \/
         exists h bd, mreduces st t h bd /\ length bd <= length st /\ mgotos (word (skipn (length bd) st)) /\
           forall h' a r, ~ lr0 g (word (skipn (length bd) st)) (h', a, Var h :: r))
    end.

  (** There are no entries at all. *)
  Definition mrowless (m : config) : Prop :=
    let '(st, ts) := m in
    ~ macts (word st) \/
    match ts with
    | [] => False
    | t :: _ => exists h bd, mreduces st t h bd /\ length bd <= length st /\ ~ mgotos (word (skipn (length bd) st))
    end.
End Machine.
Arguments stack : clear implicits.
Arguments config : clear implicits.

(** [y] is [x] or a part of it. *)
Inductive inside {V T : Type} (y : tree V T) : tree V T -> Prop :=
| inside_here : inside y y
| inside_child : forall v cs z, In z cs -> inside y z -> inside y (Branch v cs).

(** Nowhere in the tree a variable stands for the empty text. *)
Definition never_empty {V T : Type} (x : tree V T) : Prop := forall v, ~ inside (Branch v []) x.
