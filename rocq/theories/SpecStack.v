(** How deeply the calls for a regex nest. *)
From Verif Require Import Base RegexModel.

Definition maximum (l : list nat) : nat := fold_right Nat.max 0 l.

(** Nested calls of the parser: every group and every further alternative is
    read inside of another call. *)
Fixpoint parse_depth (e : expr) : nat :=
  match e with
  | EEmpty => 0
  | EAlt l r => S (Nat.max (item_depth l) (parse_depth r))
  | EConcat es => S (maximum (map item_depth es))
  | ELit _ _ => 1
  | EGroup e _ => S (parse_depth e)
  end
with item_depth (e : expr) : nat :=
  match e with
  | EConcat es => maximum (map item_depth es)
  | EGroup e _ => parse_depth e
  | _ => 0
  end.

(** Nested calls of the compiler: the height of the tree. *)
Fixpoint tree_height (e : expr) : nat :=
  match e with
  | EEmpty | ELit _ _ => 1
  | EConcat es => S (maximum (map tree_height es))
  | EAlt l r => S (Nat.max (tree_height l) (tree_height r))
  | EGroup e _ => S (tree_height e)
  end.

Definition count (c : char) (w : list char) : nat := count_occ N.eq_dec w c.

(** [n] groups around a character, and [n] bars between characters. *)
Definition nested (n : nat) : list char := repeat $"(" n ++ $"a" :: repeat $")" n.
Fixpoint barred (n : nat) : list char :=
  match n with 0 => [$"a"] | S n => $"a" :: $"|" :: barred n end.
