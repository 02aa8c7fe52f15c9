(** Specification of the example: sums and products of digits, without
    precedence. *)
From Verif Require Import Base SlrModel GrammarModel ExprModel.

(** The token of a character. *)
Definition calc_token (c : char) : option terminals :=
  if ((48 <=? c) && (c <=? 57))%N then Some (Num (N.to_nat (c - 48)))
  else if (c =? 43)%N then Some Plus
  else if (c =? 42)%N then Some Mul
  else None.

(** The tokens up to the first character that has none. *)
Fixpoint calc_tokens (w : list char) : list terminals :=
  match w with
  | [] => []
  | c :: w' => match calc_token c with Some t => t :: calc_tokens w' | None => [] end
  end.

(** The expression read so far, with an operator and a digit after it; children
    are stored from the last to the first. *)
Definition digit_node (n : nat) : node nat terminals := Node (Ter (Num n)) [].
Definition joined (x : node nat terminals) (o : terminals) (n : nat) : node nat terminals :=
  Node (Var 0) [digit_node n; Node (Ter o) []; x].

Fixpoint calc_rest (x : node nat terminals) (ts : list terminals) : option (node nat terminals) :=
  match ts with
  | [] => Some x
  | Plus :: Num n :: ts' => calc_rest (joined x Plus n) ts'
  | Mul :: Num n :: ts' => calc_rest (joined x Mul n) ts'
  | _ => None
  end.

(** A digit, then any number of operators with digits. *)
Definition calc (ts : list terminals) : option (node nat terminals) :=
  match ts with
  | Num n :: ts' => calc_rest (Node (Var 0) [digit_node n]) ts'
  | _ => None
  end.
