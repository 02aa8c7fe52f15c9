(** How large the automaton of a regex is. *)
From Verif Require Import Base RegexModel NfaModel.

(** The quantifiers of a regex, the places between two items that follow each
    other, and the literals, the empty regex being one. *)
Fixpoint marks (e : expr) : nat :=
  match e with
  | EConcat es => list_sum (map marks es)
  | EEmpty => 0
  | EAlt l r => marks l + marks r
  | ELit _ q => match q with Some _ => 1 | None => 0 end
  | EGroup e q => marks e + match q with Some _ => 1 | None => 0 end
  end.
Fixpoint joints (e : expr) : nat :=
  match e with
  | EConcat es => (length es - 1) + list_sum (map joints es)
  | EEmpty | ELit _ _ => 0
  | EAlt l r => joints l + joints r
  | EGroup e _ => joints e
  end.
Fixpoint leaves (e : expr) : nat :=
  match e with
  | EConcat es => list_sum (map leaves es)
  | EEmpty | ELit _ _ => 1
  | EAlt l r => leaves l + leaves r
  | EGroup e _ => leaves e
  end.

(** The arrows of an automaton: a label and a target, for every state. *)
Definition arrows (m : nfa) : nat :=
  list_sum (map (fun s => list_sum (map (fun x => length (snd x)) (st_trans s))) (nfa_states m)).

(** The length of a text, at least one. *)
Definition extent (w : list char) : nat := Nat.max 1 (length w).
