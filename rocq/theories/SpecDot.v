(** Vocabulary of the properties of the textual forms. *)
From Verif Require Import Base RegexModel NfaModel DotModel.
From Verif Require GrammarModel CfsmModel.

(** [m] has a transition from [s] to [t] under [i]. *)
Definition transition (m : nfa) (s : nat) (i : input) (t : nat) : Prop :=
  exists st ts, In st (nfa_states m) /\ st_id st = s /\ In (i, ts) (st_trans st) /\ In t ts.

(** The lines of a text. *)
Fixpoint lines (w : list char) : list (list char) :=
  match w with
  | [] => [[]]
  | c :: w' =>
      if (c =? 10)%N then [] :: lines w'
      else match lines w' with [] => [[c]] | l :: ls => (c :: l) :: ls end
  end.

(** The double quotes of a line that are not escaped by a backslash. *)
Fixpoint open_quotes (escaped : bool) (w : list char) : nat :=
  match w with
  | [] => 0
  | c :: w' =>
      if escaped then open_quotes false w'
      else if (c =? 92)%N then open_quotes true w'
      else (if (c =? 34)%N then 1 else 0) + open_quotes false w'
  end.

(** No literal of the input names the character [c]. *)
Definition glit_free (c : char) (g : glit) : Prop :=
  match g with GMatch x => x <> c | GClass _ => True | GRange a b => a <> c /\ b <> c end.
Definition input_free (c : char) (i : input) : Prop :=
  match i with
  | ILit (LMatch x) => x <> c
  | ILit (LClass _) => True
  | ILit (LGroup _ ls) => forall g, In g ls -> glit_free c g
  | _ => True
  end.

(** An LR automaton has a transition. *)
Definition goes {V T} (c : CfsmModel.cfsm V T) (s : nat) (x : GrammarModel.symbol V T) (t : nat) : Prop :=
  exists st, In st (CfsmModel.cf_states c) /\ CfsmModel.cs_id st = s /\ In (x, t) (CfsmModel.cs_trans st).

(** The line of a transition, with the [Debug] form of its input. *)
Definition edge_line (printable : char -> bool) (e : nat * input * nat) : list char :=
  let '(s, i, t) := e in
  show_id s ++ str " -> " ++ show_id t ++ str " [label = " ++ [34%N] ++ show_input printable i ++ [34%N] ++ str "];".

Section CfsmLines.
  Import GrammarModel CfsmModel.
  Context {V T : Type} (show_v : V -> list char) (show_t : T -> list char).

  (** The line of a state with the items [its]. *)
  Definition node_line (s : nat) (its : list (item V T)) : list char :=
    show_id s ++ str " [label=" ++ [34%N] ++
    join (str "\n") (map (fun it => show_v (fst it) ++ [32; 10142; 32]%N ++ display_item show_v show_t (snd it)) its) ++
    [34%N] ++ str "];".

  (** The line of a transition. *)
  Definition goes_line (e : nat * symbol V T * nat) : list char :=
    let '(s, x, t) := e in
    show_id s ++ str " -> " ++ show_id t ++ str " [label = " ++ [34%N] ++
    (match x with Ter a => show_t a | Var v => show_v v | Eps => str "Epsilon" end) ++ [34%N] ++ str "]".
End CfsmLines.
