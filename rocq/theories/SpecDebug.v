(** Vocabulary of the properties of the [Debug] texts. *)
From Verif Require Import Base GrammarModel CfsmModel SlrModel DebugModel.

(** The characters of names and numbers: no blanks, no quotes, no punctuation of
    the debug builders. *)
Definition word_char (c : char) : Prop :=
  ~ In c (str " ,:()[]{}'") /\ c <> 34%N /\ c <> 10%N.

(** What follows the opening quote [q] in a string or character literal: a
    backslash takes the next character with it. *)
Inductive literal (q : char) : list char -> Prop :=
| literal_end : literal q [q]
| literal_char c w : c <> q -> c <> 92%N -> c <> 10%N -> literal q w -> literal q (c :: w)
| literal_escape c w : c <> 10%N -> literal q w -> literal q (92%N :: c :: w).

(** The [Debug] implementations a user gets by deriving them: atoms are
    identifiers, numbers or literals, names are identifiers, and a struct has a
    name. *)
Inductive tame : dbg -> Prop :=
| tame_word w : w <> [] -> Forall word_char w -> tame (Atom w)
| tame_literal q w : q = 34%N \/ q = 39%N -> literal q w -> tame (Atom (q :: w))
| tame_group name b es :
    Forall word_char name -> (b = Fields -> name <> []) ->
    (forall l v, In (l, v) es -> tame v) ->
    (forall l v, In (Some l, v) es -> tame l) ->
    tame (Group name b es).

(** A [Debug] implementation that tells values apart. *)
Definition telling {A} (f : A -> dbg) : Prop := (forall x, tame (f x)) /\ (forall x y, f x = f y -> x = y).

(** Two grammars with the same start variable, the same variables with rules
    and the same bodies for each of them. *)
Definition same_grammar {V T} (g g' : grammar V T) : Prop :=
  g_start g = g_start g' /\
  (forall v, In v (map fst (g_rules g)) <-> In v (map fst (g_rules g'))) /\
  (forall v bd, (exists bs, In (v, bs) (g_rules g) /\ In bd bs) <-> (exists bs, In (v, bs) (g_rules g') /\ In bd bs)).

(** Two states with the same number, the same items and the same transitions. *)
Definition same_state {V T} (x y : cstate V T) : Prop :=
  cs_id x = cs_id y /\ (forall it, In it (cs_items x) <-> In it (cs_items y)) /\
  (forall e, In e (cs_trans x) <-> In e (cs_trans y)).

(** Two automata of the same grammar with the same states in the same order. *)
Definition same_cfsm {V T} (c c' : cfsm V T) : Prop :=
  cf_start c = cf_start c' /\ Forall2 same_state (cf_states c) (cf_states c') /\ same_grammar (cf_grammar c) (cf_grammar c').
