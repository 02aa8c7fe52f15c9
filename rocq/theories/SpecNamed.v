(** Specification of the grammar in which every terminal has a variable of its own. *)
From Verif Require Import Base GrammarModel SpecCfg.

#[global] Instance sum_deceq {A B} `{DecEq A} `{DecEq B} : DecEq (A + B).
Proof.
  refine {| eqb := fun x y => match x, y with inl a, inl b => eqb a b | inr a, inr b => eqb a b | _, _ => false end |}.
  intros [x|x] [y|y]; try (split; congruence); rewrite eqb_eq; split; congruence.
Defined.

Section Named.
  Context {V T : Type}.

  (** The variable for a symbol: [inr t] for the terminal [t]. *)
  Definition name (s : symbol V T) : symbol (V + T) T :=
    match s with Ter t => Var (inr t) | Var v => Var (inl v) | Eps => Eps end.

  (** The calls with variables in place of the terminals, and rules [inr t -> t]. *)
  Definition named_calls (cs : list (call V T)) : list (call (V + T) T) :=
    map (fun c => match c with CallStart v => CallStart (inl v) | CallRule v bd => CallRule (inl v) (map name bd) end) cs ++
    flat_map (fun c => match c with
      | CallStart _ => []
      | CallRule _ bd => flat_map (fun s => match s with Ter t => [CallRule (inr t) [Ter t]] | _ => [] end) bd
      end) cs.

  (** Terminals of the rules that are equal for [terminal_eq] are written alike. *)
  Definition alike (teq : T -> T -> bool) (g : grammar V T) : Prop := forall v bd t v' bd' t',
    rule g v bd -> In (Ter t) bd -> rule g v' bd' -> In (Ter t') bd' -> teq t t' = true -> t = t'.

  (** The tree with a node for the variable above every leaf. *)
  Inductive named (teq : T -> T -> bool) : tree V T -> tree (V + T) T -> Prop :=
  | named_leaf : forall a t, teq a t = true -> named teq (Leaf t) (Branch (inr a) [Leaf t])
  | named_branch : forall v xs ys, Forall2 (named teq) xs ys -> named teq (Branch v xs) (Branch (inl v) ys).
End Named.
