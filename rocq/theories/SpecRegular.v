(** Specification of finite automata over tokens and of their two textbook
    grammars, the left linear and the right linear one. *)
From Verif Require Import Base GrammarModel SpecCfg.

(** The variables of the grammars: one for every state, one for the words of the
    automaton, one for the words with the end token. *)
Inductive place {Q : Type} := Goal | Whole | At (q : Q).
Arguments place : clear implicits.

#[global] Instance place_deceq {Q} `{DecEq Q} : DecEq (place Q).
Proof.
  refine {| eqb := fun x y => match x, y with Goal, Goal | Whole, Whole => true | At q, At q' => eqb q q' | _, _ => false end |}.
  intros [| |q] [| |q']; try (split; congruence). rewrite eqb_eq. split; congruence.
Defined.

Section Regular.
  Context {Q T : Type}.

  Record machine := { d_start : Q; d_edges : list (Q * T * Q); d_final : list Q }.

  Variable teq : T -> T -> bool.
  Variable d : machine.

  (** The tokens [w] lead from [q] to a state; an edge takes all tokens that equal its label. *)
  Inductive leads (q : Q) : list T -> Q -> Prop :=
  | leads_none : leads q [] q
  | leads_more : forall w p a t p', leads q w p -> In (p, a, p') (d_edges d) -> teq a t = true -> leads q (w ++ [t]) p'.

  Definition takes (w : list T) : Prop := exists f, In f (d_final d) /\ leads (d_start d) w f.

  (** Equal labels are written alike, and at most one edge of a state has a label. *)
  Definition deterministic : Prop := forall q a p q' a' p',
    In (q, a, p) (d_edges d) -> In (q', a', p') (d_edges d) -> teq a a' = true -> a = a' /\ (q = q' -> p = p').

  (** Every edge is on a way from the first to a final state. *)
  Definition trim : Prop := forall q a p, In (q, a, p) (d_edges d) ->
    (exists w, leads (d_start d) w q) /\ exists w f, In f (d_final d) /\ leads p w f.

  Definition unlabelled (e : T) : Prop := forall q a p, In (q, a, p) (d_edges d) -> teq a e = false.

  (** Some edge ends in the state. *)
  Definition entered `{DecEq Q} (q : Q) : bool := existsb (fun x => eqb (snd x) q) (d_edges d).

  (** The left linear grammar.  An edge [q -a-> p] gives [p -> q a], and
      [p -> a] if [q] is the first state; the words are those of the final states. *)
  Definition left_linear `{DecEq Q} : list (call (place Q) T) :=
    flat_map (fun '(q, a, p) =>
      (if eqb q (d_start d) then [CallRule (At p) [Ter a]] else []) ++
      (if entered q then [CallRule (At p) [Var (At q); Ter a]] else [])) (d_edges d) ++
    flat_map (fun f => if entered f then [CallRule Whole [Var (At f)]] else []) (d_final d) ++
    [CallStart Whole].

  (** The right linear grammar.  An edge [q -a-> p] gives [q -> a p], and
      [q -> a] if [p] is final; the first state stands for the words. *)
  Definition right_linear `{DecEq Q} : list (call (place Q) T) :=
    flat_map (fun '(q, a, p) =>
      (if existsb (eqb p) (d_final d) then [CallRule (At q) [Ter a]] else []) ++
      (if existsb (fun x => eqb (fst (fst x)) p) (d_edges d) then [CallRule (At q) [Ter a; Var (At p)]] else [])) (d_edges d) ++
    [CallStart (At (d_start d))].
End Regular.
Arguments machine : clear implicits.
