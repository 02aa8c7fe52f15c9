(** When the order of the iterations matters: two orders after which [Slr::new], or the
    parser for some input, behaves differently; and a function that tells. *)
From Verif Require Import Base GrammarModel CfsmModel SlrModel SpecCfg SpecPossible SpecExactness SpecBuildable.

Section Matter.
  Context {V T : Type} {dv : DecEq V} {dt : DecEq T} (teq : T -> T -> bool) (g : grammar V T).

  (** One order lets [Slr::new] panic and the other does not, or the parsers have
      different results for an input, which no larger bound on the turns changes. *)
  Definition differ (ho : HashOrder) (p : list nat) (ho' : HashOrder) (p' : list nat) : Prop :=
    exists n, forall fuel, n <= fuel ->
      (slr_new teq (ho := ho) fuel p g = Panic /\ exists tb, slr_new teq (ho := ho') fuel p' g = Val tb) \/
      (slr_new teq (ho := ho') fuel p' g = Panic /\ exists tb, slr_new teq (ho := ho) fuel p g = Val tb) \/
      exists tb tb' ts, slr_new teq (ho := ho) fuel p g = Val tb /\ slr_new teq (ho := ho') fuel p' g = Val tb' /\
        exists m, forall k, m <= k -> ~ agree (parse teq k tb ts) (parse teq k tb' ts).
  Definition order_matters : Prop := exists ho p ho' p', differ ho p ho' p'.

  (** They behave alike. *)
  Definition same (ho : HashOrder) (p : list nat) (ho' : HashOrder) (p' : list nat) : Prop :=
    exists n, forall fuel, n <= fuel ->
      (slr_new teq (ho := ho) fuel p g = Panic /\ slr_new teq (ho := ho') fuel p' g = Panic) \/
      exists tb tb', slr_new teq (ho := ho) fuel p g = Val tb /\ slr_new teq (ho := ho') fuel p' g = Val tb' /\
        forall ts, exists m, forall k, m <= k -> agree (parse teq k tb ts) (parse teq k tb' ts).

  (** Under some order some input gets a tree. *)
  Definition some_tree_at_all : Prop :=
    exists (ho : HashOrder) fuel p tb ts fuel' n, slr_new teq fuel p g = Val tb /\ parse teq fuel' tb ts = Val (Some n).

  (** A rule of the start variable that ends with a terminal and has a text. *)
  Definition closingb : bool :=
    existsb (fun x : V * body V T => eqb (fst x) (g_start g) && match rev (snd x) with Ter _ :: _ => true | _ => false end && forallb (sym_in (productives g)) (snd x)) (all_rules g).
  Definition mattersb : bool :=
    sometimes_built g teq && (negb (always_built g teq) || (maybeb g (g_start g) && negb (sureb g (g_start g)) && closingb)).
End Matter.
