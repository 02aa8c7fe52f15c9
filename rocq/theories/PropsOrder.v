(** Property C95: the model has every behaviour the iteration orders allow. *)
From Verif Require Import Base GrammarModel CfsmModel SlrModel OrderModel OrderProofs OrderLink OrderAll.

(** C95: if every single iteration over a hash container has an arbitrary order
    of its own, [Slr::new] can do exactly what the model does with some
    [HashOrder].  So whatever is proved for every [HashOrder] holds for all orders. *)
Theorem C95_slr_new {V T} `{DecEq V} `{DecEq T} (teq : T -> T -> bool) fuel p (g : grammar V T) r :
  outcome (o_slr_new teq fuel p g) r <-> exists ho, @slr_new V T _ _ teq ho fuel p g = r.
Proof. exact (slr_outcomes teq fuel p g r). Qed.
Print Assumptions C95_slr_new.

(** ... and so can [Cfsm::from_grammar], ... *)
Theorem C95_automaton {V T} `{DecEq V} `{DecEq T} fuel p (g : grammar V T) r :
  outcome (o_from_grammar fuel p g) r <-> exists ho, @from_grammar V T _ _ ho fuel p g = r.
Proof. exact (automaton_outcomes fuel p g r). Qed.
Print Assumptions C95_automaton.

(** ... [Grammar::follow_set] ... *)
Theorem C95_follow {V T} `{DecEq V} `{DecEq T} fuel p (g : grammar V T) r :
  outcome (o_follow_set fuel p g) r <-> exists ho, @follow_set V T _ _ ho fuel p g = r.
Proof. exact (follow_outcomes fuel p g r). Qed.
Print Assumptions C95_follow.

(** ... and [Grammar::first]. *)
Theorem C95_first {V T} `{DecEq V} `{DecEq T} fuel p (g : grammar V T) v r :
  outcome (o_first fuel p g v) r <-> exists ho, @first V T _ _ ho fuel p g v = r.
Proof. exact (first_outcomes fuel p g v r). Qed.
Print Assumptions C95_first.

(** An order that turns some of the iterations round. *)
Definition mixed : HashOrder :=
  {| hash_at := fun k A l => if Nat.odd (length k) then rev l else l;
     hash_at_perm := fun k A l => match Nat.odd (length k) as b return Permutation (if b then rev l else l) l with
                                  | true => Permutation_sym (Permutation_rev l)
                                  | false => Permutation_refl l
                                  end |}.
(** 0 -> 0 1 2 | 3 1, with 1 -> a | b: three orders, three parsers. *)
Example C95_sample :
  let g := {| g_start := 0; g_rules := [(0, [[Var 0; Var 1; Ter 2]; [Ter 3; Var 1]]); (1, [[Ter 4]; [Ter 5]])] |} in
  exists tb1 tb2 tb3, outcome (o_slr_new Nat.eqb 60 [] g) (Val tb1) /\ outcome (o_slr_new Nat.eqb 60 [] g) (Val tb2) /\
    outcome (o_slr_new Nat.eqb 60 [] g) (Val tb3) /\ tb1 <> tb2 /\ tb2 <> tb3 /\ tb1 <> tb3.
Proof.
  cbv zeta. do 3 eexists. split; [apply C95_slr_new; exists id_order; vm_compute; reflexivity|].
  split; [apply C95_slr_new; exists rev_order; vm_compute; reflexivity|].
  split; [apply C95_slr_new; exists mixed; vm_compute; reflexivity|]. repeat split; discriminate.
Qed.
