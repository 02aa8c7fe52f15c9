(** All outcomes are outcomes for one collected order. *)
From Verif Require Import Base GrammarModel CfsmModel SlrModel OrderModel OrderProofs OrderLink OrderNames.

Lemma outcomes {A} (c : prog A) (f : HashOrder -> res A) S Q r : only c S Q -> (forall ho, run ho c = f ho) ->
  outcome c r <-> exists ho, f ho = r.
Proof.
  intros Hn Hr. split.
  - intros Ho. destruct (outcome_run c r Ho S Q _ Hn) as (ho & E). exists ho. rewrite <- Hr. exact E.
  - intros (ho & <-). rewrite <- Hr. apply run_outcome.
Qed.

Section All.
  Context {V T : Type} `{DecEq V} `{DecEq T} (teq : T -> T -> bool) (fuel : nat) (p : list nat) (g : grammar V T).

  Lemma slr_outcomes r : outcome (o_slr_new teq fuel p g) r <-> exists ho, @slr_new V T _ _ teq ho fuel p g = r.
  Proof. exact (outcomes _ _ _ _ r (only_slr_new teq fuel p g) (fun ho => run_slr_new ho teq fuel p g)). Qed.
  Lemma automaton_outcomes r : outcome (o_from_grammar fuel p g) r <-> exists ho, @from_grammar V T _ _ ho fuel p g = r.
  Proof. exact (outcomes _ _ _ _ r (only_from_grammar fuel p g) (fun ho => run_from_grammar ho fuel p g)). Qed.
  Lemma follow_outcomes r : outcome (o_follow_set fuel p g) r <-> exists ho, @follow_set V T _ _ ho fuel p g = r.
  Proof. exact (outcomes _ _ _ _ r (only_follow_set fuel p g) (fun ho => run_follow_set ho fuel p g)). Qed.
  Lemma first_outcomes v r : outcome (o_first fuel p g v) r <-> exists ho, @first V T _ _ ho fuel p g v = r.
  Proof. exact (outcomes _ _ _ _ r (only_first fuel p g v) (fun ho => run_first ho fuel p g v)). Qed.
End All.
