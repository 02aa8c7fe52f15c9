(** C70: the parser ends after linearly many moves or never. *)
From Verif Require Import Base GrammarModel CfsmModel SlrModel SpecCfg SpecMachine SpecCircle SlrWitness SlrLinear.

(** Whatever the grammar, more turns of the main loop than a constant of the
    grammar times the number of tokens change nothing. *)
Theorem C70_linear {V T} `{DecEq V} `{DecEq T} {ho : HashOrder} (teq : T -> T -> bool) (g : grammar V T) fuel p tb ts fuel' :
  lawful teq -> built g -> slr_new teq fuel p g = Val tb ->
  (2 * length ts + 1) * (length (g_rules g) + 1) + 1 <= fuel' ->
  parse teq fuel' tb ts = parse teq ((2 * length ts + 1) * (length (g_rules g) + 1) + 1) tb ts.
Proof. exact (fun Ht Hb => parse_linear teq Ht g Hb fuel p tb ts fuel'). Qed.
Print Assumptions C70_linear.

(** It never ends exactly if the machine of C65 comes back to the same symbols on
    its stack before the same tokens. *)
Theorem C70_circles {V T} `{DecEq V} `{DecEq T} {ho : HashOrder} (teq : T -> T -> bool) (g : grammar V T) fuel p tb ts :
  lawful teq -> built g -> slr_new teq fuel p g = Val tb ->
  ((forall fuel', parse teq fuel' tb ts = Diverge) <-> circles teq g (initial ts)).
Proof. exact (fun Ht Hb => parse_circle teq Ht g Hb fuel p tb ts). Qed.
Print Assumptions C70_circles.

(** One run decides that the parser does not end, for a grammar with an epsilon
    rule and for one with a cycle of unit rules. *)
Example C70_sample : built empties /\ slr_new (ho := id_order) Nat.eqb 60 [] empties = Val empties_table /\ length (g_rules empties) = 2 /\
  parse Nat.eqb 16 empties_table [2; 1] = Diverge /\ forall fuel, parse Nat.eqb fuel empties_table [2; 1] = Diverge.
Proof.
  split; [exact empties_built|]. split; [exact empties_new|]. split; [reflexivity|]. assert (E : parse Nat.eqb 16 empties_table [2; 1] = Diverge) by (vm_compute; reflexivity).
  split; [exact E|]. intros fuel. destruct (Nat.le_gt_cases 16 fuel) as [Hle|Hlt].
  - rewrite (C70_linear Nat.eqb empties 60 [] empties_table [2; 1] fuel eq_lawful empties_built empties_new); [exact E|exact Hle].
  - do 16 (destruct fuel as [|fuel]; [vm_compute; reflexivity|]). lia.
Qed.
Example C70_unit : built circle /\ slr_new (ho := id_order) Nat.eqb 60 [] circle = Val circle_table /\
  exists m1 m2, mmoves Nat.eqb circle 2 (initial [1; 2]) m1 /\ mmoves Nat.eqb circle 2 m1 m2 /\ m1 <> m2 /\
    shape m1 = ([var 1], [2]) /\ shape m2 = ([var 1], [2]).
Proof.
  split; [exact circle_built|]. split; [exact circle_new|].
  assert (L0 : lr0 circle [] (0, [], [var 1])) by (apply (lr0_start circle [var 1]); [a_rule|constructor; discriminate]).
  assert (L1 : lr0 circle [] (1, [], [var 2])) by (apply (lr0_close circle [] 0 [] 1 [] [var 2]); [exact L0|a_rule|constructor; discriminate]).
  assert (L2 : lr0 circle [] (1, [], [ter 1])) by (apply (lr0_close circle [] 0 [] 1 [] [ter 1]); [exact L0|a_rule|constructor; discriminate]).
  assert (L3 : lr0 circle [] (2, [], [var 1])) by (apply (lr0_close circle [] 1 [] 2 [] [var 1]); [exact L1|a_rule|constructor; discriminate]).
  assert (L4 : lr0 circle [ter 1] (1, [ter 1], [])) by (apply (lr0_goto _ _ _ _ _ _ _ _ L2); constructor; discriminate).
  assert (L5 : lr0 circle [var 1] (2, [var 1], [])) by (apply (lr0_goto _ _ _ _ _ _ _ _ L3); constructor; discriminate).
  assert (L6 : lr0 circle [var 2] (1, [var 2], [])) by (apply (lr0_goto _ _ _ _ _ _ _ _ L1); constructor; discriminate).
  assert (S1 : steps circle [var 3] [var 1; ter 2]) by (apply (step_at circle [var 3] [] 3 [var 1; ter 2] []); [constructor|a_rule]).
  assert (F1 : followed_by circle 1 2) by (exists 3, [], []; split; [eexists; a_rule|exact S1]).
  assert (F2 : followed_by circle 2 2).
  { exists 3, [], []. split; [eexists; a_rule|]. apply (step_at circle [var 3] [] 1 [var 2] [ter 2]); [exact S1|a_rule]. }
  eexists. eexists. split; [|split; [|split; [|split]]].
  - econstructor; [apply (mmove_shift _ _ [] 1 [2] 1 _ _ _ L2); reflexivity|]. econstructor; [|constructor].
    apply (mmove_reduce _ _ [(ter 1, Node (ter 1) [])] [] 2 [] 2 1 [ter 1] 0 [] [] L4 F1 eq_refl eq_refl L0).
  - econstructor; [apply (mmove_reduce _ _ [(var 1, _)] [] 2 [] 2 2 [var 1] 1 [] [] L5 F2 eq_refl eq_refl L1)|]. econstructor; [|constructor].
    apply (mmove_reduce _ _ [(var 2, _)] [] 2 [] 2 1 [var 2] 0 [] [] L6 F1 eq_refl eq_refl L0).
  - discriminate.
  - reflexivity.
  - reflexivity.
Qed.
(** The bound is met with room: a text on which the parser ends. *)
Example C70_ends : built stmts /\ slr_new (ho := id_order) Nat.eqb 60 [] stmts = Val stmts_table /\
  parse Nat.eqb 40 stmts_table stmts_text = Val (Some (to_node stmts_tree)) /\ ~ circles Nat.eqb stmts (initial stmts_text).
Proof.
  split; [exact stmts_built|]. split; [exact stmts_new|]. split; [vm_compute; reflexivity|].
  intros Hc. pose proof (proj2 (C70_circles Nat.eqb stmts 60 [] stmts_table stmts_text eq_lawful stmts_built stmts_new) Hc 40) as E.
  vm_compute in E. discriminate E.
Qed.
