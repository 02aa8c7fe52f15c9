(** Properties C53 and C54: the tokens the parser reads and the steps it makes. *)
From Verif Require Import Base GrammarModel SlrModel SpecCfg SpecPrefix SlrWitness SlrReads.

(** C53 fails with an epsilon rule, where a token that no sentence has in that
    place is read and a text is accepted; and without epsilon when a variable
    derives no text. *)
Theorem C53_prefix_refuted :
  (exists (g : grammar nat nat) tb n, built g /\ (forall v, reachable g v -> productive g v) /\
    slr_new (ho := id_order) Nat.eqb 60 [] g = Val tb /\ ~ begins_sentence g Nat.eqb [1; 4] /\
    forall fuel, 5 <= fuel -> parse Nat.eqb fuel tb [1; 4] = Val (Some n) /\ parse Nat.eqb fuel tb [1; 4; 1] = Val None) /\
  (exists (g : grammar nat nat) tb next1 next2, built g /\ epsilon_free g /\
    slr_new (ho := id_order) Nat.eqb 60 [] g = Val tb /\ ~ begins_sentence g Nat.eqb [1; 2] /\
    reads next1 0 [1; 2] 2 /\ reads next2 0 [1; 2] 2 /\
    forall fuel, 4 <= fuel -> parse_from Nat.eqb next1 fuel tb 0 = Val None /\ parse_from Nat.eqb next2 fuel tb 0 = Panic).
Proof.
  split.
  - exists lost, lost_table. eexists. split; [exact lost_built|]. split; [exact lost_reach_prod|]. split; [exact lost_new|].
    split; [exact lost_bad|]. exact lost_runs.
  - exists endless, endless_table. do 2 eexists. split; [exact endless_built|]. split; [exact endless_free|]. split; [exact endless_new|].
    split; [exact endless_bad|]. split; [apply source_reads|]. split; [apply source_reads|]. exact endless_runs.
Qed.
Print Assumptions C53_prefix_refuted.

(** C53 for grammars without epsilon whose reachable variables derive texts: the
    outcome is fixed, and is no tree, once a token came that continues no sentence.
    Nothing after it is read.  Missing: the other grammars (refuted above). *)
Theorem C53_prefix_partial {V T} `{DecEq V} `{DecEq T} {ho : HashOrder} (teq : T -> T -> bool) (g : grammar V T)
  {L1 L2} (next1 : L1 -> res (option T * L1)) (next2 : L2 -> res (option T * L2)) fuel p tb fuel' u t i1 j1 i2 j2 :
  lawful teq -> built g -> epsilon_free g -> (forall v, reachable g v -> productive g v) -> slr_new teq fuel p g = Val tb ->
  ~ begins_sentence g teq (u ++ [t]) -> reads next1 i1 (u ++ [t]) j1 -> reads next2 i2 (u ++ [t]) j2 ->
  parse_from teq next1 fuel' tb i1 = parse_from teq next2 fuel' tb i2 /\ forall n, parse_from teq next1 fuel' tb i1 <> Val (Some n).
Proof. exact (fun Ht Hb => stops_at_bad_token teq Ht g Hb next1 next2 fuel p tb fuel' u t i1 j1 i2 j2). Qed.
Print Assumptions C53_prefix_partial.

(** The same for token lists. *)
Theorem C53_lists_partial {V T} `{DecEq V} `{DecEq T} {ho : HashOrder} (teq : T -> T -> bool) (g : grammar V T) fuel p tb fuel' u t v v' :
  lawful teq -> built g -> epsilon_free g -> (forall v, reachable g v -> productive g v) -> slr_new teq fuel p g = Val tb ->
  ~ begins_sentence g teq (u ++ [t]) ->
  parse teq fuel' tb (u ++ t :: v) = parse teq fuel' tb (u ++ t :: v') /\ forall n, parse teq fuel' tb (u ++ t :: v) <> Val (Some n).
Proof. exact (fun Ht Hb => list_stops_at_bad_token teq Ht g Hb fuel p tb fuel' u t v v'). Qed.
Print Assumptions C53_lists_partial.

(** [x + +] in the grammar [stmts] of C35-C44; the source that panics after it is
    never asked. *)
Example C53_sample : built stmts /\ epsilon_free stmts /\ (forall v, reachable stmts v -> productive stmts v) /\
  slr_new (ho := id_order) Nat.eqb 60 [] stmts = Val stmts_table /\ ~ begins_sentence stmts Nat.eqb ([1; 2] ++ [2]) /\
  parse Nat.eqb 60 stmts_table ([1; 2] ++ 2 :: [1; 3]) = Val None /\
  parse_from Nat.eqb (fun i => match i with 0 => Val (Some 1, 1) | 1 => Val (Some 2, 2) | 2 => Val (Some 2, 3) | _ => Panic end) 60
    stmts_table 0 = Val None.
Proof.
  split; [exact stmts_built|]. split; [exact stmts_free|]. split; [exact stmts_reach_prod|]. split; [exact stmts_new|].
  split; [exact stmts_bad|]. split; vm_compute; reflexivity.
Qed.

(** C54 for the grammars of C40: the main loop turns at most so often, with the
    number of tokens times a constant of the grammar.  Missing: the grammars on
    which the parser does not end (C40). *)
Theorem C54_steps_partial {V T} `{DecEq V} `{DecEq T} {ho : HashOrder} (teq : T -> T -> bool) (g : grammar V T) fuel p tb ts fuel' :
  lawful teq -> built g -> epsilon_free g -> all_reachable g \/ no_unit_cycle g -> slr_new teq fuel p g = Val tb ->
  (2 * length ts + 1) * (length (g_rules g) + 1) + 1 <= fuel' -> parse teq fuel' tb ts <> Diverge.
Proof. exact (fun Ht Hb => parse_steps teq Ht g Hb fuel p tb ts fuel'). Qed.
Print Assumptions C54_steps_partial.
Example C54_sample : built stmts /\ epsilon_free stmts /\ all_reachable stmts /\
  slr_new (ho := id_order) Nat.eqb 60 [] stmts = Val stmts_table /\ length (g_rules stmts) = 2 /\
  parse Nat.eqb 40 stmts_table stmts_text = Val (Some (to_node stmts_tree)) /\ parse Nat.eqb 8 stmts_table stmts_text = Diverge.
Proof.
  split; [exact stmts_built|]. split; [exact stmts_free|]. split; [exact stmts_reachable|]. split; [exact stmts_new|].
  repeat split; vm_compute; reflexivity.
Qed.
