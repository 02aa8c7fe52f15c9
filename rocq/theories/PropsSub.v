(** Properties C81, C82 and C83: grammars with more or fewer rules. *)
From Verif Require Import Base GrammarModel CfsmModel SlrModel SpecCfg SpecSub SlrWitness SubWitness SubProofs.

(** C81 fails only at the end of the input: whether [0 -> 4 | 4 epsilon] is rejected
    depends on the order of the hash maps, if the FOLLOW entry of [0] does. *)
Theorem C81_fewer_refuted : exists (g g' : grammar nat nat) (ho : HashOrder) tb', built g /\ built g' /\ fewer_rules g g' /\
  slr_new (ho := ho) Nat.eqb 60 [] g' = Val tb' /\ slr_new (ho := id_order) Nat.eqb 60 [] g = Panic.
Proof.
  exists fickle2, fickle2, third_order. eexists. split; [exact fickle2_built|]. split; [exact fickle2_built|].
  split; [exact (conj eq_refl (fun v bd H => H))|]. split; [vm_compute; reflexivity|vm_compute; reflexivity].
Qed.
Print Assumptions C81_fewer_refuted.

(** C81, what holds: if [Slr::new] succeeds for a grammar, it succeeds under every
    order for every grammar with the same start variable and some of its rules.  Put
    the other way: adding rules never removes a conflict.  Missing: a start variable
    whose FOLLOW entry depends on the order (refuted above). *)
Theorem C81_fewer_partial {V T} `{DecEq V} `{DecEq T} (teq : T -> T -> bool) (g g' : grammar V T) (ho ho' : HashOrder) p p' fuel' tb' :
  lawful teq -> built g -> built g' -> fewer_rules g g' -> (entry_possible g (g_start g) -> entry_sure g' (g_start g)) ->
  slr_new (ho := ho') teq fuel' p' g' = Val tb' ->
  exists n tb, forall fuel, n <= fuel -> slr_new (ho := ho) teq fuel p g = Val tb.
Proof. exact (fun Ht Hb Hb' Hs => fewer_new teq Ht g g' Hs Hb Hb' ho ho' p p' fuel' tb'). Qed.
Print Assumptions C81_fewer_partial.

(** C82: if [Slr::new] succeeds for both grammars, the parser with more rules
    returns every tree that the parser with fewer returns, and does not end where that
    one does not. *)
Theorem C82_more_rules {V T} `{DecEq V} `{DecEq T} (teq : T -> T -> bool) (g g' : grammar V T) (ho ho' : HashOrder) p p' fuel fuel' tb tb' ts :
  lawful teq -> built g -> built g' -> fewer_rules g g' ->
  slr_new (ho := ho) teq fuel p g = Val tb -> slr_new (ho := ho') teq fuel' p' g' = Val tb' ->
  ((entry_possible g (g_start g) -> entry_sure g' (g_start g)) -> forall k n, parse teq k tb ts = Val (Some n) ->
    exists k', forall f, k' <= f -> parse teq f tb' ts = Val (Some n)) /\
  ((forall k, parse teq k tb ts = Diverge) -> forall k, parse teq k tb' ts = Diverge).
Proof. exact (fun Ht Hb Hb' Hs => fewer_parse teq Ht g g' Hs Hb Hb' ho ho' p p' fuel fuel' tb tb' ts). Qed.
Print Assumptions C82_more_rules.

(** Lists of [x ;] and lists of sums. *)
Example C81_sample : lawful Nat.eqb /\ built items /\ built stmts /\ fewer_rules items stmts /\
  (entry_possible items (g_start items) -> entry_sure stmts (g_start items)) /\
  slr_new (ho := id_order) Nat.eqb 60 [] stmts = Val stmts_table /\ slr_new (ho := id_order) Nat.eqb 60 [] items = Val items_table.
Proof.
  split; [exact eq_lawful|]. split; [exact items_built|]. split; [exact stmts_built|]. split; [exact items_fewer|].
  split; [intros _; exact stmts_entry|]. split; [exact stmts_new|exact items_new].
Qed.
Example C82_sample : parse Nat.eqb 40 items_table [1; 3; 1; 3] = parse Nat.eqb 40 stmts_table [1; 3; 1; 3] /\
  (exists n, parse Nat.eqb 40 stmts_table [1; 3; 1; 3] = Val (Some n)) /\
  parse Nat.eqb 40 items_table [1; 2; 1; 3] = Val None /\ exists n, parse Nat.eqb 40 stmts_table [1; 2; 1; 3] = Val (Some n).
Proof.
  split; [vm_compute; reflexivity|]. split; [eexists; vm_compute; reflexivity|]. split; [vm_compute; reflexivity|].
  eexists; vm_compute; reflexivity.
Qed.

(** C83 fails: with the rule [1 -> 0 b], which can never be used, [0 -> a] accepts
    [a] instead of panicking; and [0 -> 1 b | 2 c], [1 -> 2], [2 -> x] is rejected with the rule
    [3 -> 1 c]. *)
Theorem C83_unused_refuted :
  (exists (g g' : grammar nat nat) tb tb' n, built g /\ built g' /\ same_reachable g g' /\
    slr_new (ho := id_order) Nat.eqb 60 [] g = Val tb /\ slr_new (ho := id_order) Nat.eqb 60 [] g' = Val tb' /\
    forall fuel, 10 <= fuel -> parse Nat.eqb fuel tb [1] = Panic /\ parse Nat.eqb fuel tb' [1] = Val (Some n)) /\
  (exists (g g' : grammar nat nat) tb, built g /\ built g' /\ same_reachable g g' /\
    slr_new (ho := id_order) Nat.eqb 60 [] g = Val tb /\
    forall (ho : HashOrder) p, exists n, forall fuel, n <= fuel -> slr_new Nat.eqb fuel p g' = Panic).
Proof. exact (conj unused_accepts unused_rejects). Qed.
Print Assumptions C83_unused_refuted.

(** C83, what holds, without epsilon: if [Slr::new] succeeds for both grammars and
    the start variable has a FOLLOW entry, both parsers return the same trees.
    Missing: the two ways above in which rules that cannot be used matter. *)
Theorem C83_unused_partial {V T} `{DecEq V} `{DecEq T} (teq : T -> T -> bool) (g g' : grammar V T) (ho ho' : HashOrder) p p' fuel fuel' tb tb' ts n :
  lawful teq -> built g -> built g' -> same_reachable g g' -> epsilon_free g -> entry_sure g (g_start g) ->
  slr_new (ho := ho) teq fuel p g = Val tb -> slr_new (ho := ho') teq fuel' p' g' = Val tb' ->
  (exists k, parse teq k tb ts = Val (Some n)) <-> (exists k, parse teq k tb' ts = Val (Some n)).
Proof. exact (fun Ht Hb Hb' Hs => unused_parse teq Ht g g' Hs Hb Hb' ho ho' p p' fuel fuel' tb tb' ts n). Qed.
Print Assumptions C83_unused_partial.

Example C83_sample : built stmts /\ built stmts_more /\ same_reachable stmts stmts_more /\ epsilon_free stmts /\ entry_sure stmts (g_start stmts) /\
  slr_new (ho := id_order) Nat.eqb 60 [] stmts = Val stmts_table /\ slr_new (ho := id_order) Nat.eqb 60 [] stmts_more = Val stmts_more_table /\
  parse Nat.eqb 40 stmts_more_table [1; 2; 1; 3] = parse Nat.eqb 40 stmts_table [1; 2; 1; 3] /\
  exists n, parse Nat.eqb 40 stmts_table [1; 2; 1; 3] = Val (Some n).
Proof.
  split; [exact stmts_built|]. split; [exact stmts_more_built|]. split; [exact stmts_more_same|]. split; [exact stmts_free|].
  split; [exact stmts_entry|]. split; [exact stmts_new|]. split; [exact stmts_more_new|].
  split; [vm_compute; reflexivity|eexists; vm_compute; reflexivity].
Qed.
