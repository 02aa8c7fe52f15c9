(** Property C108: exactly when the order of the iterations matters. *)
From Verif Require Import Base GrammarModel CfsmModel SlrModel SpecCfg SlrFinal SlrWitness EntryProofs.

(** C108: the variables with an entry in the FOLLOW map under every order are those
    of [entry_sure], and one order gives no others; under some order those of
    [entry_possible], and one order gives them all. *)
Theorem C108_entries {V T} `{DecEq V} `{DecEq T} (g : grammar V T) p : built g ->
  (forall (ho : HashOrder) fuel fs, follow_set fuel p g = Val fs ->
     forall v, (entry_sure g v -> mget v fs <> None) /\ (mget v fs <> None -> entry_possible g v)) /\
  (exists (ho : HashOrder) fuel fs, follow_set fuel p g = Val fs /\ forall v, mget v fs <> None <-> entry_sure g v) /\
  (exists (ho : HashOrder) fuel fs, follow_set fuel p g = Val fs /\ forall v, mget v fs <> None <-> entry_possible g v).
Proof. exact (fun Hb => conj (fun ho fuel fs => always g Hb ho fuel p fs) (conj (fewest g Hb p) (most g Hb p))). Qed.
Print Assumptions C108_entries.

(** [Slr::new] panics under some order, and succeeds under some order, exactly if
    two requests clash, or do not, with the accepts of these. *)
Theorem C108_new {V T} `{DecEq V} `{DecEq T} (teq : T -> T -> bool) (g : grammar V T) : lawful teq -> built g ->
  ((exists (ho : HashOrder) p n, forall fuel, n <= fuel -> slr_new teq fuel p g = Panic) <-> clash g teq (entry_possible g (g_start g))) /\
  ((exists (ho : HashOrder) p n tb, forall fuel, n <= fuel -> slr_new teq fuel p g = Val tb) <-> ~ clash g teq (entry_sure g (g_start g))).
Proof. exact (fun Ht Hb => some_order g Hb teq Ht). Qed.
Print Assumptions C108_new.

(** Without epsilon: a tree is returned under some order ... *)
Theorem C108_tree {V T} `{DecEq V} `{DecEq T} (teq : T -> T -> bool) (g : grammar V T) ts x : lawful teq -> built g -> epsilon_free g ->
  (exists (ho : HashOrder) fuel p tb fuel', slr_new teq fuel p g = Val tb /\ parse teq fuel' tb ts = Val (Some (to_node x))) <->
  entry_possible g (g_start g) /\ ~ clash g teq (entry_possible g (g_start g)) /\ accepted teq g ts x.
Proof. exact (fun Ht Hb He => some_tree g Hb teq Ht He ts x). Qed.
Print Assumptions C108_tree.

(** ... and is not returned under some order. *)
Theorem C108_no_tree {V T} `{DecEq V} `{DecEq T} (teq : T -> T -> bool) (g : grammar V T) ts x : lawful teq -> built g -> epsilon_free g ->
  accepted teq g ts x ->
  (exists (ho : HashOrder) fuel p tb, slr_new teq fuel p g = Val tb /\ forall fuel' n, parse teq fuel' tb ts <> Val (Some n)) <->
  ~ entry_sure g (g_start g) /\ ~ clash g teq (entry_sure g (g_start g)).
Proof. exact (fun Ht Hb He => some_none g Hb teq Ht He ts x). Qed.
Print Assumptions C108_no_tree.

(** [0 -> a], [1 -> 2 epsilon], [2 -> 3], [3 -> 0]: the entry of 2 is empty, and 0
    gets one only if it is handed on to 3 first. *)
Example C108_sample : lawful Nat.eqb /\ built fickle /\ epsilon_free fickle /\ accepted Nat.eqb fickle [1] (Branch 0 [Leaf 1]) /\
  entry_possible fickle 0 /\ ~ entry_sure fickle 0.
Proof.
  assert (Hl : lawful Nat.eqb) by exact eq_lawful.
  assert (Hf : epsilon_free fickle).
  { intros v bd (l & r & H) Hr. assert (Hv : forall x, steps fickle [Var 0] x -> x = [Var 0] \/ x = [ter 1]).
    { intros x Hx. remember [Var 0] as x0 eqn:E0. induction Hx as [x|x y z Hx IH Hs]; [auto|]. specialize (IH E0). subst x. destruct Hs as [l' v' bd' r' Hr'|l' r'].
      - destruct IH as [IH|IH]; destruct l' as [|? [|? ?]]; cbn in IH; try discriminate IH. injection IH as -> ->.
        remember 0 as z eqn:Ez in Hr'. each_rule Hr'; try discriminate. auto.
      - destruct IH as [IH|IH]; destruct l' as [|? [|? ?]]; cbn in IH; discriminate IH. }
    destruct (Hv _ H) as [E|E]; destruct l as [|? [|? ?]]; cbn in E; try discriminate E. injection E as -> ->.
    remember 0 as z eqn:Ez in Hr. each_rule Hr; try discriminate. cbn. intuition discriminate. }
  assert (Ht : entry_possible fickle 0 /\ ~ clash fickle Nat.eqb (entry_possible fickle 0) /\ accepted Nat.eqb fickle [1] (Branch 0 [Leaf 1])).
  { apply (C108_tree Nat.eqb fickle [1] (Branch 0 [Leaf 1]) Hl fickle_built Hf).
    exists id_order, 60, [], fickle_table, 4. split; [exact fickle_new|]. exact (fickle_run 4 (le_n _)). }
  destruct Ht as (H1 & _ & H3). split; [exact Hl|]. split; [exact fickle_built|]. split; [exact Hf|]. split; [exact H3|]. split; [exact H1|].
  apply (C108_no_tree Nat.eqb fickle [1] _ Hl fickle_built Hf H3). exists third_order, 60, [], fickle_table'.
  split; [exact fickle_new'|]. intros fuel n Hp. destruct (Nat.le_gt_cases 4 fuel) as [Hle|Hgt]; [rewrite (fickle_run' fuel Hle) in Hp; discriminate|].
  destruct fuel as [|[|[|[|fuel]]]]; try lia; vm_compute in Hp; discriminate.
Qed.

(** With [0 -> epsilon | epsilon epsilon] instead, [Slr::new] panics under one order
    and succeeds under another. *)
Definition torn : grammar nat nat := gram [(0, [eps]); (0, [eps; eps]); (1, [var 2; eps]); (2, [var 3]); (3, [var 0])].
Example C108_torn : built torn /\ slr_new (ho := id_order) Nat.eqb 60 [] torn = Panic /\
  slr_new (ho := third_order) Nat.eqb 60 [] torn = Val (new_of third_order Nat.eqb torn).
Proof. split; [apply gram_built; reflexivity|]. split; vm_compute; reflexivity. Qed.
