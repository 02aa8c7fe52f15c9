(** Properties C35-C44 and C47: the parse table and the parser. *)
From Verif Require Import Base RegexModel SpecRegex NfaModel SpecNfa LexerModel SpecLexer LexerWitness
  GrammarModel CfsmModel SlrModel PangoModel SpecCfg SlrNew SlrFinal SlrWitness.

(** The examples use the grammar [stmts]: [0 -> 0 1 ; | 1 ;], [1 -> 1 + x | x],
    with [x = 1], [+ = 2] and [; = 3], and the text [x + x ; x ;]. *)

(** C35 fails: [0 -> a b | a c] has no conflict, and [Slr::new] panics whatever
    the hash order. *)
Theorem C35_slr_new_refuted : exists g : grammar nat nat,
  built g /\ ~ slr_conflict g /\
  forall (ho : HashOrder) p, exists n, forall fuel, n <= fuel -> slr_new Nat.eqb fuel p g = Panic.
Proof. exists shared. exact (conj shared_built (conj shared_no_conflict (@shared_panics))). Qed.
Print Assumptions C35_slr_new_refuted.

(** C35, what holds.  [Slr::new] returns; when it panics two different requests
    fall on one cell of the table, when it succeeds none do.  Missing from C35: two
    items that read the same terminal count as a conflict (refuted above). *)
Theorem C35_slr_new_partial {V T} `{DecEq V} `{DecEq T} {ho : HashOrder} (teq : T -> T -> bool) (g : grammar V T) p :
  lawful teq -> built g ->
  exists n r, (forall fuel, n <= fuel -> slr_new teq fuel p g = r) /\
    ((r = Panic /\ clash g teq (entry_possible g (g_start g))) \/
     (exists tb, r = Val tb /\ ~ clash g teq (entry_sure g (g_start g)))).
Proof. exact (fun Ht Hb => slr_new_total teq Ht g Hb p). Qed.
Print Assumptions C35_slr_new_partial.

(** It succeeds if the grammar has no conflict and no state reads a terminal in
    two items. *)
Theorem C35_succeeds_partial {V T} `{DecEq V} `{DecEq T} {ho : HashOrder} (teq : T -> T -> bool) (g : grammar V T) p :
  lawful teq -> built g -> (forall t t', teq t t' = true -> t = t') -> ~ slr_conflict g ->
  (forall w h a r h' a' r' t, lr0 g w (h, a, Ter t :: r) -> lr0 g w (h', a', Ter t :: r') -> (h, a, r) = (h', a', r')) ->
  exists n tb, forall fuel, n <= fuel -> slr_new teq fuel p g = Val tb.
Proof. exact (fun Ht Hb => new_succeeds teq Ht g Hb p). Qed.
Print Assumptions C35_succeeds_partial.
Example C35_sample : lawful Nat.eqb /\ built stmts /\ (forall t t', Nat.eqb t t' = true -> t = t') /\ ~ slr_conflict stmts /\
  (forall w h a r h' a' r' t, lr0 stmts w (h, a, Ter t :: r) -> lr0 stmts w (h', a', Ter t :: r') -> (h, a, r) = (h', a', r')).
Proof.
  split; [exact eq_lawful|]. split; [exact stmts_built|]. split; [intros t t'; apply Nat.eqb_eq|].
  split; [exact stmts_no_conflict|exact stmts_single].
Qed.

(** If it succeeds, no state has a conflict on a terminal. *)
Theorem C35_conflicts_found {V T} `{DecEq V} `{DecEq T} {ho : HashOrder} (teq : T -> T -> bool) (g : grammar V T) fuel p tb :
  lawful teq -> built g -> slr_new teq fuel p g = Val tb -> forall w t,
    (forall h a r h' a', lr0 g w (h, a, Ter t :: r) -> lr0 g w (h', a', []) -> ~ followed_by g h' t) /\
    (forall h a h' a', lr0 g w (h, a, []) -> lr0 g w (h', a', []) -> followed_by g h t -> followed_by g h' t -> (h, a) = (h', a')).
Proof. exact (fun Ht Hb => new_finds_conflicts teq Ht g Hb fuel p tb). Qed.
Print Assumptions C35_conflicts_found.
Example C35_found_sample : slr_new (ho := id_order) Nat.eqb 60 [] stmts = Val stmts_table /\ length (tb_action stmts_table) = 12.
Proof. split; [exact stmts_new|reflexivity]. Qed.

(** C36 fails: for [0 -> a] the state after [a] has the complete item [0 -> a .]
    and no row accepts. *)
Theorem C36_table_refuted : exists (g : grammar nat nat) tb,
  built g /\ slr_new (ho := id_order) Nat.eqb 60 [] g = Val tb /\
  lr0 g [Ter 1] (g_start g, [Ter 1], []) /\ forall row h n, In row (tb_action tb) -> ~ In (None, Accept h n) row.
Proof.
  exists single, single_table. split; [exact single_built|]. split; [exact single_new|]. split; [exact single_item|].
  intros row h n. vm_compute. intros Hr. repeat (destruct Hr as [<-|Hr]; [intros Hi; intuition discriminate|]). destruct Hr.
Qed.
Print Assumptions C36_table_refuted.

(** C36, what holds: the table has exactly the specified actions, but accepts only
    if the start variable has an entry in the FOLLOW map ([e]), which is sure and
    possible under the stated conditions. *)
Theorem C36_table_partial {V T} `{DecEq V} `{DecEq T} {ho : HashOrder} (teq : T -> T -> bool) (g : grammar V T) fuel p tb :
  lawful teq -> built g -> slr_new teq fuel p g = Val tb ->
  exists c (e : Prop), from_grammar fuel (0 :: p) g = Val c /\
    (entry_sure g (g_start g) -> e) /\ (e -> entry_possible g (g_start g)) /\
    forall w i, path c 0 w i ->
      let row := nth i (tb_action tb) [] in
      (forall t d, In (Some t, Shift d) row <-> (exists h a r, lr0 g w (h, a, Ter t :: r)) /\ path c 0 (w ++ [Ter t]) d) /\
      (forall t h n, In (Some t, Reduce h n) row <-> exists bd, lr0 g w (h, bd, []) /\ length bd = n /\ followed_by g h t) /\
      (forall h n, In (None, Accept h n) row <-> h = g_start g /\ (exists bd, lr0 g w (h, bd, []) /\ length bd = n) /\ e) /\
      (forall t h n, ~ In (Some t, Accept h n) row) /\
      (forall d, ~ In (None, Shift d) row) /\ (forall h n, ~ In (None, Reduce h n) row) /\
      (forall v d, mget v (nth i (tb_goto tb) []) = Some d <-> path c 0 (w ++ [Var v]) d) /\
      (forall k a k' a', In (k, a) row -> In (k', a') row -> same_key teq k k' -> (k, a) = (k', a')).
Proof. exact (fun Ht Hb => new_table teq Ht g Hb fuel p tb). Qed.
Print Assumptions C36_table_partial.
Example C36_sample : built stmts /\ slr_new (ho := id_order) Nat.eqb 60 [] stmts = Val stmts_table /\ entry_sure stmts (g_start stmts) /\
  exists i, In (None, Accept 0 3) (nth i (tb_action stmts_table) []).
Proof.
  split; [exact stmts_built|]. split; [exact stmts_new|]. split; [exact stmts_entry|]. exists 8. vm_compute. tauto.
Qed.

(** C37 fails: with [0 -> a 0 c | b] the parser accepts [a b], which is not a
    sentence, with the tree of [b]. *)
Theorem C37_derivation_refuted : exists (g : grammar nat nat) tb,
  built g /\ slr_new (ho := id_order) Nat.eqb 60 [] g = Val tb /\
  (forall fuel, 4 <= fuel -> parse Nat.eqb fuel tb [1; 2] = Val (Some (Node (Var 0) [Node (Ter 2) []]))) /\
  forall x, ~ parses g Nat.eqb [1; 2] x.
Proof. exists nest, nest_table. exact (conj nest_built (conj nest_new (conj nest_run nest_no_sentence))). Qed.
Print Assumptions C37_derivation_refuted.

(** C37 for grammars without epsilon whose start variable occurs in sentential
    forms only at the front.  Missing: the other grammars (refuted above). *)
Theorem C37_derivation_partial {V T} `{DecEq V} `{DecEq T} {ho : HashOrder} (teq : T -> T -> bool) (g : grammar V T) fuel p tb fuel' ts n :
  lawful teq -> built g -> epsilon_free g -> start_at_front g -> slr_new teq fuel p g = Val tb ->
  parse teq fuel' tb ts = Val (Some n) -> exists x, parses g teq ts x /\ n = to_node x.
Proof. exact (fun Ht Hb => parse_derivation teq Ht g Hb fuel p tb fuel' ts n). Qed.
Print Assumptions C37_derivation_partial.
Example C37_sample : built stmts /\ epsilon_free stmts /\ start_at_front stmts /\ slr_new (ho := id_order) Nat.eqb 60 [] stmts = Val stmts_table /\
  parse Nat.eqb 60 stmts_table [1; 2; 1; 3; 1; 3] = Val (Some (to_node stmts_tree)).
Proof. exact (conj stmts_built (conj stmts_free (conj stmts_front (conj stmts_new stmts_run)))). Qed.

(** For every grammar: the root is the start variable and the leaves are a final
    part of the input, in order. *)
Theorem C37_leaves_partial {V T} `{DecEq V} `{DecEq T} {ho : HashOrder} (teq : T -> T -> bool) (g : grammar V T) fuel p tb fuel' ts n :
  lawful teq -> built g -> slr_new teq fuel p g = Val tb -> parse teq fuel' tb ts = Val (Some n) ->
  root n = Var (g_start g) /\ exists pre, ts = pre ++ spelled n.
Proof. exact (fun Ht Hb => parse_in_order teq Ht g Hb fuel p tb fuel' ts n). Qed.
Print Assumptions C37_leaves_partial.
Example C37_leaves_sample : spelled (to_node stmts_tree) = [1; 2; 1; 3; 1; 3].
Proof. reflexivity. Qed.

(** C38 fails in two ways without epsilon: [0 -> 0 b | 1], [1 -> a] rejects its
    sentence [a], and [0 -> a] panics on it. *)
Theorem C38_sentences_refuted :
  (exists (g : grammar nat nat) tb x, built g /\ slr_new (ho := id_order) Nat.eqb 60 [] g = Val tb /\ parses g Nat.eqb [1] x /\
    forall fuel, 4 <= fuel -> parse Nat.eqb fuel tb [1] = Val None) /\
  (exists (g : grammar nat nat) tb x, built g /\ slr_new (ho := id_order) Nat.eqb 60 [] g = Val tb /\ parses g Nat.eqb [1] x /\
    forall fuel, 3 <= fuel -> parse Nat.eqb fuel tb [1] = Panic).
Proof.
  split.
  - exists grow, grow_table, (Branch 0 [Branch 1 [Leaf 1]]). exact (conj grow_built (conj grow_new (conj grow_parses grow_run))).
  - exists single, single_table, (Branch 0 [Leaf 1]). exact (conj single_built (conj single_new (conj single_parses single_panics))).
Qed.
Print Assumptions C38_sentences_refuted.

(** C38 for grammars without epsilon and sentences whose tree ends with a token
    below the root, if the start variable is sure to have a FOLLOW entry.
    Missing: the other grammars and sentences (refuted above). *)
Theorem C38_sentences_partial {V T} `{DecEq V} `{DecEq T} {ho : HashOrder} (teq : T -> T -> bool) (g : grammar V T) fuel p tb ts x :
  lawful teq -> built g -> epsilon_free g -> slr_new teq fuel p g = Val tb -> entry_sure g (g_start g) ->
  parses g teq ts x -> ends_in_leaf x -> exists n, forall fuel', n <= fuel' -> parse teq fuel' tb ts = Val (Some (to_node x)).
Proof. exact (fun Ht Hb => parse_complete teq Ht g Hb fuel p tb ts x). Qed.
Print Assumptions C38_sentences_partial.
Example C38_sample : built stmts /\ epsilon_free stmts /\ slr_new (ho := id_order) Nat.eqb 60 [] stmts = Val stmts_table /\
  entry_sure stmts (g_start stmts) /\ parses stmts Nat.eqb [1; 2; 1; 3; 1; 3] stmts_tree /\ ends_in_leaf stmts_tree.
Proof. exact (conj stmts_built (conj stmts_free (conj stmts_new (conj stmts_entry (conj stmts_parses stmts_ends))))). Qed.

(** C39 fails: [0 -> a] panics on [a]. *)
Theorem C39_no_panic_refuted : exists (g : grammar nat nat) tb,
  built g /\ slr_new (ho := id_order) Nat.eqb 60 [] g = Val tb /\ forall fuel, 3 <= fuel -> parse Nat.eqb fuel tb [1] = Panic.
Proof. exists single, single_table. exact (conj single_built (conj single_new single_panics)). Qed.
Print Assumptions C39_no_panic_refuted.

(** C39 for grammars without epsilon, with only reachable, productive variables
    that are followed by some terminal.  Missing: the other grammars. *)
Theorem C39_no_panic_partial {V T} `{DecEq V} `{DecEq T} {ho : HashOrder} (teq : T -> T -> bool) (g : grammar V T) fuel p tb fuel' ts :
  lawful teq -> built g -> epsilon_free g -> all_reachable g -> (forall v bd, rule g v bd -> productive g v) ->
  (forall v bd, rule g v bd -> v = g_start g \/ exists t, followed_by g v t) -> entry_sure g (g_start g) ->
  slr_new teq fuel p g = Val tb -> parse teq fuel' tb ts <> Panic.
Proof. exact (fun Ht Hb => parse_no_panic teq Ht g Hb fuel p tb fuel' ts). Qed.
Print Assumptions C39_no_panic_partial.
Example C39_sample : built stmts /\ epsilon_free stmts /\ all_reachable stmts /\ (forall v bd, rule stmts v bd -> productive stmts v) /\
  (forall v bd, rule stmts v bd -> v = g_start stmts \/ exists t, followed_by stmts v t) /\ entry_sure stmts (g_start stmts) /\
  slr_new (ho := id_order) Nat.eqb 60 [] stmts = Val stmts_table /\ parse Nat.eqb 60 stmts_table [1; 2; 2] = Val None.
Proof.
  split; [exact stmts_built|]. split; [exact stmts_free|]. split; [exact stmts_reachable|]. split; [exact stmts_productive|].
  split; [exact stmts_followed|]. split; [exact stmts_entry|]. split; [exact stmts_new|]. vm_compute. reflexivity.
Qed.

(** The only reasons to panic without epsilon: a state none of whose items asks
    for an action, or no rule with a variable at all. *)
Theorem C39_panic_reason_partial {V T} `{DecEq V} `{DecEq T} {ho : HashOrder} (teq : T -> T -> bool) (g : grammar V T) fuel p tb fuel' ts :
  lawful teq -> built g -> epsilon_free g -> slr_new teq fuel p g = Val tb -> parse teq fuel' tb ts = Panic ->
  (exists w, (exists d, lr0 g w d) /\ forall d k, ~ wants g (entry_sure g (g_start g)) w d k) \/
  ((forall w h a v r, ~ lr0 g w (h, a, Var v :: r)) /\ exists t, followed_by g (g_start g) t).
Proof. exact (fun Ht Hb => parse_panic_reason teq Ht g Hb fuel p tb fuel' ts). Qed.
Print Assumptions C39_panic_reason_partial.
Example C39_reason_sample : epsilon_free single /\ slr_new (ho := id_order) Nat.eqb 60 [] single = Val single_table /\
  parse Nat.eqb 3 single_table [1] = Panic.
Proof. split; [|split; [exact single_new|reflexivity]]. intros v bd _ H. each_rule H. cbn. intuition discriminate. Qed.

(** C40 fails in two ways: with an epsilon rule, and without epsilon when a cycle
    of unit rules is followed by a terminal in an unreachable rule only. *)
Theorem C40_terminates_refuted :
  (exists (g : grammar nat nat) tb, built g /\ all_reachable g /\ slr_new (ho := id_order) Nat.eqb 60 [] g = Val tb /\
    (exists x, parses g Nat.eqb [2; 1] x) /\ forall fuel, parse Nat.eqb fuel tb [2; 1] = Diverge) /\
  (exists (g : grammar nat nat) tb, built g /\ epsilon_free g /\ slr_new (ho := id_order) Nat.eqb 60 [] g = Val tb /\
    forall fuel, parse Nat.eqb fuel tb [1; 2] = Diverge).
Proof.
  split.
  - exists empties, empties_table. split; [exact empties_built|]. split; [exact empties_reachable|]. split; [exact empties_new|].
    split; [eexists; exact empties_parses|exact empties_diverges].
  - exists circle, circle_table. exact (conj circle_built (conj circle_free (conj circle_new circle_diverges))).
Qed.
Print Assumptions C40_terminates_refuted.

(** C40 for grammars without epsilon in which all variables are reachable or no
    unit rules form a cycle.  Missing: the other grammars (refuted above). *)
Theorem C40_terminates_partial {V T} `{DecEq V} `{DecEq T} {ho : HashOrder} (teq : T -> T -> bool) (g : grammar V T) fuel p tb ts :
  lawful teq -> built g -> epsilon_free g -> all_reachable g \/ no_unit_cycle g -> slr_new teq fuel p g = Val tb ->
  exists n r, r <> Diverge /\ forall fuel', n <= fuel' -> parse teq fuel' tb ts = r.
Proof. exact (fun Ht Hb => parse_terminates teq Ht g Hb fuel p tb ts). Qed.
Print Assumptions C40_terminates_partial.
Example C40_sample : built stmts /\ epsilon_free stmts /\ all_reachable stmts /\ no_unit_cycle stmts /\
  slr_new (ho := id_order) Nat.eqb 60 [] stmts = Val stmts_table.
Proof. exact (conj stmts_built (conj stmts_free (conj stmts_reachable (conj stmts_no_cycle stmts_new)))). Qed.

(** C41 fails: [0 -> 1 | 2], [1 -> 3], [2 -> 3], [3 -> a] is accepted and [a] has
    two trees. *)
Theorem C41_unambiguous_refuted : exists (g : grammar nat nat) tb x x',
  built g /\ slr_new (ho := id_order) Nat.eqb 60 [] g = Val tb /\ parses g Nat.eqb [1] x /\ parses g Nat.eqb [1] x' /\ x <> x'.
Proof.
  exists twofold, twofold_table, (Branch 0 [Branch 1 [Branch 3 [Leaf 1]]]), (Branch 0 [Branch 2 [Branch 3 [Leaf 1]]]).
  split; [exact twofold_built|]. split; [exact twofold_new|]. split; [apply twofold_parses; auto|]. split; [apply twofold_parses; auto|discriminate].
Qed.
Print Assumptions C41_unambiguous_refuted.

(** C41 for grammars without epsilon and unreachable variables whose start
    variable is followed by some terminal; the same for every variable that is
    followed by a terminal.  Missing: variables only followed by the end of the
    input, and epsilon. *)
Theorem C41_unambiguous_partial {V T} `{DecEq V} `{DecEq T} {ho : HashOrder} (teq : T -> T -> bool) (g : grammar V T) fuel p tb t ts x x' :
  lawful teq -> built g -> epsilon_free g -> all_reachable g -> slr_new teq fuel p g = Val tb -> followed_by g (g_start g) t ->
  parses g teq ts x -> parses g teq ts x' -> x = x'.
Proof. exact (fun Ht Hb => sentences_unique teq Ht g Hb fuel p tb t ts x x'). Qed.
Print Assumptions C41_unambiguous_partial.
Theorem C41_variable_partial {V T} `{DecEq V} `{DecEq T} {ho : HashOrder} (teq : T -> T -> bool) (g : grammar V T) fuel p tb v t x x' :
  lawful teq -> built g -> epsilon_free g -> all_reachable g -> slr_new teq fuel p g = Val tb -> followed_by g v t ->
  derivation g teq x -> derivation g teq x' -> sat teq (Var v) x -> sat teq (Var v) x' -> leaves x = leaves x' -> x = x'.
Proof. exact (fun Ht Hb => trees_unique teq Ht g Hb fuel p tb v t x x'). Qed.
Print Assumptions C41_variable_partial.
(** Two trees that end with a token below the root are equal. *)
Theorem C41_ended_partial {V T} `{DecEq V} `{DecEq T} {ho : HashOrder} (teq : T -> T -> bool) (g : grammar V T) fuel p tb ts x x' :
  lawful teq -> built g -> epsilon_free g -> slr_new teq fuel p g = Val tb ->
  parses g teq ts x -> parses g teq ts x' -> ends_in_leaf x -> ends_in_leaf x' -> x = x'.
Proof. exact (fun Ht Hb => ended_sentences_unique teq Ht g Hb fuel p tb ts x x'). Qed.
Print Assumptions C41_ended_partial.
Example C41_sample : built stmts /\ epsilon_free stmts /\ all_reachable stmts /\ slr_new (ho := id_order) Nat.eqb 60 [] stmts = Val stmts_table /\
  followed_by stmts (g_start stmts) 1 /\ parses stmts Nat.eqb [1; 2; 1; 3; 1; 3] stmts_tree /\ ends_in_leaf stmts_tree.
Proof.
  exact (conj stmts_built (conj stmts_free (conj stmts_reachable (conj stmts_new (conj stmts_start_followed (conj stmts_parses stmts_ends)))))).
Qed.

(** C42 fails in two ways: with the epsilon in [1 -> 2 epsilon] the parser accepts
    [a] under one order and panics under another; without epsilon it returns
    [Err] under one order and panics under another. *)
Theorem C42_order_refuted :
  (exists (g : grammar nat nat) (ho : HashOrder) tb tb' n, built g /\
    slr_new (ho := id_order) Nat.eqb 60 [] g = Val tb /\ slr_new (ho := ho) Nat.eqb 60 [] g = Val tb' /\
    forall fuel, 4 <= fuel -> parse Nat.eqb fuel tb [1] = Val (Some n) /\ parse Nat.eqb fuel tb' [1] = Panic) /\
  (exists (g : grammar nat nat) (ho : HashOrder) tb tb', built g /\
    slr_new (ho := id_order) Nat.eqb 60 [] g = Val tb /\ slr_new (ho := ho) Nat.eqb 60 [] g = Val tb' /\
    forall fuel, 4 <= fuel -> parse Nat.eqb fuel tb [1] = Val None /\ parse Nat.eqb fuel tb' [1] = Panic).
Proof.
  split.
  - exists fickle, third_order, fickle_table, fickle_table', (Node (Var 0) [Node (Ter 1) []]).
    split; [exact fickle_built|]. split; [exact fickle_new|]. split; [exact fickle_new'|].
    intros fuel Hf. exact (conj (fickle_run fuel Hf) (fickle_run' fuel Hf)).
  - exists moody, rev_order, moody_table, moody_table'. split; [exact moody_built|]. split; [exact moody_new|]. split; [exact moody_new'|].
    intros fuel Hf. exact (conj (moody_run fuel Hf) (moody_run' fuel Hf)).
Qed.
Print Assumptions C42_order_refuted.

(** C42, what holds: if the start variable has a FOLLOW entry under every order or
    under none, both orders make [Slr::new] panic or both make it succeed, and then
    both parsers return the same tree, both fail (by [Err] or by a panic), or both
    run forever. *)
Theorem C42_order_partial {V T} `{DecEq V} `{DecEq T} (teq : T -> T -> bool) (g : grammar V T) (ho1 ho2 : HashOrder) p1 p2 :
  lawful teq -> built g -> (entry_possible g (g_start g) -> entry_sure g (g_start g)) ->
  exists n, forall fuel, n <= fuel ->
    (slr_new teq (ho := ho1) fuel p1 g = Panic /\ slr_new teq (ho := ho2) fuel p2 g = Panic) \/
    exists tb1 tb2, slr_new teq (ho := ho1) fuel p1 g = Val tb1 /\ slr_new teq (ho := ho2) fuel p2 g = Val tb2 /\
      forall fuel' ts, agree (parse teq fuel' tb1 ts) (parse teq fuel' tb2 ts).
Proof. exact (fun Ht Hb => orders_agree teq Ht g Hb ho1 ho2 p1 p2). Qed.
Print Assumptions C42_order_partial.
(** Its condition holds for grammars without epsilon and useless variables. *)
Theorem C42_entry {V T} `{DecEq V} `{DecEq T} (g : grammar V T) v :
  built g -> epsilon_free g -> all_reachable g -> (forall v bd, rule g v bd -> productive g v) -> entry_possible g v -> entry_sure g v.
Proof. exact (fun Hb => entry_possible_sure g Hb v). Qed.
Print Assumptions C42_entry.
Example C42_sample : built stmts /\ epsilon_free stmts /\ all_reachable stmts /\ (forall v bd, rule stmts v bd -> productive stmts v) /\
  entry_possible stmts (g_start stmts).
Proof.
  split; [exact stmts_built|]. split; [exact stmts_free|]. split; [exact stmts_reachable|]. split; [exact stmts_productive|].
  apply (entry_direct stmts 0 [] 0 [Var 1; Ter 3]); [a_rule|discriminate].
Qed.

(** C43 fails: with the patterns [b+] and [a] and the grammar [0 -> 0 a | a] the
    text [a!] is parsed, though [!] was not lexed. *)
Theorem C43_whole_text_refuted {env : Env} : exists (g : grammar nat nat) tb lx n,
  built g /\ slr_new (ho := id_order) Nat.eqb 60 [] g = Val tb /\
  build_lexer run_tokens (str "a!"%string) = Val (inl lx) /\
  parse_lexer (ho := id_order) Nat.eqb 60 tb lx = Val (Some n) /\ spelled n = [0].
Proof.
  exists letters, letters_table. eexists. eexists. split; [exact letters_built|]. split; [exact letters_new|].
  split; [vm_compute; reflexivity|]. split; [vm_compute; reflexivity|reflexivity].
Qed.
Print Assumptions C43_whole_text_refuted.

(** C43, what holds: after [Ok] the tokens the lexer gave before its first [None]
    end with the leaves of the tree. *)
Theorem C43_tokens_partial {env : Env} {ho : HashOrder} {V K} `{DecEq V} `{DecEq K} (teq : K -> K -> bool) (g : grammar V K) fuel p tb fuel' (lx : lexer K) n :
  lawful teq -> built g -> slr_new teq fuel p g = Val tb -> parse_lexer teq fuel' tb lx = Val (Some n) ->
  exists (tks : list (ltoken K)) lx', lex_calls fuel' (S (length tks)) lx = Val (map Some tks ++ [None], lx') /\
    root n = Var (g_start g) /\ exists pre, map lt_kind tks = pre ++ spelled n.
Proof. exact (fun Ht Hb => parse_lexer_tokens teq Ht g Hb fuel p tb fuel' lx n). Qed.
Print Assumptions C43_tokens_partial.
(** For steady patterns these tokens cover a first part of the text, and no first
    part of what remains matches a pattern. *)
Theorem C43_whole_text_partial {env : Env} {ho : HashOrder} {V K} `{DecEq V} `{DecEq K} (teq : K -> K -> bool) (g : grammar V K)
    fuel p tb fuel' (ts : list (list char * generator K)) input lx es L n :
  lawful teq -> built g ->
  build_lexer ts input = Val (inl lx) -> parsed ts es -> agreed L es -> steady es ->
  slr_new teq fuel p g = Val tb -> parse_lexer teq fuel' tb lx = Val (Some n) ->
  exists tks, tiles input 0 tks /\ (exists pre, map lt_kind tks = pre ++ spelled n) /\
    forall x y, skipn (consumed tks) input = x ++ y -> x <> [] -> ~ matched L es x.
Proof. exact (fun Ht Hb => parse_lexer_text teq Ht g Hb fuel p tb fuel' ts input lx es L n). Qed.
Print Assumptions C43_whole_text_partial.
Example C43_sample {env : Env} : exists lx n, build_lexer run_tokens (str "aaa"%string) = Val (inl lx) /\ parsed run_tokens run_es /\
  agreed lang run_es /\ steady run_es /\ parse_lexer (ho := id_order) Nat.eqb 60 letters_table lx = Val (Some n) /\
  spelled n = [0; 0; 0].
Proof.
  eexists. eexists. split; [vm_compute; reflexivity|]. split; [exact run_parsed|]. split; [exact run_agreed|].
  split; [exact run_steady|]. split; [vm_compute; reflexivity|reflexivity].
Qed.

(** C44: tokens that are equal under [terminal_eq] lead to the same result; the
    trees have the same shape, and each has the tokens it was made from. *)
Theorem C44_payloads {V T} `{DecEq V} `{DecEq T} {ho : HashOrder} (teq : T -> T -> bool) (g : grammar V T) fuel p tb fuel' ts ts' :
  lawful teq -> built g -> slr_new teq fuel p g = Val tb -> Forall2 (fun t t' => teq t t' = true) ts ts' ->
  match parse teq fuel' tb ts, parse teq fuel' tb ts' with
  | Val (Some n), Val (Some n') => alike teq n n' /\ (exists pre, ts = pre ++ spelled n) /\ exists pre', ts' = pre' ++ spelled n'
  | Val None, Val None => True
  | Panic, Panic => True
  | Diverge, Diverge => True
  | _, _ => False
  end.
Proof. exact (fun Ht Hb => payloads_free teq Ht g Hb fuel p tb fuel' ts ts'). Qed.
Print Assumptions C44_payloads.
Example C44_sample : lawful digit_eq /\ exists tb n, slr_new (ho := id_order) digit_eq 60 [] stmts = Val tb /\
  Forall2 (fun t t' => digit_eq t t' = true) [1; 2; 1; 3] [41; 2; 71; 33] /\
  parse digit_eq 60 tb [41; 2; 71; 33] = Val (Some n) /\ spelled n = [41; 2; 71; 33].
Proof.
  split; [exact digit_lawful|]. eexists. eexists. split; [vm_compute; reflexivity|]. split; [repeat constructor|].
  split; [vm_compute; reflexivity|reflexivity].
Qed.

(** C47: without epsilon, and if the start variable is sure to have a FOLLOW entry,
    the accepted inputs and their trees are exactly those described by
    [accepted]. *)
Theorem C47_exact {V T} `{DecEq V} `{DecEq T} {ho : HashOrder} (teq : T -> T -> bool) (g : grammar V T) fuel p tb ts x :
  lawful teq -> built g -> epsilon_free g -> slr_new teq fuel p g = Val tb -> entry_sure g (g_start g) ->
  accepted teq g ts x <-> exists n, forall fuel', n <= fuel' -> parse teq fuel' tb ts = Val (Some (to_node x)).
Proof. exact (fun Ht Hb => parse_exact teq Ht g Hb fuel p tb ts x). Qed.
Print Assumptions C47_exact.
Theorem C47_only {V T} `{DecEq V} `{DecEq T} {ho : HashOrder} (teq : T -> T -> bool) (g : grammar V T) fuel p tb fuel' ts n :
  lawful teq -> built g -> epsilon_free g -> slr_new teq fuel p g = Val tb ->
  parse teq fuel' tb ts = Val (Some n) -> entry_possible g (g_start g) /\ exists x, accepted teq g ts x /\ n = to_node x.
Proof. exact (fun Ht Hb => parse_accepts_only teq Ht g Hb fuel p tb fuel' ts n). Qed.
Print Assumptions C47_only.
Example C47_sample : epsilon_free nest /\ slr_new (ho := id_order) Nat.eqb 60 [] nest = Val nest_table /\ entry_sure nest (g_start nest) /\
  parse Nat.eqb 60 nest_table [1; 1; 2; 3] = Val (Some (to_node (Branch 0 [Leaf 1; Branch 0 [Leaf 2]; Leaf 3]))).
Proof.
  split; [intros v bd _ H; each_rule H; cbn; intuition discriminate|]. split; [exact nest_new|].
  split; [|vm_compute; reflexivity]. left. exists 0, [Ter 1], [Ter 3]. split; [a_rule|discriminate].
Qed.
