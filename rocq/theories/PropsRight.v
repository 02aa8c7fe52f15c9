(** Property C102: valid items and rightmost derivations. *)
From Verif Require Import Base GrammarModel CfsmModel SlrModel SpecCfg SpecMachine SpecRight SlrRun SlrWitness SlrReads RightProofs.

(** C102: without epsilon and useless variables, the state reached by a sequence of
    symbols holds exactly the items that are valid after it, and there is such a
    state exactly if some item is. *)
Theorem C102_states {V T} `{DecEq V} `{DecEq T} {ho : HashOrder} (g : grammar V T) fuel p c :
  built g -> epsilon_free g -> (forall v, reachable g v -> productive g v) -> from_grammar fuel p g = Val c ->
  (forall u k, path c (cf_start c) u k ->
     exists st, In st (cf_states c) /\ cs_id st = k /\ forall d, (exists it, In it (cs_items st) /\ dotted_of it = d) <-> valid g u d) /\
  (forall u, (exists k, path c (cf_start c) u k) <-> viable g u).
Proof. exact (states_valid g fuel p c). Qed.
Print Assumptions C102_states.
Example C102_states_sample : built stmts /\ epsilon_free stmts /\ (forall v, reachable stmts v -> productive stmts v) /\
  from_grammar (ho := id_order) 60 [] stmts = Val stmts_cfsm /\ valid stmts [var 0; var 1] (1, [var 1], [ter 2; ter 1]).
Proof.
  split; [exact stmts_built|]. split; [exact stmts_free|]. split; [exact stmts_reach_prod|]. split; [exact stmts_cfsm_eq|exact stmts_valid].
Qed.
(** With a useless variable there are more items: in [0 -> 1 2], [1 -> x], [2 -> 2 y]
    the rule of [1] begins in the first state, but no rightmost derivation ever uses
    it. *)
Example C102_useless : built barren /\ epsilon_free barren /\ lr0 barren [] (1, [], [ter 3]) /\ ~ valid barren [] (1, [], [ter 3]).
Proof.
  split; [exact barren_built|]. split; [exact barren_free|]. split; [exact barren_item|]. intros H. exact (barren_not_valid _ _ H eq_refl).
Qed.

(** C102: what is on the stack derives, from the right, what was read, with one step
    for each reduction, for any configuration of any run. *)
Theorem C102_moves {V T} `{DecEq V} `{DecEq T} (teq : T -> T -> bool) (g : grammar V T) k ts st rest :
  epsilon_free g -> mmoves teq g k (initial ts) (st, rest) ->
  exists read read' j, ts = read ++ rest /\ Forall2 (fun t t' => teq t t' = true) read read' /\ k = j + length read /\
    rsteps g j (word st) (map Ter read').
Proof. exact (fun Heps => runs_back teq g Heps k (initial ts) (st, rest)). Qed.
Print Assumptions C102_moves.

(** C102: if a text is accepted, the run is a rightmost derivation of it read
    backwards: every configuration is a form of one, with all the steps before it
    still to be made, and all the steps after it made already.  The last one is the
    body of a rule of the start variable. *)
Theorem C102_accepts {V T} `{DecEq V} `{DecEq T} {ho : HashOrder} (teq : T -> T -> bool) (g : grammar V T) fuel p tb fuel' ts n :
  lawful teq -> built g -> epsilon_free g -> start_at_front g -> slr_new teq fuel p g = Val tb -> parse teq fuel' tb ts = Val (Some n) ->
  exists k st, mmoves teq g k (initial ts) (st, []) /\ rule g (g_start g) (word st) /\ n = Node (Var (g_start g)) (map snd st) /\
  forall k1 st1 rest, mmoves teq g k1 (initial ts) (st1, rest) ->
    exists read read' rest' i j, ts = read ++ rest /\ Forall2 (fun t t' => teq t t' = true) read read' /\
      Forall2 (fun t t' => teq t t' = true) rest rest' /\ k1 = j + length read /\ S k = i + j + length ts /\
      rsteps g i [Var (g_start g)] (word st1 ++ map Ter rest') /\ rsteps g j (word st1 ++ map Ter rest') (map Ter (read' ++ rest')).
Proof. exact (fun Ht Hb Heps => accepts_right teq g Heps Ht Hb fuel p tb fuel' ts n). Qed.
Print Assumptions C102_accepts.
Example C102_sample : lawful Nat.eqb /\ built stmts /\ epsilon_free stmts /\ start_at_front stmts /\
  slr_new (ho := id_order) Nat.eqb 60 [] stmts = Val stmts_table /\
  parse Nat.eqb 60 stmts_table stmts_text = Val (Some (to_node stmts_tree)) /\ rsteps stmts 5 [var 0] (map Ter stmts_text).
Proof.
  split; [exact eq_lawful|]. split; [exact stmts_built|]. split; [exact stmts_free|]. split; [exact stmts_front|]. split; [exact stmts_new|].
  split; [exact stmts_run|exact stmts_right].
Qed.
Example C102_moves_sample : epsilon_free stmts /\ exists k st, mmoves Nat.eqb stmts k (initial stmts_text) (st, []) /\ rule stmts 0 (word st).
Proof.
  split; [exact stmts_free|].
  destruct (C102_accepts (ho := id_order) Nat.eqb stmts 60 [] stmts_table 60 stmts_text (to_node stmts_tree) eq_lawful stmts_built stmts_free stmts_front
    stmts_new stmts_run) as (k & st & Hm & Hr & _).
  exists k, st. split; [exact Hm|exact Hr].
Qed.
