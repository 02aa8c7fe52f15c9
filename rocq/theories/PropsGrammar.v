(** Properties C26-C29: the grammar builder, FIRST and FOLLOW. *)
From Verif Require Import Base GrammarModel CfsmModel SlrModel SpecCfg GrammarProofs GrammarTotal.

(** A nullable, recursive grammar used in the examples:
    [0 -> 1 2 a], [1 -> b 1 | epsilon], [2 -> 1 | c 0]. *)
Definition sample_calls : list (call nat nat) :=
  [CallRule 0 [Var 1; Var 2; Ter 100]; CallRule 1 [Ter 101; Var 1]; CallRule 1 [];
   CallRule 2 [Var 1]; CallRule 2 [Ter 102; Var 0]; CallRule 1 [Eps]; CallStart 2; CallStart 0].

(** C26: [build] returns exactly for closed calls, panics otherwise, and the
    grammar has exactly the added rules, each once. *)
Theorem C26_build_exact {V T} `{DecEq V} `{DecEq T} (cs : list (call V T)) :
  (closed_calls cs -> exists g, build (do_calls cs) = Val g) /\
  (~ closed_calls cs -> build (do_calls cs) = Panic).
Proof. exact (build_exact cs). Qed.
Print Assumptions C26_build_exact.

Theorem C26_build_rules {V T} `{DecEq V} `{DecEq T} (cs : list (call V T)) g :
  build (do_calls cs) = Val g ->
  last_start cs = Some (g_start g) /\ (forall v bd, rule g v bd <-> added cs v bd) /\
  NoDup (map fst (g_rules g)) /\ (forall v bds, In (v, bds) (g_rules g) -> NoDup bds /\ bds <> []).
Proof. exact (build_contents cs g). Qed.
Print Assumptions C26_build_rules.

(** [add_rules] adds one rule for each of the bodies, in their order. *)
Theorem C26_add_rules {V T} `{DecEq V} `{DecEq T} (cs : list (call V T)) v bds :
  add_rules v bds (do_calls cs) = do_calls (cs ++ map (CallRule v) bds).
Proof. exact (add_rules_calls cs v bds). Qed.
Print Assumptions C26_add_rules.
Example C26_add_rules_sample :
  b_rules (add_rules 1 [[Ter 101; Var 1]; []; [Eps]; [Ter 7]] (do_calls (firstn 1 sample_calls))) =
    [(0, [[Var 1; Var 2; Ter 100]]); (1, [[Ter 101; Var 1]; [Eps]; [Ter 7]])].
Proof. reflexivity. Qed.

Example C26_sample : build (do_calls sample_calls) =
    Val {| g_start := 0;
           g_rules := [(0, [[Var 1; Var 2; Ter 100]]); (1, [[Ter 101; Var 1]; [Eps]]); (2, [[Var 1]; [Ter 102; Var 0]])] |} /\
  build (do_calls (firstn 6 sample_calls)) = Panic /\
  build (do_calls [CallStart 0; CallRule 0 [Ter 100; Var 1]]) = Panic.
Proof. repeat split; reflexivity. Qed.

(** C27, for the bodies [follow_set] asks about and for variables. *)
Theorem C27_first_exact {V T} `{DecEq V} `{DecEq T} {ho : HashOrder} (g : grammar V T) fuel p bd l :
  built g -> bd <> [] -> (forall x, In (Var x) bd -> exists b, rule g x b) ->
  first_body fuel p g bd = Val l ->
  (forall t, In (Ter t) l <-> starts_with g bd t) /\ (In Eps l <-> derives_empty g bd) /\ (forall v, ~ In (Var v) l).
Proof. exact (fun Hb => first_body_correct g Hb fuel p bd l). Qed.
Print Assumptions C27_first_exact.

Theorem C27_first_variable_exact {V T} `{DecEq V} `{DecEq T} {ho : HashOrder} (g : grammar V T) fuel p v l :
  built g -> first fuel p g v = Val l ->
  (forall t, In (Ter t) l <-> starts_with g [Var v] t) /\ (In Eps l <-> derives_empty g [Var v]) /\
  (forall v, ~ In (Var v) l).
Proof. exact (fun Hb => first_correct g Hb fuel p v l). Qed.
Print Assumptions C27_first_variable_exact.
Example C27_sample : exists g, build (do_calls sample_calls) = Val g /\
  (let _ := id_order in first_body 20 [] g [Var 2; Ter 100] = Val [Ter 102; Ter 101; Ter 100]) /\
  (let _ := rev_order in first 20 [] g 2 = Val [Ter 102; Eps; Ter 101]).
Proof. eexists. split; [reflexivity|]. split; vm_compute; reflexivity. Qed.

(** C28 *)
Theorem C28_follow_exact {V T} `{DecEq V} `{DecEq T} {ho : HashOrder} (g : grammar V T) fuel p fs :
  built g -> follow_set fuel p g = Val fs ->
  NoDup (map fst fs) /\
  (forall v l x, In (v, l) fs -> In x l -> exists t, x = Ter t) /\
  (forall v t, (exists l, In (v, l) fs /\ In (Ter t) l) <-> followed_by g v t).
Proof. exact (fun Hb => follow_set_correct g Hb fuel p fs). Qed.
Print Assumptions C28_follow_exact.
Example C28_sample : exists g, build (do_calls sample_calls) = Val g /\
  let _ := id_order in
  follow_set 20 [] g = Val [(1, [Ter 102; Ter 101; Ter 100]); (2, [Ter 100]); (0, [Ter 100])].
Proof. eexists. split; [reflexivity|]. vm_compute; reflexivity. Qed.

(** C29: there is a fuel from which on the answer is there and stays the
    same. *)
Theorem C29_first_total {V T} `{DecEq V} `{DecEq T} {ho : HashOrder} (g : grammar V T) p v :
  built g -> (exists bd, rule g v bd) -> exists n l, forall fuel, n <= fuel -> first fuel p g v = Val l.
Proof. exact (fun Hb => first_total g Hb p v). Qed.
Print Assumptions C29_first_total.

Theorem C29_first_body_total {V T} `{DecEq V} `{DecEq T} {ho : HashOrder} (g : grammar V T) p bd :
  built g -> bd <> [] -> (forall x, In (Var x) bd -> exists b, rule g x b) ->
  exists n l, forall fuel, n <= fuel -> first_body fuel p g bd = Val l.
Proof. exact (fun Hb => first_body_total g Hb p bd). Qed.
Print Assumptions C29_first_body_total.

Theorem C29_follow_total {V T} `{DecEq V} `{DecEq T} {ho : HashOrder} (g : grammar V T) p :
  built g -> exists n fs, forall fuel, n <= fuel -> follow_set fuel p g = Val fs.
Proof. exact (fun Hb => follow_set_total g Hb p). Qed.
Print Assumptions C29_follow_total.
(** Left recursion through nullable variables. *)
Example C29_sample : exists g,
  build (do_calls [CallStart 0; CallRule 0 [Var 0; Eps; Var 1; Ter 100]; CallRule 0 [Var 2]; CallRule 2 []; CallRule 1 [Var 1]])
    = Val g /\
  (let _ := id_order in first 20 [] g 0 = Val [Eps]) /\
  (let _ := id_order in follow_set 20 [] g = Val [(0, []); (1, [Ter 100]); (2, [])]).
Proof. eexists. split; [reflexivity|]. split; vm_compute; reflexivity. Qed.
