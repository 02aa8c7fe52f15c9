(** Properties C30-C34 and C45: items, closures, the automaton. *)
From Verif Require Import Base GrammarModel CfsmModel SlrModel SpecCfg CfsmCorrect.

(** Grammars of the examples: [0 -> 0 + 1 | 1], [1 -> x | ( 0 ) | epsilon]
    and [0 -> a 0 | b]. *)
Definition sums : list (call nat nat) :=
  [CallStart 0; CallRule 0 [Var 0; Ter 10; Var 1]; CallRule 0 [Var 1]; CallRule 1 [Ter 11];
   CallRule 1 [Ter 12; Var 0; Ter 13]; CallRule 1 [Eps; Eps]].
Definition chain : list (call nat nat) := [CallStart 0; CallRule 0 [Ter 1; Var 0]; CallRule 0 [Ter 2]].

(** C30: every item of every state comes from a rule and has its cursor in the
    body and not before an epsilon; the [unreachable!] branches are not taken. *)
Theorem C30_cursors {V T} `{DecEq V} `{DecEq T} {ho : HashOrder} (g : grammar V T) fuel p c st h ib :
  built g -> from_grammar fuel p g = Val c -> In st (cf_states c) -> In (h, ib) (cs_items st) ->
  valid_item g (h, ib) /\ cursor_variable ib <> Panic /\ cursor_terminal ib <> Panic.
Proof. exact (fun Hb => cursors_ok g Hb fuel p c st h ib). Qed.
Print Assumptions C30_cursors.
Example C30_sample : exists g c, build (do_calls sums) = Val g /\ (let _ := id_order in from_grammar 30 [] g = Val c) /\
  exists st, In st (cf_states c) /\ cs_id st = 0 /\ In (1, {| ib_body := [Eps; Eps]; ib_cursor := 2 |}) (cs_items st).
Proof.
  eexists. eexists. split; [reflexivity|]. split; [vm_compute; reflexivity|].
  eexists. split; [left; reflexivity|]. split; [reflexivity|]. cbn. tauto.
Qed.

(** C31: the closure has the dotted rules that every closed set around the
    given items has, and only them. *)
Theorem C31_closure_least {V T} `{DecEq V} `{DecEq T} {ho : HashOrder} (g : grammar V T) fuel p items res :
  built g -> NoDup items -> (forall it, In it items -> valid_item g it) ->
  from_incomplete_map fuel p items g = Val res ->
  NoDup res /\
  forall d, (exists it, In it res /\ dotted_of it = d) <->
    forall P : dotted V T -> Prop, (forall it, In it items -> P (dotted_of it)) -> closed_items g P -> P d.
Proof. exact (fun Hb => closure_least g Hb fuel p items res). Qed.
Print Assumptions C31_closure_least.

Theorem C31_closure_total {V T} `{DecEq V} `{DecEq T} {ho : HashOrder} (g : grammar V T) p items :
  built g -> NoDup items -> (forall it, In it items -> valid_item g it) ->
  exists n res, forall fuel, n <= fuel -> from_incomplete_map fuel p items g = Val res.
Proof. exact (fun Hb => closure_total g Hb p items). Qed.
Print Assumptions C31_closure_total.
Example C31_sample : exists g res, build (do_calls sums) = Val g /\
  let items := [(1, {| ib_body := [Ter 12; Var 0; Ter 13]; ib_cursor := 1 |})] in
  (forall it, In it items -> valid_item g it) /\
  (let _ := rev_order in from_incomplete_map 30 [] items g = Val res) /\ length res = 6.
Proof.
  eexists. eexists. split; [reflexivity|]. cbn zeta. split.
  - intros it [<-|[]]. split; [|split; [cbn; lia|discriminate]]. eexists. split; [right; left; reflexivity|]. cbn. tauto.
  - split; [vm_compute; reflexivity|reflexivity].
Qed.

(** C32: construction returns, and every transition leads to a state. *)
Theorem C32_construction_total {V T} `{DecEq V} `{DecEq T} {ho : HashOrder} (g : grammar V T) p :
  built g ->
  exists n c, (forall fuel, n <= fuel -> from_grammar fuel p g = Val c) /\
    (exists st, In st (cf_states c) /\ cs_id st = cf_start c) /\
    (forall st s k, In st (cf_states c) -> In (s, k) (cs_trans st) -> exists st', In st' (cf_states c) /\ cs_id st' = k).
Proof. exact (fun Hb => from_grammar_total g Hb p). Qed.
Print Assumptions C32_construction_total.
Example C32_sample : exists g c, build (do_calls sums) = Val g /\ (let _ := rev_order in from_grammar 30 [] g = Val c) /\
  map cs_id (cf_states c) = seq 0 11.
Proof. eexists. eexists. split; [reflexivity|]. split; vm_compute; reflexivity. Qed.

(** C33 *)
Theorem C33_automaton_lr0 {V T} `{DecEq V} `{DecEq T} {ho : HashOrder} (g : grammar V T) fuel p c :
  built g -> from_grammar fuel p g = Val c ->
  (forall w k, path c (cf_start c) w k ->
     exists st, In st (cf_states c) /\ cs_id st = k /\
       forall d, (exists it, In it (cs_items st) /\ dotted_of it = d) <-> lr0 g w d) /\
  (forall w, (exists k, path c (cf_start c) w k) <-> exists d, lr0 g w d) /\
  (forall w k k', path c (cf_start c) w k -> path c (cf_start c) w k' -> k = k') /\
  (forall st, In st (cf_states c) -> exists w, path c (cf_start c) w (cs_id st)) /\
  (forall st s, In st (cf_states c) ->
     (exists k, In (s, k) (cs_trans st)) <->
     exists it h a r, In it (cs_items st) /\ dotted_of it = (h, a, s :: r)).
Proof. exact (fun Hb => automaton_lr0 g Hb fuel p c). Qed.
Print Assumptions C33_automaton_lr0.
Example C33_sample : exists g c, build (do_calls sums) = Val g /\ (let _ := id_order in from_grammar 30 [] g = Val c) /\
  exists k, path c (cf_start c) [Ter 12; Var 0; Ter 10] k.
Proof.
  eexists. eexists. split; [reflexivity|]. split; [vm_compute; reflexivity|]. eexists.
  apply walk_path. vm_compute. reflexivity.
Qed.

(** C34 fails: in [0 -> a 0 | b] the state after [a] appears twice, because a
    new state is compared only with states already processed, not with the one
    being processed. *)
Theorem C34_one_state_per_item_set_refuted :
  exists g : grammar nat nat, build (do_calls chain) = Val g /\
    (exists c st st', (let _ := id_order in from_grammar 30 [] g = Val c) /\
       In st (cf_states c) /\ In st' (cf_states c) /\ cs_id st = 1 /\ cs_id st' = 4 /\ cs_items st = cs_items st') /\
    (exists c st st', (let _ := rev_order in from_grammar 30 [] g = Val c) /\
       In st (cf_states c) /\ In st' (cf_states c) /\ cs_id st = 1 /\ cs_id st' = 5 /\ cs_items st = cs_items st').
Proof.
  eexists. split; [reflexivity|]. split; eexists; eexists; eexists; (split; [vm_compute; reflexivity|]).
  - split; [right; left; reflexivity|]. split; [right; right; right; right; left; reflexivity|]. repeat split.
  - split; [right; left; reflexivity|]. split; [right; right; right; right; right; left; reflexivity|]. repeat split.
Qed.
Print Assumptions C34_one_state_per_item_set_refuted.

(** C34, what holds: states with the same items are interchangeable, they have
    the same paths and these end again in states with the same items.  With C33
    the automaton is the canonical one up to such copies. *)
Theorem C34_one_state_per_item_set_partial {V T} `{DecEq V} `{DecEq T} {ho : HashOrder} (g : grammar V T) fuel p c st st' :
  built g -> from_grammar fuel p g = Val c ->
  In st (cf_states c) -> In st' (cf_states c) -> (forall it, In it (cs_items st) <-> In it (cs_items st')) ->
  forall w k, path c (cs_id st) w k ->
    exists k' s s', path c (cs_id st') w k' /\ In s (cf_states c) /\ In s' (cf_states c) /\ cs_id s = k /\ cs_id s' = k' /\
      forall it, In it (cs_items s) <-> In it (cs_items s').
Proof. exact (fun Hb => same_items_same_paths g Hb fuel p c st st'). Qed.
Print Assumptions C34_one_state_per_item_set_partial.
Example C34_sample : exists g c, build (do_calls chain) = Val g /\ (let _ := id_order in from_grammar 30 [] g = Val c) /\
  path c 1 [Ter 1; Ter 1] 1 /\ path c 4 [Ter 1; Ter 1] 4.
Proof.
  eexists. eexists. split; [reflexivity|]. split; [vm_compute; reflexivity|].
  split; apply walk_path; vm_compute; reflexivity.
Qed.

(** C45: the symbols before the cursor, the bullet, the symbols from the cursor
    on, separated by one space; the bullet occurs once. *)
Theorem C45_display {V T} (show_v : V -> list char) (show_t : T -> list char) (ib : item_body V T) :
  ib_cursor ib <= length (ib_body ib) ->
  display_item show_v show_t ib =
  concat (map (fun s => show_symbol show_v show_t s ++ [$" "]) (firstn (ib_cursor ib) (ib_body ib))) ++ [8226%N] ++
  concat (map (fun s => [$" "] ++ show_symbol show_v show_t s) (skipn (ib_cursor ib) (ib_body ib))).
Proof. exact (display_around show_v show_t ib). Qed.
Print Assumptions C45_display.

Theorem C45_one_bullet {V T} (show_v : V -> list char) (show_t : T -> list char) (ib : item_body V T) :
  ib_cursor ib <= length (ib_body ib) ->
  (forall v, ~ In 8226%N (show_v v)) -> (forall t, ~ In 8226%N (show_t t)) ->
  count_occ N.eq_dec (display_item show_v show_t ib) 8226%N = 1.
Proof. exact (display_one_bullet show_v show_t ib). Qed.
Print Assumptions C45_one_bullet.
Example C45_sample :
  let show := display_item (fun _ : nat => str "E"%string) (fun _ : nat => str "plus"%string) in
  show {| ib_body := [Var 0; Ter 1; Var 0]; ib_cursor := 1 |} = str "E "%string ++ [8226%N] ++ str " plus E"%string /\
  show {| ib_body := [Var 0; Eps]; ib_cursor := 2 |} = str "E Epsilon "%string ++ [8226%N].
Proof. split; reflexivity. Qed.
