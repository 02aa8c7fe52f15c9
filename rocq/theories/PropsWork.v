(** C99: the work that FIRST, FOLLOW and item closures take. *)
From Verif Require Import Base GrammarModel CfsmModel SpecCfg WorkModel SpecWork WorkProofs EchoProofs.
From Verif Require Import GrammarProofs.

(** *** C99: computing FIRST, FOLLOW and closures takes polynomially much work.
    False: with about [2n] rules of at most [n + 2] symbols, at least [2^(n-1)]
    bodies are taken from the queue of [first_bodies], in every iteration order. *)
Theorem C99_work_refuted (n : nat) : 1 <= n ->
  length (echo_calls n) <= 2 * n + 4 /\ (forall v bd, In (CallRule v bd) (echo_calls n) -> length bd <= n + 2) /\
  exists g, build (do_calls (echo_calls n)) = Val g /\
    forall (ho : HashOrder) p, (exists fuel r c k, work_set fuel p g = Val (r, c, k)) /\
      forall fuel r c k, work_set fuel p g = Val (r, c, k) -> 2 ^ (n - 1) <= w_bodies c.
Proof. exact (echo_exponential n). Qed.
Print Assumptions C99_work_refuted.

(** Counting does not change what is computed. *)
Theorem C99_same {V T} `{DecEq V} `{DecEq T} {ho : HashOrder} (g : grammar V T) fuel p :
  (forall bd, first_body fuel p g bd = let! (r, _) := work_body fuel p g bd in Val r) /\
  (follow_set fuel p g = let! (r, _) := work_set fuel p g in Val (fst r)) /\
  (forall items, from_incomplete_map fuel p items g = let! (r, _) := work_closure fuel p items g in Val r).
Proof. exact (conj (body_same fuel p g) (conj (set_same fuel p g) (fun items => closure_same fuel p items g))). Qed.
Print Assumptions C99_same.

(** Missing: the bodies, of which there can be exponentially many in one turn.
    The turns are few: for [n] variables and [t] terminals, one FIRST set takes
    at most [1 + n (n+1) (t+2)]. *)
Theorem C99_first_turns_partial {V T} `{DecEq V} `{DecEq T} {ho : HashOrder} (g : grammar V T) (vs : list V) (ts : list T) fuel p bd r c :
  built g -> (forall v b, rule g v b -> In v vs) -> (forall v b t, rule g v b -> In (Ter t) b -> In t ts) ->
  bd <> [] -> (forall x, In (Var x) bd -> exists b, rule g x b) -> (forall t, In (Ter t) bd -> In t ts) ->
  work_body fuel p g bd = Val (r, c) ->
  w_turns c <= 1 + length vs * (length vs + 1) * (length ts + 2).
Proof. exact (fun Hb Hv Ht Hne Hc Htb => body_turns g p (built_good g Hb) vs ts Hv Ht fuel bd r c Hne Hc Htb). Qed.
Print Assumptions C99_first_turns_partial.

(** All FOLLOW sets take at most that many turns for every symbol on a right
    hand side, and then at most [n n (t+1)] turns of the propagation. *)
Theorem C99_follow_turns_partial {V T} `{DecEq V} `{DecEq T} {ho : HashOrder} (g : grammar V T) (vs : list V) (ts : list T)
    (rs : list (V * body V T)) fuel p r c k :
  built g -> (forall v b, rule g v b -> In v vs) -> (forall v b t, rule g v b -> In (Ter t) b -> In t ts) ->
  (forall v b, rule g v b -> In (v, b) rs) ->
  work_set fuel p g = Val (r, c, k) ->
  w_turns c <= list_sum (map (fun e => length (snd e)) rs) * (1 + length vs * (length vs + 1) * (length ts + 2)) /\
  k <= length vs * length vs * (length ts + 1).
Proof. exact (fun Hb Hv Ht Hr => set_turns g (built_good g Hb) vs ts Hv Ht rs fuel p r c k Hb Hr). Qed.
Print Assumptions C99_follow_turns_partial.

(** A closure takes exactly one turn for every item in it. *)
Theorem C99_closure_turns {V T} `{DecEq V} `{DecEq T} {ho : HashOrder} (g : grammar V T) fuel p items r k :
  work_closure fuel p items g = Val (r, k) -> k = length r.
Proof. exact (closure_count fuel p items g r k). Qed.
Print Assumptions C99_closure_turns.

(** Ten rules with nine variables and one terminal, in two of the orders. *)
Example C99_sample : exists g, build (do_calls (echo_calls 4)) = Val g /\ (forall v b, rule g v b -> In v (seq 0 9)) /\
  (let _ := id_order in exists r, work_set 200 [] g = Val (r, {| w_turns := 149; w_bodies := 181 |}, 16)) /\
  (let _ := rev_order in exists r, work_set 200 [] g = Val (r, {| w_turns := 148; w_bodies := 173 |}, 16)).
Proof.
  eexists. split; [vm_compute; reflexivity|]. split.
  - intros v b (bds & Hin & _). cbn in Hin. repeat (destruct Hin as [E|Hin]; [injection E as <- _; cbn; tauto|]). destruct Hin.
  - cbn zeta. split; eexists; vm_compute; reflexivity.
Qed.

(** A closure of eight items. *)
Example C99_closure_sample : exists g r, build (do_calls (echo_calls 3)) = Val g /\
  (let _ := id_order in
   work_closure 100 [] [(0, {| ib_body := [Var 6; Var 6; Var 1; Var 3; Var 5]; ib_cursor := 1 |})] g = Val (r, 8)) /\ length r = 8.
Proof. do 2 eexists. split; [vm_compute; reflexivity|]. split; [cbn zeta; vm_compute; reflexivity|reflexivity]. Qed.
