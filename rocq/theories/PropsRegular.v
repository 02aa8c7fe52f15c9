(** Property C96: the parser handles every regular language. *)
From Verif Require Import Base GrammarModel CfsmModel SlrModel SpecCfg SpecWrap SlrWitness SpecRegular RegularMore.

(** C96: the left linear grammar of a deterministic automaton without useless
    edges, with an end token.  [Slr::new] returns a table for it, for every hash order, and the
    parser takes exactly the words of the automaton, other than the empty one, that the end
    token follows; [o] is the token that is never sent.  The number of turns is linear in the
    number of tokens and in that of edges. *)
Theorem C96_left_linear {Q T} `{DecEq Q} `{DecEq T} (teq : T -> T -> bool) (d : machine Q T) e o :
  lawful teq -> deterministic teq d -> trim teq d -> d_edges d <> [] ->
  unlabelled teq d e -> unlabelled teq d o -> teq o e = false ->
  exists w, build (do_calls (wrapped (left_linear d) Whole Goal e o)) = Val w /\
    forall (ho : HashOrder) p, exists n tb, (forall fuel, n <= fuel -> slr_new teq fuel p w = Val tb) /\
      forall us, (forall t, In t us -> teq o t = false) -> exists r,
        (forall fuel, (2 * length us + 1) * (length (d_edges d) + 3) + 1 <= fuel -> parse teq fuel tb us = Val r) /\
        (r <> None <-> exists ts e', us = ts ++ [e'] /\ teq e e' = true /\ ts <> [] /\ takes teq d ts).
Proof. exact (fun Ht => left_exact teq Ht d e o). Qed.
Print Assumptions C96_left_linear.

(** C96: so every automaton, also one with choices and with useless edges, has a
    grammar whose parser takes exactly its words. *)
Theorem C96_every_automaton {Q T} `{DecEq Q} `{DecEq T} (teq : T -> T -> bool) (d : machine Q T) e o :
  lawful teq -> (exists w, w <> [] /\ takes teq d w) -> unlabelled teq d e -> unlabelled teq d o -> teq o e = false ->
  exists (cs : list (call (place (list Q)) T)) w, build (do_calls cs) = Val w /\
    forall (ho : HashOrder) p, exists n tb, (forall fuel, n <= fuel -> slr_new teq fuel p w = Val tb) /\
      forall us, (forall t, In t us -> teq o t = false) -> exists N r, (forall fuel, N <= fuel -> parse teq fuel tb us = Val r) /\
        (r <> None <-> exists ts e', us = ts ++ [e'] /\ teq e e' = true /\ ts <> [] /\ takes teq d ts).
Proof. exact (fun Ht => every_machine teq Ht d e o). Qed.
Print Assumptions C96_every_automaton.

(** C96: the right linear grammar does not do.  If a final state that an edge
    enters has an edge itself, then [Slr::new] panics, for every hash order. *)
Theorem C96_right_linear {Q T} `{DecEq Q} `{DecEq T} (teq : T -> T -> bool) (d : machine Q T) q a p b p' :
  lawful teq -> trim teq d -> In (q, a, p) (d_edges d) -> In p (d_final d) -> In (p, b, p') (d_edges d) ->
  exists g, build (do_calls (right_linear d)) = Val g /\
    forall (ho : HashOrder) at_, exists n, forall fuel, n <= fuel -> slr_new teq fuel at_ g = Panic.
Proof. exact (fun Ht => right_rejected teq Ht d q a p b p'). Qed.
Print Assumptions C96_right_linear.

(** Nor with an end token. *)
Theorem C96_right_linear_end {Q T} `{DecEq Q} `{DecEq T} (teq : T -> T -> bool) (d : machine Q T) q a p b p' e o :
  lawful teq -> trim teq d -> In (q, a, p) (d_edges d) -> In p (d_final d) -> In (p, b, p') (d_edges d) ->
  unlabelled teq d e -> unlabelled teq d o -> teq o e = false ->
  exists g, build (do_calls (wrapped (right_linear d) (At (d_start d)) Goal e o)) = Val g /\
    forall (ho : HashOrder) at_, exists n, forall fuel, n <= fuel -> slr_new teq fuel at_ g = Panic.
Proof. exact (fun Ht => right_rejected_end teq Ht d q a p b p' e o). Qed.
Print Assumptions C96_right_linear_end.

(** The words over 1 and 2 with an even number of 2. *)
Definition even_twos : machine nat nat := {| d_start := 0; d_edges := [(0, 1, 0); (0, 2, 1); (1, 1, 1); (1, 2, 0)]; d_final := [0] |}.

Example C96_sample : lawful Nat.eqb /\ deterministic Nat.eqb even_twos /\ trim Nat.eqb even_twos /\ d_edges even_twos <> [] /\
  unlabelled Nat.eqb even_twos 3 /\ unlabelled Nat.eqb even_twos 4 /\ Nat.eqb 4 3 = false /\
  (exists w, w <> [] /\ takes Nat.eqb even_twos w) /\
  In (0, 1, 0) (d_edges even_twos) /\ In 0 (d_final even_twos).
Proof.
  assert (H0 : leads Nat.eqb even_twos 0 [] 0) by constructor.
  assert (H1 : leads Nat.eqb even_twos 0 ([] ++ [2]) 1) by (apply (leads_more Nat.eqb even_twos 0 [] 0 2 2 1); auto; cbn; auto).
  assert (H2 : leads Nat.eqb even_twos 1 ([] ++ [2]) 0) by (apply (leads_more Nat.eqb even_twos 1 [] 1 2 2 0); auto; [constructor|cbn; auto]).
  split; [exact eq_lawful|]. split; [|split; [|split; [discriminate|split; [|split; [|split; [reflexivity|split; [|split; cbn; auto]]]]]]].
  - intros q a p q' a' p' Hi Hi' E. apply Nat.eqb_eq in E. subst a'. split; auto. intros <-. cbn in Hi, Hi'.
    intuition congruence.
  - intros q a p Hi. cbn in Hi. destruct Hi as [[= <- <- <-]|[[= <- <- <-]|[[= <- <- <-]|[[= <- <- <-]|[]]]]]; split;
      try (eexists; eassumption); eexists _, 0; (split; [left; reflexivity|eassumption]).
  - intros q a p Hi. cbn in Hi. destruct Hi as [[= <- <- <-]|[[= <- <- <-]|[[= <- <- <-]|[[= <- <- <-]|[]]]]]; reflexivity.
  - intros q a p Hi. cbn in Hi. destruct Hi as [[= <- <- <-]|[[= <- <- <-]|[[= <- <- <-]|[[= <- <- <-]|[]]]]]; reflexivity.
  - exists [1]. split; [discriminate|]. exists 0. split; [left; reflexivity|].
    apply (leads_more Nat.eqb even_twos 0 [] 0 1 1 0); auto. cbn. auto.
Qed.

(** What its parser says, and what [Slr::new] does with the right linear grammar. *)
Example C96_run :
  (let! w := build (do_calls (wrapped (left_linear even_twos) Whole Goal 3 4)) in
   let! tb := slr_new (ho := rev_order) Nat.eqb 60 [] w in
   Val (map (fun us => match parse Nat.eqb 200 tb us with Val (Some _) => Some true | Val None => Some false | _ => None end)
     [[1; 2; 1; 2; 3]; [2; 2; 3]; [2; 3]; [1; 1]; [3]; [2; 3; 2; 3]])) =
    Val [Some true; Some true; Some false; Some false; Some false; Some false] /\
  (let! g := build (do_calls (right_linear even_twos)) in slr_new (ho := rev_order) Nat.eqb 60 [] g) = Panic.
Proof. split; vm_compute; reflexivity. Qed.
