(** Property C97: every SLR(1) grammar can be written so that it is parsed. *)
From Verif Require Import Base GrammarModel CfsmModel SlrModel SpecCfg SpecWrap SpecNamed SlrWitness NamedWitness NamedProofs.

(** C97: [Slr::new] refuses SLR(1) grammars in which a state reads a terminal in
    two items (C35).  It takes all of them if every terminal gets a variable of its own, for
    every hash order; also with epsilon and with useless variables. *)
Theorem C97_new {V T} `{DecEq V} `{DecEq T} {ho : HashOrder} (teq : T -> T -> bool) cs (g : grammar V T) p :
  lawful teq -> build (do_calls cs) = Val g -> alike teq g -> ~ slr_conflict g ->
  exists g', build (do_calls (named_calls cs)) = Val g' /\ exists n tb, forall fuel, n <= fuel -> slr_new teq fuel p g' = Val tb.
Proof. exact (fun Ht => named_new teq Ht cs g p). Qed.
Print Assumptions C97_new.

(** C97: the sentences stay the same, and the trees up to the new nodes. *)
Theorem C97_trees {V T} `{DecEq V} `{DecEq T} (teq : T -> T -> bool) cs (g : grammar V T) g' ts :
  build (do_calls cs) = Val g -> build (do_calls (named_calls cs)) = Val g' ->
  (forall x, parses g teq ts x -> exists y, parses g' teq ts y /\ named teq x y) /\
  (forall y, parses g' teq ts y -> exists x, parses g teq ts x /\ named teq x y).
Proof.
  exact (fun H H' => let (E, R) := named_rules cs g g' H H' in
    conj (fun x => parses_named teq g g' R E ts x) (fun y => named_parses teq g g' R E ts y)).
Qed.
Print Assumptions C97_trees.

(** C97: so every SLR(1) grammar without epsilon and useless variables is parsed
    exactly, with an end token as in C74.  The premise about the start variable is the part of
    SLR(1) that concerns accepting; [o] is the token that is never sent.  The result is what every
    derivation tree becomes. *)
Theorem C97_exact {V T} `{DecEq V} `{DecEq T} (teq : T -> T -> bool) cs (g : grammar V T) z e o :
  lawful teq -> build (do_calls cs) = Val g -> clean g -> alike teq g -> ~ slr_conflict g ->
  (forall h a, lr0 g [Var (g_start g)] (h, a, []) -> ~ lookahead g h None) ->
  fresh_variable g z -> fresh_terminal teq g e -> fresh_terminal teq g o -> teq o e = false ->
  exists w, build (do_calls (wrapped (named_calls cs) (inl (g_start g)) (inl z) e o)) = Val w /\
    forall (ho : HashOrder) p, exists n tb, (forall fuel, n <= fuel -> slr_new teq fuel p w = Val tb) /\
      forall us, (forall t, In t us -> teq o t = false) ->
        let turns := (2 * length us + 1) * (length (g_rules w) + 1) + 1 in
        (exists ks e' y, us = ks ++ [e'] /\ teq e e' = true /\ (exists x, parses g teq ks x) /\ (forall x, parses g teq ks x -> named teq x y) /\
           forall fuel', turns <= fuel' -> parse teq fuel' tb us = Val (Some (Node (Var (inl z)) [Node (Ter e') []; to_node y]))) \/
        ((forall ks e' x, us = ks ++ [e'] -> teq e e' = true -> ~ parses g teq ks x) /\
         forall fuel', turns <= fuel' -> parse teq fuel' tb us = Val None).
Proof. exact (fun Ht => named_exact teq Ht cs g z e o). Qed.
Print Assumptions C97_exact.

Example C97_sample : lawful Nat.eqb /\ build (do_calls twins_calls) = Val twins /\ clean twins /\ alike Nat.eqb twins /\ ~ slr_conflict twins /\
  (forall h a, lr0 twins [Var (g_start twins)] (h, a, []) -> ~ lookahead twins h None) /\
  fresh_variable twins 1 /\ fresh_terminal Nat.eqb twins 5 /\ fresh_terminal Nat.eqb twins 6 /\ Nat.eqb 6 5 = false.
Proof.
  split; [exact eq_lawful|]. split; [exact twins_calls_build|]. split; [exact twins_clean|].
  split; [intros v bd t v' bd' t' _ _ _ _ E; apply Nat.eqb_eq; exact E|]. split; [exact twins_no_conflict|]. split; [exact twins_no_accept|].
  split; [exact (proj1 twins_fresh)|]. split; [exact (proj1 (proj2 twins_fresh))|]. split; [exact (proj2 (proj2 twins_fresh))|reflexivity].
Qed.

(** As it is the grammar is refused; with the variables its sentences are parsed. *)
Example C97_run :
  slr_new (ho := id_order) Nat.eqb 60 [] twins = Panic /\
  (let! w := build (do_calls (wrapped (named_calls twins_calls) (inl 0) (inl 1) 5 6)) in
   let! tb := slr_new (ho := id_order) Nat.eqb 60 [] w in
   Val (map (fun us => match parse Nat.eqb 200 tb us with Val (Some _) => Some true | Val None => Some false | _ => None end)
     [[1; 1; 4; 2; 3; 5]; [4; 5]; [1; 4; 4; 5]; [1; 4; 2]])) = Val [Some true; Some true; Some false; Some false].
Proof. split; vm_compute; reflexivity. Qed.
