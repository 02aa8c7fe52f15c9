(** Property C100: grammars with epsilon and useless variables, written without them. *)
From Verif Require Import Base GrammarModel CfsmModel SlrModel SpecCfg SpecWrap SpecNamed SpecClean SlrWitness CleanWitness CleanFinal CleanSlr.

(** C100: for the calls of every grammar with a sentence that is not empty, the calls without
    epsilon and useless variables build a grammar that is clean. *)
Theorem C100_builds {V T} `{DecEq V} `{DecEq T} (teq : T -> T -> bool) cs (g : grammar V T) :
  lawful teq -> build (do_calls cs) = Val g ->
  ((exists ts x, ts <> [] /\ parses g teq ts x) <-> exists g', build (do_calls (cleaned cs)) = Val g') /\
  forall g', build (do_calls (cleaned cs)) = Val g' -> clean g' /\ g_start g' = g_start g.
Proof.
  exact (fun Ht Hg => let (B1, B2) := cleaned_build teq Ht cs g Hg in
    conj (conj B1 (fun h => match h with ex_intro _ g' E => proj2 (proj2 (B2 g' E)) end))
      (fun g' E => let (c, r) := cleaned_ok teq Ht cs g g' Hg E in conj c (proj1 r))).
Qed.
Print Assumptions C100_builds.

(** C100: its trees are the trees of the grammar without the variables that stand for the empty
    text; all sentences are kept but the empty one. *)
Theorem C100_trees {V T} `{DecEq V} `{DecEq T} (teq : T -> T -> bool) cs (g g' : grammar V T) ts :
  lawful teq -> build (do_calls cs) = Val g -> build (do_calls (cleaned cs)) = Val g' ->
  (forall x, parses g teq ts x -> ts <> [] -> exists y, pruned x = [y] /\ parses g' teq ts y) /\
  (forall y, parses g' teq ts y -> ts <> [] /\ exists x, parses g teq ts x /\ pruned x = [y]).
Proof.
  exact (fun Ht Hg Hg' => let r := proj2 (proj2 (cleaned_ok teq Ht cs g g' Hg Hg')) in
    conj (proj1 r ts) (proj1 (proj2 r) ts)).
Qed.
Print Assumptions C100_trees.

(** C100: with an end token, written without epsilon and useless variables, every grammar that
    [Slr::new] then takes is parsed exactly, the empty sentence included: for a sentence and the
    end token the result is what all its derivation trees become without the empty variables, for
    all other inputs [Err], after linearly many turns. *)
Theorem C100_exact {V T} `{DecEq V} `{DecEq T} {ho : HashOrder} (teq : T -> T -> bool) cs (g w : grammar V T) z e o fuel p tb us :
  lawful teq -> build (do_calls cs) = Val g -> fresh_variable g z ->
  build (do_calls (cleaned (wrapped cs (g_start g) z e o))) = Val w -> slr_new teq fuel p w = Val tb ->
  (forall t, In t us -> teq o t = false) ->
  let turns := (2 * length us + 1) * (length (g_rules w) + 1) + 1 in
  (exists ks e' ys, us = ks ++ [e'] /\ teq e e' = true /\ (exists x, parses g teq ks x) /\ (forall x, parses g teq ks x -> pruned x = ys) /\
     forall fuel', turns <= fuel' -> parse teq fuel' tb us = Val (Some (Node (Var z) (Node (Ter e') [] :: map to_node ys)))) \/
  ((forall ks e' x, us = ks ++ [e'] -> teq e e' = true -> ~ parses g teq ks x) /\
   forall fuel', turns <= fuel' -> parse teq fuel' tb us = Val None).
Proof. exact (fun Ht Hg Hz Hw => ended_parse teq Ht cs g z e o Hg Hz w fuel p tb us Hw). Qed.
Print Assumptions C100_exact.

(** C100: the builder takes these calls exactly if the grammar has a sentence. *)
Theorem C100_exact_builds {V T} `{DecEq V} `{DecEq T} (teq : T -> T -> bool) cs (g : grammar V T) z e o :
  lawful teq -> build (do_calls cs) = Val g -> fresh_variable g z ->
  (exists ts x, parses g teq ts x) <-> exists w, build (do_calls (cleaned (wrapped cs (g_start g) z e o))) = Val w.
Proof. exact (fun Ht Hg Hz => ended_builds teq Ht cs g z e o Hg Hz). Qed.
Print Assumptions C100_exact_builds.

(** C100: if the grammar is SLR(1) once epsilon and useless variables are gone, [Slr::new] takes
    it for every hash order, with variables for the terminals as in C97, and all sentences but the
    empty one are parsed to what their derivation trees become. *)
Theorem C100_slr {V T} `{DecEq V} `{DecEq T} (teq : T -> T -> bool) cs (g g' : grammar V T) z e o :
  lawful teq -> build (do_calls cs) = Val g -> build (do_calls (cleaned cs)) = Val g' ->
  alike teq g' -> ~ slr_conflict g' -> (forall h a, lr0 g' [Var (g_start g')] (h, a, []) -> ~ lookahead g' h None) ->
  fresh_variable g' z -> fresh_terminal teq g' e -> fresh_terminal teq g' o -> teq o e = false ->
  exists w, build (do_calls (wrapped (named_calls (cleaned cs)) (inl (g_start g)) (inl z) e o)) = Val w /\
    forall (ho : HashOrder) p, exists n tb, (forall fuel, n <= fuel -> slr_new teq fuel p w = Val tb) /\
      forall us, (forall t, In t us -> teq o t = false) ->
        let turns := (2 * length us + 1) * (length (g_rules w) + 1) + 1 in
        (exists ks e' y, us = ks ++ [e'] /\ teq e e' = true /\ ks <> [] /\ (exists x, parses g teq ks x) /\
           (forall x, parses g teq ks x -> exists y0, pruned x = [y0] /\ named teq y0 y) /\
           forall fuel', turns <= fuel' -> parse teq fuel' tb us = Val (Some (Node (Var (inl z)) [Node (Ter e') []; to_node y]))) \/
        ((forall ks e' x, us = ks ++ [e'] -> teq e e' = true -> ks <> [] -> ~ parses g teq ks x) /\
         forall fuel', turns <= fuel' -> parse teq fuel' tb us = Val None).
Proof. exact (fun Ht => cleaned_exact teq Ht cs g g' z e o). Qed.
Print Assumptions C100_slr.
Example C100_slr_sample : lawful Nat.eqb /\ build (do_calls brackets) = Val brackets_plain /\ build (do_calls (cleaned brackets)) = Val brackets_clean /\
  alike Nat.eqb brackets_clean /\ ~ slr_conflict brackets_clean /\
  (forall h a, lr0 brackets_clean [Var (g_start brackets_clean)] (h, a, []) -> ~ lookahead brackets_clean h None) /\
  (fresh_variable brackets_clean 9 /\ fresh_terminal Nat.eqb brackets_clean 5 /\ fresh_terminal Nat.eqb brackets_clean 6) /\ Nat.eqb 6 5 = false /\
  slr_new (ho := id_order) Nat.eqb 60 [] brackets_clean = Panic.
Proof.
  split; [exact eq_lawful|]. split; [exact brackets_build|]. split; [exact brackets_clean_build|].
  split; [intros v bd t v' bd' t' _ _ _ _ E; apply Nat.eqb_eq; exact E|]. split; [exact brackets_no_conflict|]. split; [exact brackets_no_accept|].
  split; [exact brackets_fresh|]. split; vm_compute; reflexivity.
Qed.

(** Texts of parentheses, [0 -> 0 ( 0 ) | epsilon], with a useless variable [3 -> 3 d]; the
    terminals have variables of their own as in C97. *)
Example C100_cleaned : cleaned (wrapped brackets 0 9 5 6) =
  [CallStart 9; CallRule 0 [var 0; ter 1; var 0; ter 2]; CallRule 0 [var 0; ter 1; ter 2]; CallRule 0 [ter 1; var 0; ter 2];
   CallRule 0 [ter 1; ter 2]; CallRule 9 [var 0; ter 5]; CallRule 9 [ter 5]; CallRule 9 [var 9; ter 6]].
Proof. vm_compute. reflexivity. Qed.
Example C100_sample : lawful Nat.eqb /\ build (do_calls (named_calls brackets)) = Val brackets_named /\ fresh_variable brackets_named (inl 9) /\
  build (do_calls (cleaned (wrapped (named_calls brackets) (g_start brackets_named) (inl 9) 5 6))) = Val brackets_ended /\
  slr_new (ho := id_order) Nat.eqb 100 [] brackets_ended = Val brackets_table /\
  map (fun us => match parse Nat.eqb 300 brackets_table us with Val (Some n) => Some (spelled n) | _ => None end)
    [[5]; [1; 2; 5]; [1; 1; 2; 2; 1; 2; 5]; [1; 2]; [1; 5]; [2; 5]] =
  [Some [5]; Some [1; 2; 5]; Some [1; 1; 2; 2; 1; 2; 5]; None; None; None].
Proof.
  split; [exact eq_lawful|]. split; [vm_compute; reflexivity|]. split.
  - intros v bd (bds & H1 & H2). vm_compute in H1. repeat (destruct H1 as [H1|H1]; [injection H1 as <- <-;
      repeat (destruct H2 as [H2|H2]; [subst bd; split; [discriminate|]; cbn; intuition discriminate|]); contradiction|]); contradiction.
  - split; [vm_compute; reflexivity|]. split; vm_compute; reflexivity.
Qed.
Example C100_pruned : pruned (Branch 0 [Branch 0 []; Leaf 1; Branch 0 []; Leaf 2]) = [Branch 0 [Leaf 1; Leaf 2]] /\
  pruned (T := nat) (Branch 0 [Branch 3 []]) = [].
Proof. split; reflexivity. Qed.
