(** Property C109: the language of a parser. *)
From Verif Require Import Base GrammarModel CfsmModel SlrModel SpecCfg SpecLoose SlrWitness LooseProofs.

(** C109: without epsilon a parser returns trees for no input at all, or for exactly
    the sentences of the grammar [loose g].  The tree is the part of the derivation
    behind its first child, which is dropped. *)
Theorem C109_language {V T} `{DecEq V} `{DecEq T} {ho : HashOrder} (teq : T -> T -> bool) (g : grammar V T) fuel p tb :
  lawful teq -> built g -> epsilon_free g -> slr_new teq fuel p g = Val tb ->
  (forall fuel' ts n, parse teq fuel' tb ts <> Val (Some n)) \/
  (forall ts cs, (exists n, forall fuel', n <= fuel' -> parse teq fuel' tb ts = Val (Some (to_node (Branch (g_start g) cs)))) <->
     exists b, parses (loose g) teq ts (Branch Input (b :: map inside cs))) /\
  (forall ts, (exists fuel' n, parse teq fuel' tb ts = Val (Some n)) <-> exists y, parses (loose g) teq ts y).
Proof. exact (fun Ht Hb He => loose_exact teq g He Ht Hb fuel p tb). Qed.
Print Assumptions C109_language.

(** So a text that can stand before the start variable can be put before any input
    with a tree, and the tree is the same. *)
Theorem C109_more_before {V T} `{DecEq V} `{DecEq T} {ho : HashOrder} (teq : T -> T -> bool) (g : grammar V T) fuel p tb fuel' ts n w xs :
  lawful teq -> built g -> epsilon_free g -> slr_new teq fuel p g = Val tb ->
  before g (g_start g) w -> Forall2 (sat teq) w xs -> Forall (derivation g teq) xs ->
  parse teq fuel' tb ts = Val (Some n) -> exists k, forall fuel', k <= fuel' -> parse teq fuel' tb (flat_map leaves xs ++ ts) = Val (Some n).
Proof. exact (fun Ht Hb He => more_before teq g He Ht Hb fuel p tb fuel' ts n w xs). Qed.
Print Assumptions C109_more_before.

(** [0 -> 1 0 3 | 2]: before the start variable can stand any number of 1. *)
Example C109_sample : lawful Nat.eqb /\ built nest /\ epsilon_free nest /\ slr_new (ho := id_order) Nat.eqb 60 [] nest = Val nest_table /\
  before nest 0 [ter 1; ter 1] /\
  parses (loose nest) Nat.eqb [1; 1; 2; 3] (Branch Input (Branch (Before 0) [Branch (Before 0) []; Leaf 1] :: map inside [Leaf 1; Branch 0 [Leaf 2]; Leaf 3])) /\
  parse Nat.eqb 60 nest_table [1; 1; 2; 3] = Val (Some (to_node (Branch 0 [Leaf 1; Branch 0 [Leaf 2]; Leaf 3]))).
Proof.
  split; [exact eq_lawful|]. split; [exact nest_built|]. split; [intros v bd _ H; each_rule H; cbn; intuition discriminate|]. split; [exact nest_new|].
  assert (R1 : rule nest 0 [ter 1; var 0; ter 3]) by a_rule. assert (R2 : rule nest 0 [ter 2]) by a_rule.
  split; [|split; [|vm_compute; reflexivity]].
  - apply (before_rule nest 0 [ter 1] [ter 1] 0 [ter 3]); [|exact R1]. apply (before_rule nest 0 [] [ter 1] 0 [ter 3]); [apply before_start|exact R1].
  - split; [|split; [reflexivity|eauto]]. assert (D : derivation (loose nest) Nat.eqb (Branch (Before 0) [Branch (Before 0) []; Leaf 1])).
    { apply (derivation_branch _ _ (Before 0) [Var (Before 0); Ter 1]).
      - apply (loose_rule nest (Before 0)). right. exists 0, [ter 1], [ter 3]. auto.
      - repeat constructor.
      - repeat constructor. apply (derivation_branch _ _ (Before 0) [Eps]); [|constructor|constructor]. apply (loose_rule nest (Before 0)). auto. }
    apply (derivation_branch _ _ Input [Var (Before 0); Ter 1; Var (Inside 0); Ter 3]).
    + apply (loose_rule nest Input). exists [ter 1; var 0], 3. auto.
    + repeat constructor.
    + repeat constructor; auto. apply (derivation_branch _ _ (Inside 0) [Ter 2]).
      * apply (loose_rule nest (Inside 0)). exists [ter 2]. auto.
      * repeat constructor.
      * repeat constructor.
Qed.
