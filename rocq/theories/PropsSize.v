(** Property C90: how large the stack and the tree of the parser get. *)
From Verif Require Import Base GrammarModel CfsmModel SlrModel SpecCfg SpecSize SlrWitness SizeModel SizeProofs.

(** C90: the stack never has more entries than there are tokens, and one. *)
Theorem C90_stack {V T} `{DecEq V} `{DecEq T} {ho : HashOrder} (teq : T -> T -> bool) (g : grammar V T) fuel p tb fuel' ts d :
  lawful teq -> built g -> slr_new teq fuel p g = Val tb -> length ts < d ->
  s_parse teq d fuel' tb ts = Some (parse teq fuel' tb ts).
Proof. exact (fun Ht Hb => s_parse_ok teq g Hb fuel p tb ts d fuel' Ht). Qed.
Print Assumptions C90_stack.

(** C90: the nodes of a returned tree, and so its height, are at most a constant of
    the grammar times the number of tokens. *)
Theorem C90_tree {V T} `{DecEq V} `{DecEq T} {ho : HashOrder} (teq : T -> T -> bool) (g : grammar V T) fuel p tb fuel' ts n :
  lawful teq -> built g -> slr_new teq fuel p g = Val tb -> parse teq fuel' tb ts = Val (Some n) ->
  height n <= nodes n /\ nodes n <= (2 * length ts + 1) * (length (g_rules g) + 1) + 1.
Proof. exact (fun Ht Hb Hn Hp => conj (height_nodes n) (parse_nodes teq g Hb fuel p tb fuel' ts n Ht Hn Hp)). Qed.
Print Assumptions C90_tree.

(** C90: the height, which is the number of nested calls when the tree is dropped or
    printed, has no better bound: [0 -> 0 a | a] on [n + 1] letters. *)
Theorem C90_high {ho : HashOrder} fuel p tb n : slr_new Nat.eqb fuel p letters = Val tb ->
  exists fuel' x, parse Nat.eqb fuel' tb (repeat 0 (S n)) = Val (Some x) /\ height x = n + 2.
Proof.
  exact (fun H => let '(ex_intro _ fuel' Hp) := letters_comb fuel p tb n H in ex_intro _ fuel' (ex_intro _ (comb n) (conj Hp (comb_height n)))).
Qed.
Print Assumptions C90_high.

Example C90_sample : built letters /\ slr_new (ho := id_order) Nat.eqb 60 [] letters = Val letters_table /\
  parse Nat.eqb 20 letters_table [0; 0; 0; 0] = Val (Some (comb 3)) /\ height (comb 3) = 5 /\ nodes (comb 3) = 8 /\
  (2 * 4 + 1) * (length (g_rules letters) + 1) + 1 = 19.
Proof. split; [exact letters_built|]. split; [exact letters_new|]. split; [vm_compute; reflexivity|]. repeat split. Qed.
(** All tokens of [1 1 2] are on the stack before the first reduction. *)
Example C90_full : built nest /\ slr_new (ho := id_order) Nat.eqb 60 [] nest = Val nest_table /\
  s_parse Nat.eqb 3 20 nest_table [1; 1; 2] = None /\ s_parse Nat.eqb 4 20 nest_table [1; 1; 2] = Some (parse Nat.eqb 20 nest_table [1; 1; 2]).
Proof. split; [exact nest_built|]. split; [exact nest_new|]. split; vm_compute; reflexivity. Qed.
