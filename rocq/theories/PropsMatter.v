(** Property C124: whether the order of the iterations matters is computed. *)
From Verif Require Import Base GrammarModel CfsmModel SlrModel SpecCfg SlrWitness SpecExactness ExactnessProofs SpecBuildable SpecTextbook SpecMatter MatterProofs.

(** C124: for every grammar, two orders after which [Slr::new], or the parser for some
    input, behaves differently exist exactly if [Slr::new] succeeds under some order, and
    either panics under another, or the start variable need not get an entry
    and some input gets a tree under some order. *)
Theorem C124_matters {V T} `{DecEq V} `{DecEq T} (teq : T -> T -> bool) (g : grammar V T) : lawful teq -> built g ->
  order_matters teq g <->
  ~ clash g teq (entry_sure g (g_start g)) /\
  (clash g teq (entry_possible g (g_start g)) \/ (~ entry_sure g (g_start g) /\ some_tree_at_all teq g)).
Proof. exact (fun Ht Hb => matters_iff g Hb teq Ht). Qed.
Print Assumptions C124_matters.

(** C124: without epsilon a function of the grammar tells whether there are such orders,
    and if it returns false all orders behave alike. *)
Theorem C124_computed {V T} `{DecEq V} `{DecEq T} (teq : T -> T -> bool) (g : grammar V T) : lawful teq -> built g -> epsilon_free g ->
  (mattersb teq g = true <-> order_matters teq g) /\
  (mattersb teq g = false <-> forall ho p ho' p', same teq g ho p ho' p').
Proof. exact (fun Ht Hb He => conj (mattersb_ok g Hb teq Ht He) (same_iff g Hb teq Ht He)). Qed.
Print Assumptions C124_computed.

(** C124: for every grammar and input, two parsers agree unless one of them returns
    a tree; one that does not end under one order ends under none. *)
Theorem C124_trees {V T} `{DecEq V} `{DecEq T} (teq : T -> T -> bool) (g : grammar V T) (ho ho' : HashOrder) fuel p tb fuel' p' tb' ts :
  lawful teq -> built g -> slr_new teq (ho := ho) fuel p g = Val tb -> slr_new teq (ho := ho') fuel' p' g = Val tb' ->
  ((exists n k, parse teq k tb ts = Val (Some n)) \/ (exists n k, parse teq k tb' ts = Val (Some n)) \/
   exists m, forall k, m <= k -> agree (parse teq k tb ts) (parse teq k tb' ts)) /\
  ((forall k, parse teq k tb ts = Diverge) -> forall k, parse teq k tb' ts = Diverge).
Proof. exact (fun Ht Hb H1 H2 => conj (agree_or_tree g Hb teq Ht ho ho' fuel p tb fuel' p' tb' ts H1 H2) (endless_both g Hb teq Ht ho ho' fuel p tb fuel' p' tb' ts H1 H2)). Qed.
Print Assumptions C124_trees.

(** For [fickle] the order matters. With [0 -> 4], [4 -> a] instead of [0 -> a] the entry of 0
    still depends on the order, but no input ever gets a tree, and the order does not matter;
    nor does it for [stmts]. *)
Example C124_sample :
  let idle := gram [(0, [var 4]); (4, [ter 1]); (1, [var 2; eps]); (2, [var 3]); (3, [var 0])] in
  lawful Nat.eqb /\ built fickle /\ epsilon_free fickle /\ mattersb Nat.eqb fickle = true /\
  built idle /\ epsilon_free idle /\ steadyb idle = false /\ mattersb Nat.eqb idle = false /\
  built stmts /\ epsilon_free stmts /\ mattersb Nat.eqb stmts = false.
Proof.
  intros idle. split; [exact eq_lawful|].
  repeat match goal with |- _ /\ _ => split end; lazymatch goal with
    | |- built _ => apply gram_built; reflexivity
    | |- epsilon_free _ => apply freeb_ok; vm_compute; reflexivity
    | |- _ => vm_compute; reflexivity
    end.
Qed.

Example C124_trees_sample : slr_new (ho := id_order) Nat.eqb 60 [] fickle = Val fickle_table /\ slr_new (ho := third_order) Nat.eqb 60 [] fickle = Val fickle_table' /\
  (exists n, parse Nat.eqb 4 fickle_table [1] = Val (Some n)) /\ failed (parse Nat.eqb 4 fickle_table' [1]).
Proof. split; [exact fickle_new|]. split; [exact fickle_new'|]. split; [eexists|right]; vm_compute; reflexivity. Qed.
