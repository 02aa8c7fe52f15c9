(** Property C114: the inputs with a tree are a context-free language. *)
From Verif Require Import Base GrammarModel CfsmModel SlrModel SpecCfg SpecPrefix SlrWitness SlrReads ContextProofs.

(** C114: for every grammar for which a parser is built, epsilon rules included, the
    inputs to which the parser gives a tree are the sentences of some grammar. *)
Theorem C114_context_free {V T} `{DecEq V} `{DecEq T} {ho : HashOrder} (teq : T -> T -> bool) (g : grammar V T) fuel p tb :
  lawful teq -> built g -> slr_new teq fuel p g = Val tb ->
  exists (W : Type) (g' : grammar W T), forall ts,
    (exists fuel' n, parse teq fuel' tb ts = Val (Some n)) <-> exists x, parses g' teq ts x.
Proof. exact (parser_context_free teq g fuel p tb). Qed.
Print Assumptions C114_context_free.

(** [0 -> a 1 b | 1 d | 0 e], [1 -> epsilon | c]: the grammar itself is not the one,
    for [a d] gets a tree and begins no sentence, and the sentence [a b] gets none. *)
Example C114_sample : lawful Nat.eqb /\ built lost /\ slr_new (ho := id_order) Nat.eqb 60 [] lost = Val lost_table /\
  (exists n, parse Nat.eqb 5 lost_table [1; 4] = Val (Some n)) /\ ~ begins_sentence lost Nat.eqb [1; 4] /\
  (exists x, parses lost Nat.eqb [1; 2] x) /\ parse Nat.eqb 7 lost_table [1; 2] = Val None.
Proof.
  split; [exact eq_lawful|]. split; [exact lost_built|]. split; [exact lost_new|]. split; [eexists; exact (proj1 (lost_runs 5 (le_n _)))|].
  split; [exact lost_bad|]. split; [|vm_compute; reflexivity].
  exists (Branch 0 [Leaf 1; Branch 1 []; Leaf 2]). split; [|split; [reflexivity|eexists; reflexivity]].
  apply (derivation_branch _ _ _ [ter 1; var 1; ter 2]); [a_rule| |].
  - cbn. constructor; [reflexivity|]. constructor; [reflexivity|]. constructor; [reflexivity|constructor].
  - constructor; [constructor|]. constructor; [|constructor; [constructor|constructor]].
    apply (derivation_branch _ _ _ [eps]); [a_rule|constructor|constructor].
Qed.
