(** Property C120: which outcomes some input has is computed from the table. *)
From Verif Require Import Base GrammarModel CfsmModel SlrModel SpecCfg SlrWitness SlrReads SpecPossible PossibleParser.

(** C120: for every grammar for which a parser is built, epsilon rules included, a
    function of the table tells whether some input made of the given tokens gets a
    tree, or an error, or makes the parser panic, or makes it run for ever. *)
Theorem C120_outcomes {V T} `{DecEq V} `{DecEq T} {ho : HashOrder} (teq : T -> T -> bool) (g : grammar V T) fuel p tb (ks : list T) :
  lawful teq -> built g -> slr_new teq fuel p g = Val tb ->
  ((exists ts, incl ts ks /\ exists fuel' n, parse teq fuel' tb ts = Val (Some n)) <-> possible teq tb ks Tree = true) /\
  ((exists ts, incl ts ks /\ exists fuel', parse teq fuel' tb ts = Val None) <-> possible teq tb ks Fails = true) /\
  ((exists ts, incl ts ks /\ exists fuel', parse teq fuel' tb ts = Panic) <-> possible teq tb ks Panics = true) /\
  ((exists ts, incl ts ks /\ forall fuel', parse teq fuel' tb ts = Diverge) <-> endless teq tb ks = true).
Proof. exact (fun Ht Hb Hn => possible_from teq g fuel p tb Ht Hb Hn ks). Qed.
Print Assumptions C120_outcomes.

(** C120: and so for all inputs, if every token is treated like one of the list. *)
Theorem C120_any_input {V T} `{DecEq V} `{DecEq T} {ho : HashOrder} (teq : T -> T -> bool) (g : grammar V T) fuel p tb (ks : list T) :
  lawful teq -> built g -> slr_new teq fuel p g = Val tb -> covering teq tb ks ->
  ((exists ts fuel' n, parse teq fuel' tb ts = Val (Some n)) <-> possible teq tb ks Tree = true) /\
  ((exists ts fuel', parse teq fuel' tb ts = Val None) <-> possible teq tb ks Fails = true) /\
  ((exists ts fuel', parse teq fuel' tb ts = Panic) <-> possible teq tb ks Panics = true) /\
  ((exists ts, forall fuel', parse teq fuel' tb ts = Diverge) <-> endless teq tb ks = true).
Proof. exact (fun Ht Hb Hn => possible_any teq g fuel p tb Ht Hb Hn ks). Qed.
Print Assumptions C120_any_input.

(** C120: the list can be the tokens of the table and one that equals none of them,
    if there is such a token. *)
Theorem C120_tokens {V T} (teq : T -> T -> bool) (tb : table V T) (ks : list T) : lawful teq -> incl (table_keys tb) ks ->
  (exists k, In k ks /\ forall x, In x (table_keys tb) -> teq k x = false) \/ (forall t, exists x, In x (table_keys tb) /\ teq t x = true) ->
  covering teq tb ks.
Proof. exact (covering_keys teq tb ks). Qed.
Print Assumptions C120_tokens.

(** C120: so it is known whether the parser answers every input with a tree or an error. *)
Theorem C120_safe {V T} `{DecEq V} `{DecEq T} {ho : HashOrder} (teq : T -> T -> bool) (g : grammar V T) fuel p tb (ks : list T) :
  lawful teq -> built g -> slr_new teq fuel p g = Val tb -> covering teq tb ks ->
  negb (possible teq tb ks Panics) && negb (endless teq tb ks) = true <-> forall ts, exists fuel' r, parse teq fuel' tb ts = Val r.
Proof. exact (fun Ht Hb Hn => possible_safe teq g fuel p tb Ht Hb Hn ks). Qed.
Print Assumptions C120_safe.

(** [0 -> 1 1 a | b 1 a], [1 -> epsilon] has sentences, but no input gets a tree; some
    inputs get an error, some make the parser panic, and some make it run for ever. *)
Example C120_sample : lawful Nat.eqb /\ built empties /\ slr_new (ho := id_order) Nat.eqb 60 [] empties = Val empties_table /\
  covering Nat.eqb empties_table [1; 2; 3] /\
  possible Nat.eqb empties_table [1; 2; 3] Tree = false /\ possible Nat.eqb empties_table [1; 2; 3] Fails = true /\
  possible Nat.eqb empties_table [1; 2; 3] Panics = true /\ endless Nat.eqb empties_table [1; 2; 3] = true.
Proof.
  split; [exact eq_lawful|]. split; [exact empties_built|]. split; [exact empties_new|]. split.
  - apply C120_tokens; [exact eq_lawful| |left; exists 3; split; [cbn; auto|]]; intros x Hx; vm_compute in Hx; cbn; intuition (subst; auto).
  - repeat split; vm_compute; reflexivity.
Qed.

(** The parser for [0 -> 0 a | b] answers every input. *)
Example C120_safe_sample : let g := gram [(0, [var 0; ter 1]); (0, [ter 2])] in
  exists tb, built g /\ slr_new (ho := id_order) Nat.eqb 60 [] g = Val tb /\ covering Nat.eqb tb [1; 2; 3] /\
    possible Nat.eqb tb [1; 2; 3] Tree = true /\ negb (possible Nat.eqb tb [1; 2; 3] Panics) && negb (endless Nat.eqb tb [1; 2; 3]) = true.
Proof.
  intros g. exists (new_of id_order Nat.eqb g). split; [apply gram_built; reflexivity|]. split; [vm_compute; reflexivity|]. split.
  - apply C120_tokens; [exact eq_lawful| |left; exists 3; split; [cbn; auto|]]; intros x Hx; vm_compute in Hx; cbn; intuition (subst; auto).
  - split; vm_compute; reflexivity.
Qed.
