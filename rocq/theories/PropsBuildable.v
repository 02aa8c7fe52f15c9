(** Property C122: whether a parser is built, and an exact one, is computed from the grammar. *)
From Verif Require Import Base GrammarModel CfsmModel SlrModel ExprModel ExprProofs SpecCfg SpecOutcome SlrWitness SpecExactness SpecBuildable BuildableProofs.

(** C122: whether [Slr::new] succeeds under every order of the iterations, and
    whether under some, is computed from the grammar. *)
Theorem C122_built {V T} `{DecEq V} `{DecEq T} (teq : T -> T -> bool) (g : grammar V T) : lawful teq -> built g ->
  ((forall (ho : HashOrder) p, exists n tb, forall fuel, n <= fuel -> slr_new teq fuel p g = Val tb) <-> always_built g teq = true) /\
  ((exists (ho : HashOrder) p n tb, forall fuel, n <= fuel -> slr_new teq fuel p g = Val tb) <-> sometimes_built g teq = true) /\
  ((exists (ho : HashOrder) p n, forall fuel, n <= fuel -> slr_new teq fuel p g = Panic) <-> always_built g teq = false).
Proof. exact (fun Ht Hb => conj (built_always g Hb teq Ht) (conj (built_sometimes g Hb teq Ht) (panics_some g Hb teq Ht))). Qed.
Print Assumptions C122_built.

(** C122: and so is whether under every order a parser is built that returns exactly
    the derivation trees of the sentences. *)
Theorem C122_exact {V T} `{DecEq V} `{DecEq T} (teq : T -> T -> bool) (g : grammar V T) : lawful teq -> built g ->
  (epsilon_free g \/ forall v, reachable g v -> productive g v) ->
  (forall (ho : HashOrder) p, exists n tb, (forall fuel, n <= fuel -> slr_new teq fuel p g = Val tb) /\
     forall ts x, (exists n, forall fuel, n <= fuel -> parse teq fuel tb ts = Val (Some (to_node x))) <-> parses g teq ts x) <->
  always_exact g teq = true.
Proof. exact (fun Ht Hb => exact_always g Hb teq Ht). Qed.
Print Assumptions C122_exact.

(** C122: on the way, what derives the empty string, what follows a variable, which
    items share a state and which variables have an entry are computed for every grammar. *)
Theorem C122_sets {V T} `{DecEq V} `{DecEq T} (g : grammar V T) :
  (forall bd, emptyb g bd = true <-> derives_empty g bd) /\ (forall v t, In t (follow g v) <-> followed_by g v t) /\
  (forall d d', In (d, d') (twins g) <-> exists w, lr0 g w d /\ lr0 g w d') /\
  (forall v, sureb g v = true <-> entry_sure g v) /\ (forall v, maybeb g v = true <-> entry_possible g v).
Proof. exact (conj (emptyb_ok g) (conj (follow_ok g) (conj (twins_ok g) (conj (sureb_ok g) (maybeb_ok g))))). Qed.
Print Assumptions C122_sets.

(** The grammar of pango-parser/examples/expr.rs is parsed exactly under every order. *)
Example C122_expr : lawful terminal_eq /\ built expr_grammar /\ freeb expr_grammar = true /\ always_exact expr_grammar terminal_eq = true.
Proof. split; [exact terminal_lawful|]. split; [exact expr_built|]. split; vm_compute; reflexivity. Qed.

(** For [0 -> epsilon | epsilon epsilon], [1 -> 2 epsilon], [2 -> 3], [3 -> 0] a parser is built under
    some orders only; [0 -> 0 0 | a] is ambiguous and has none; [0 -> b 0 | a] has one
    under every order, which is not exact. *)
Example C122_sample :
  let torn := gram [(0, [eps]); (0, [eps; eps]); (1, [var 2; eps]); (2, [var 3]); (3, [var 0])] in
  let twice := gram [(0, [var 0; var 0]); (0, [ter 1])] in
  let late := gram [(0, [ter 2; var 0]); (0, [ter 1])] in
  lawful Nat.eqb /\ built torn /\ built twice /\ built late /\
  always_built torn Nat.eqb = false /\ sometimes_built torn Nat.eqb = true /\
  always_built twice Nat.eqb = false /\ sometimes_built twice Nat.eqb = false /\
  freeb late = true /\ always_built late Nat.eqb = true /\ always_exact late Nat.eqb = false.
Proof.
  intros torn twice late. split; [exact eq_lawful|].
  repeat match goal with |- _ /\ _ => split end; try (apply gram_built; reflexivity); vm_compute; reflexivity.
Qed.
