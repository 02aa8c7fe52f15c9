(** Property C123: whether a grammar is SLR(1), and whether the order matters, is computed. *)
From Verif Require Import Base GrammarModel CfsmModel SlrModel ExprModel ExprProofs SpecCfg SpecWrap SlrWitness WrapProofs SpecBuildable SpecTextbook TextbookProofs.

(** C123: whether the grammar has an SLR(1) conflict is computed. *)
Theorem C123_slr {V T} `{DecEq V} `{DecEq T} (g : grammar V T) : conflictb g = true <-> slr_conflict g.
Proof. exact (conflictb_ok g). Qed.
Print Assumptions C123_slr.

(** C123: so is whether [Slr::new] panics for the wrapped grammar. *)
Theorem C123_wrapped {V T} `{DecEq V} `{DecEq T} {ho : HashOrder} (teq : T -> T -> bool) cs (g w : grammar V T) z e o p :
  lawful teq -> build (do_calls cs) = Val g -> build (do_calls (wrapped cs (g_start g) z e o)) = Val w ->
  fresh_variable g z -> fresh_terminal teq g e -> fresh_terminal teq g o -> teq o e = false ->
  exists n, (textb g teq = true /\ forall fuel, n <= fuel -> slr_new teq fuel p w = Panic) \/
    (textb g teq = false /\ exists tb, forall fuel, n <= fuel -> slr_new teq fuel p w = Val tb).
Proof. exact (wrapped_decided teq cs g w z e o p). Qed.
Print Assumptions C123_wrapped.

(** C123: if the two functions answer so, the wrapped grammar has a parser that
    is exact on all tokens followed by the end. *)
Theorem C123_exact {V T} `{DecEq V} `{DecEq T} {ho : HashOrder} (teq : T -> T -> bool) cs (g w : grammar V T) z e o p :
  lawful teq -> build (do_calls cs) = Val g -> build (do_calls (wrapped cs (g_start g) z e o)) = Val w ->
  fresh_variable g z -> fresh_terminal teq g e -> fresh_terminal teq g o -> teq o e = false -> cleanb g = true -> textb g teq = false ->
  exists n tb, (forall fuel, n <= fuel -> slr_new teq fuel p w = Val tb) /\ forall ts,
    (exists x m, parses g teq ts x /\ forall fuel, m <= fuel -> parse teq fuel tb (ts ++ [e]) = Val (Some (Node (Var z) [Node (Ter e) []; to_node x]))) \/
    ((forall x, ~ parses g teq ts x) /\ exists m, forall fuel, m <= fuel -> parse teq fuel tb (ts ++ [e]) = Val None).
Proof. exact (wrapped_sure teq cs g w z e o p). Qed.
Print Assumptions C123_exact.

(** C123: if the entry of the start variable is certain once it is possible, which is
    computed, no order of the iterations matters. *)
Theorem C123_steady {V T} `{DecEq V} `{DecEq T} (teq : T -> T -> bool) (g : grammar V T) (ho ho' : HashOrder) p p' :
  lawful teq -> built g -> steadyb g = true ->
  exists n, forall fuel, n <= fuel ->
    (slr_new teq (ho := ho) fuel p g = Panic /\ slr_new teq (ho := ho') fuel p' g = Panic) \/
    exists tb tb', slr_new teq (ho := ho) fuel p g = Val tb /\ slr_new teq (ho := ho') fuel p' g = Val tb' /\
      forall ts, exists m, forall k, m <= k -> agree (parse teq k tb ts) (parse teq k tb' ts).
Proof. exact (steady_orders teq g ho ho' p p'). Qed.
Print Assumptions C123_steady.

(** C123: the items after any symbols, what may follow a variable, the clashes of the
    textbook table and the lack of epsilon and useless variables are computed too. *)
Theorem C123_sets {V T} `{DecEq V} `{DecEq T} (g : grammar V T) :
  (forall w d, In d (items g w) <-> lr0 g w d) /\ (forall v k, In k (looks g v) <-> lookahead g v k) /\
  (forall teq, textb g teq = true <-> textbook_clash g teq) /\ (cleanb g = true <-> clean g).
Proof. exact (conj (items_ok g) (conj (looks_ok g) (conj (textb_ok g) (cleanb_ok g)))). Qed.
Print Assumptions C123_sets.

(** The grammar of pango-parser/examples/expr.rs. *)
Example C123_expr : lawful terminal_eq /\ built expr_grammar /\ conflictb expr_grammar = false /\ steadyb expr_grammar = true.
Proof. split; [exact terminal_lawful|]. split; [exact expr_built|]. split; vm_compute; reflexivity. Qed.

(** Sums with parentheses are wrapped to an exact parser; [0 -> 1], [1 -> 0 | x] has no
    parser once wrapped; [0 -> 0 0 | x] has a conflict; for [fickle] the order matters. *)
Example C123_sample :
  let loop := gram [(0, [var 1]); (1, [var 0]); (1, [ter 1])] in
  lawful Nat.eqb /\ build (do_calls sums_calls) = Val sums /\ build (do_calls (wrapped sums_calls (g_start sums) 2 5 6)) = Val sums_wrapped /\
  (fresh_variable sums 2 /\ fresh_terminal Nat.eqb sums 5 /\ fresh_terminal Nat.eqb sums 6) /\ Nat.eqb 6 5 = false /\
  cleanb sums = true /\ textb sums Nat.eqb = false /\ conflictb sums = false /\ steadyb sums = true /\ built sums /\
  textb loop Nat.eqb = true /\ conflictb (gram [(0, [var 0; var 0]); (0, [ter 1])]) = true /\ steadyb fickle = false /\
  looks sums 1 = [Some 2; Some 4; None].
Proof.
  intros loop. split; [exact eq_lawful|]. split; [reflexivity|]. split; [reflexivity|]. split; [exact sums_fresh|].
  repeat match goal with |- _ /\ _ => split end; try (apply gram_built; reflexivity); vm_compute; reflexivity.
Qed.
