(** Property C121: whether a parser is exact is computed. *)
From Verif Require Import Base GrammarModel CfsmModel SlrModel ExprModel SpecCfg ExprProofs SpecOutcome SlrWitness SlrReads SlrMoves LooseProofs SpecPossible PossibleParser SpecExactness ExactnessProofs.

(** C121: if no rule mentions epsilon, or every variable has a text, then a function
    of the grammar and of the table tells whether the parser returns exactly the
    derivation trees of the sentences. *)
Theorem C121_exact {V T} `{DecEq V} `{DecEq T} {ho : HashOrder} (teq : T -> T -> bool) (g : grammar V T) fuel p tb (ks : list T) :
  lawful teq -> built g -> slr_new teq fuel p g = Val tb -> covering teq tb ks ->
  (epsilon_free g \/ forall v, reachable g v -> productive g v) ->
  (forall ts x, (exists n, forall fuel', n <= fuel' -> parse teq fuel' tb ts = Val (Some (to_node x))) <-> parses g teq ts x) <->
  exactb g teq tb ks = true.
Proof. exact (fun Ht Hb Hn Hk => exactb_decides teq g fuel p tb ks Ht Hb Hn Hk). Qed.
Print Assumptions C121_exact.

(** C121: for every grammar, if the function says so then the parser is exact. *)
Theorem C121_sound {V T} `{DecEq V} `{DecEq T} {ho : HashOrder} (teq : T -> T -> bool) (g : grammar V T) fuel p tb (ks : list T) :
  lawful teq -> built g -> slr_new teq fuel p g = Val tb -> covering teq tb ks -> exactb g teq tb ks = true ->
  forall ts x, (exists n, forall fuel', n <= fuel' -> parse teq fuel' tb ts = Val (Some (to_node x))) <-> parses g teq ts x.
Proof. exact (fun Ht Hb Hn Hk => exactb_sound teq g fuel p tb ks Ht Hb Hn Hk). Qed.
Print Assumptions C121_sound.

(** C121: whether the grammar is such a grammar is computed, too. *)
Theorem C121_told {V T} `{DecEq V} `{DecEq T} (g : grammar V T) :
  (freeb g = true <-> epsilon_free g) /\ (trimb g = true <-> forall v, reachable g v -> productive g v) /\
  (forall v, productiveb g v = true <-> productive g v) /\ (forall v, In v (reachables g) <-> reachable g v).
Proof. exact (conj (freeb_ok g) (conj (trimb_ok g) (conj (productiveb_ok g) (reachables_ok g)))). Qed.
Print Assumptions C121_told.

(** [0 -> 4 0 3 | 2] with [4 -> 4 3] has a useless variable and its parser is exact;
    that of [0 -> 3 0 | 2] is not; [0 -> 1 1 a | b 1 a], [1 -> epsilon] has epsilon rules and no
    useless variable, and its parser is not. *)
Example C121_sample :
  let idle := gram [(0, [var 4; var 0; ter 3]); (0, [ter 2]); (4, [var 4; ter 3])] in
  let late := gram [(0, [ter 3; var 0]); (0, [ter 2])] in
  exists tb tb', lawful Nat.eqb /\ built idle /\ built late /\ built empties /\
  slr_new (ho := id_order) Nat.eqb 60 [] idle = Val tb /\ covering Nat.eqb tb [1; 2; 3] /\ freeb idle = true /\ trimb idle = false /\ exactb idle Nat.eqb tb [1; 2; 3] = true /\
  slr_new (ho := id_order) Nat.eqb 60 [] late = Val tb' /\ covering Nat.eqb tb' [1; 2; 3] /\ freeb late = true /\ exactb late Nat.eqb tb' [1; 2; 3] = false /\
  slr_new (ho := id_order) Nat.eqb 60 [] empties = Val empties_table /\ covering Nat.eqb empties_table [1; 2; 3] /\
  freeb empties = false /\ trimb empties = true /\ exactb empties Nat.eqb empties_table [1; 2; 3] = false.
Proof.
  intros idle late. exists (new_of id_order Nat.eqb idle), (new_of id_order Nat.eqb late).
  assert (C : forall tb : table nat nat, incl (table_keys tb) [2; 3; 1] -> (exists k, In k [1; 2; 3] /\ ~ In k (table_keys tb)) -> covering Nat.eqb tb [1; 2; 3]).
  { intros tb Hi (k & Hk & Hn). apply covering_keys; [exact eq_lawful|intros x Hx; apply Hi in Hx; cbn in *; tauto|].
    left. exists k. split; [exact Hk|]. intros x Hx. apply Nat.eqb_neq. intros ->. exact (Hn Hx). }
  repeat match goal with |- _ /\ _ => split end; try exact eq_lawful; try (apply gram_built; reflexivity); try exact empties_built; try exact empties_new; try (vm_compute; reflexivity).
  all: apply C; [intros x Hx; vm_compute in Hx; cbn; intuition|].
  - exists 1. split; [cbn; auto|]. intros Hx. vm_compute in Hx. intuition discriminate.
  - exists 1. split; [cbn; auto|]. intros Hx. vm_compute in Hx. intuition discriminate.
  - exists 3. split; [cbn; auto|]. intros Hx. vm_compute in Hx. intuition discriminate.
Qed.

(** The parser of pango-parser/examples/expr.rs is exact. *)
Example C121_expr : exists tb, build expr_builder = Val expr_grammar /\ built expr_grammar /\ lawful terminal_eq /\ slr_new (ho := id_order) terminal_eq 60 [] expr_grammar = Val tb /\
  covering terminal_eq tb [Mul; Plus; Num 0] /\ freeb expr_grammar = true /\ exactb expr_grammar terminal_eq tb [Mul; Plus; Num 0] = true.
Proof.
  exists (match slr_new (ho := id_order) terminal_eq 60 [] expr_grammar with Val tb => tb | _ => {| tb_action := []; tb_goto := []; tb_grammar := expr_grammar |} end).
  repeat match goal with |- _ /\ _ => split end; try exact expr_built; try exact terminal_lawful; try (vm_compute; reflexivity).
  apply covering_keys; [exact terminal_lawful| |right].
  - intros x Hx. vm_compute in Hx. cbn. intuition.
  - intros [| |n]; [exists Mul|exists Plus|exists (Num 0)]; (split; [vm_compute; tauto|reflexivity]).
Qed.

(** The condition of C121_exact is needed: [0 -> 4 0 3 | 4 1 3 | 2], [1 -> epsilon],
    [4 -> 4 5] has an epsilon rule and a useless variable; its parser is exact, and
    the function says it is not. *)
Definition odd : grammar nat nat := gram [(0, [var 4; var 0; ter 3]); (0, [var 4; var 1; ter 3]); (0, [ter 2]); (1, [eps]); (4, [var 4; ter 5])].
Example C121_gap : exists tb, lawful Nat.eqb /\ built odd /\ slr_new (ho := id_order) Nat.eqb 60 [] odd = Val tb /\ exactb odd Nat.eqb tb [1; 2; 3; 5] = false /\
  forall ts x, (exists n, forall fuel', n <= fuel' -> parse Nat.eqb fuel' tb ts = Val (Some (to_node x))) <-> parses odd Nat.eqb ts x.
Proof.
  exists (new_of id_order Nat.eqb odd). split; [exact eq_lawful|]. split; [apply gram_built; reflexivity|]. split; [vm_compute; reflexivity|]. split; [vm_compute; reflexivity|].
  set (tb := new_of id_order Nat.eqb odd). vm_compute in tb.
  assert (R : forall ts f, parse Nat.eqb (5 + f) tb ts = Val (Some (to_node (Branch 0 [Leaf 2]))) /\ ts = [2] \/ parse Nat.eqb (5 + f) tb ts = Val None).
  { intros [|[|[|[|t]]] ts] f; try (right; reflexivity). destruct ts as [|[|[|[|[|u]]]] us]; try (right; reflexivity). left. split; reflexivity. }
  assert (N : forall y, derivation odd Nat.eqb y -> forall cs, y <> Branch 4 cs).
  { induction y as [t|v cs IH] using SlrMoves.tree_ind2; intros D cs' E; [discriminate|]. injection E as -> <-. inversion D as [|? bd ? R1 R2 R3]; subst.
    remember 4 as v eqn:Ev in R1. each_rule R1; try discriminate. cbn in R2. inversion R2 as [|? y ? ys S1 S2]; subst. inversion IH as [|? ? I1 _]; inversion R3 as [|? ? D1 _]; subst.
    destruct y as [t|v cs]; [destruct S1|]. cbn in S1. subst v. exact (I1 D1 _ eq_refl). }
  intros ts x. split.
  - intros (n & Hn). specialize (Hn (5 + n) ltac:(lia)). destruct (R ts n) as [(E & ->)|E]; [|rewrite E in Hn; discriminate].
    rewrite E in Hn. assert (Hn' : to_node (Branch 0 [Leaf 2]) = to_node x) by congruence. apply LooseProofs.to_node_inj in Hn'. subst x.
    split; [|split; [reflexivity|eexists; reflexivity]]. apply (derivation_branch _ _ _ [ter 2]); [a_rule|repeat constructor|repeat constructor].
  - intros (D & L & cs & ->). inversion D as [|? bd ? R1 R2 R3]; subst. change (g_start odd) with 0 in *. remember 0 as v eqn:Ev in R1.
    assert (Hb : forall c l, Forall2 (sat Nat.eqb) (var 4 :: l) (c :: tl cs) -> In c cs -> False).
    { intros c l S Hc. inversion S as [|? ? ? ? S1 _]; subst. rewrite Forall_forall in R3. destruct c as [t|u cs']; [destruct S1|]. cbn in S1. subst u. exact (N _ (R3 _ Hc) _ eq_refl). }
    each_rule R1; try discriminate; cbn in R2.
    + exfalso. inversion R2; subst. eapply Hb; [exact R2|left; reflexivity].
    + exfalso. inversion R2; subst. eapply Hb; [exact R2|left; reflexivity].
    + inversion R2 as [|? y ? ys S1 S2]; subst. inversion S2; subst. destruct y as [t|u cs']; [|destruct S1]. cbn [sat] in S1. apply Nat.eqb_eq in S1. subst t.
      exists 5. intros f Hf. replace f with (5 + (f - 5)) by lia. reflexivity.
Qed.
