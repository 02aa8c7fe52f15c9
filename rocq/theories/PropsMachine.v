(** Properties C65 and C66: the parser for every grammar, epsilon included. *)
From Verif Require Import Base GrammarModel CfsmModel SlrModel SpecCfg SpecMachine SlrWitness SlrReads SlrMachine.

(** C65: for every grammar for which [Slr::new] succeeds the parser is the machine
    on symbols: it returns a tree exactly if the machine accepts with it, fails
    (with [Err] or a panic, which depends on the numbers of the states) exactly if
    the machine gets stuck, and never ends exactly if the machine moves on and on.
    It panics if a body is longer than the stack.  It returns [Err] if there are
    entries at the top of the stack (in the goto table: of the stack that is left)
    but not the one looked for.  Only if there are no entries at all do the numbers
    of the states matter. *)
Theorem C65_machine {V T} `{DecEq V} `{DecEq T} {ho : HashOrder} (teq : T -> T -> bool) (g : grammar V T) fuel p tb :
  lawful teq -> built g -> slr_new teq fuel p g = Val tb ->
  exists e : Prop, (entry_sure g (g_start g) -> e) /\ (e -> entry_possible g (g_start g)) /\
  forall ts,
    (forall n, (exists fuel', parse teq fuel' tb ts = Val (Some n)) <->
      exists k m, mmoves teq g k (initial ts) m /\ maccepts g e m n) /\
    ((exists fuel', failed (parse teq fuel' tb ts)) <-> exists k m, mmoves teq g k (initial ts) m /\ mstuck teq g e m) /\
    ((forall fuel', parse teq fuel' tb ts = Diverge) <-> forall k, exists m, mmoves teq g k (initial ts) m) /\
    ((exists k m, mmoves teq g k (initial ts) m /\ mshort teq g e m) -> exists fuel', parse teq fuel' tb ts = Panic) /\
    ((exists k m, mmoves teq g k (initial ts) m /\ mrefused teq g e m) -> exists fuel', parse teq fuel' tb ts = Val None) /\
    (forall k m, mmoves teq g k (initial ts) m -> mstuck teq g e m -> mrefused teq g e m \/ mshort teq g e m \/ mrowless teq g e m).
Proof. exact (fun Ht Hb => parser_machine teq Ht g Hb fuel p tb). Qed.
Print Assumptions C65_machine.
(** The machine has no choice. *)
Theorem C65_one_move {V T} `{DecEq V} `{DecEq T} {ho : HashOrder} (teq : T -> T -> bool) (g : grammar V T) fuel p tb ts k m m1 m2 :
  lawful teq -> built g -> slr_new teq fuel p g = Val tb ->
  mmoves teq g k (initial ts) m -> mmove teq g m m1 -> mmove teq g m m2 -> m1 = m2.
Proof. exact (fun Ht Hb => machine_one teq Ht g Hb fuel p tb ts k m m1 m2). Qed.
Print Assumptions C65_one_move.

(** C66: whatever the grammar, a returned tree never has a variable that stands for
    the empty text, except that the start variable may stand so at the front. *)
Theorem C66_no_empty_variables {V T} `{DecEq V} `{DecEq T} {ho : HashOrder} (teq : T -> T -> bool) (g : grammar V T) fuel p tb fuel' ts x :
  lawful teq -> built g -> slr_new teq fuel p g = Val tb -> parse teq fuel' tb ts = Val (Some (to_node x)) ->
  never_empty x \/ exists cs, x = Branch (g_start g) (Branch (g_start g) [] :: cs) /\ Forall never_empty cs.
Proof. exact (fun Ht Hb => no_empty_variables teq Ht g Hb fuel p tb fuel' ts x). Qed.
Print Assumptions C66_no_empty_variables.

(** The grammar [0 -> a 1 b | 1 d | 0 e], [1 -> epsilon | c] on the text [a d]: the
    reduction to [1] takes the [a], and [a d] is accepted. *)
Example C65_moves : mmoves Nat.eqb lost 3 (initial [1; 4])
    ([(ter 4, Node (ter 4) []); (var 1, Node (var 1) [Node (ter 1) []])], []) /\
  maccepts lost True ([(ter 4, Node (ter 4) []); (var 1, Node (var 1) [Node (ter 1) []])], [])
    (Node (var 0) [Node (ter 4) []; Node (var 1) [Node (ter 1) []]]).
Proof.
  assert (L0 : lr0 lost [] (0, [], [ter 1; var 1; ter 2])).
  { apply (lr0_start lost [ter 1; var 1; ter 2]); [a_rule|constructor; discriminate]. }
  assert (L1 : lr0 lost [] (0, [], [var 1; ter 4])).
  { apply (lr0_start lost [var 1; ter 4]); [a_rule|constructor; discriminate]. }
  assert (L2 : lr0 lost [ter 1] (0, [ter 1], [var 1; ter 2])) by (apply (lr0_goto _ _ _ _ _ _ _ _ L0); constructor; discriminate).
  assert (L3 : lr0 lost [ter 1] (1, [eps], [])).
  { apply (lr0_close lost [ter 1] 0 [ter 1] 1 [ter 2] [eps]); [exact L2|a_rule|]. apply skip_one. constructor. discriminate. }
  assert (L4 : lr0 lost [var 1] (0, [var 1], [ter 4])) by (apply (lr0_goto _ _ _ _ _ _ _ _ L1); constructor; discriminate).
  assert (L5 : lr0 lost [var 1; ter 4] (0, [var 1; ter 4], [])) by (apply (lr0_goto _ _ _ _ _ _ _ _ L4); constructor; discriminate).
  split.
  - econstructor; [apply (mmove_shift _ _ [] 1 [4] 1 _ _ _ L0); reflexivity|].
    econstructor; [|econstructor; [|constructor]].
    + apply (mmove_reduce _ _ [(ter 1, Node (ter 1) [])] [] 4 [] 4 1 [eps] 0 [] [ter 4] L3); [|reflexivity|reflexivity|exact L1].
      exists 0, [], []. split; [eexists; a_rule|]. apply (step_at lost [var 0] [] 0 [var 1; ter 4] []); [constructor|a_rule].
    + apply (mmove_shift _ _ [(var 1, _)] 4 [] 4 _ _ _ L4). reflexivity.
  - split; [reflexivity|]. split; [exact I|]. exists [var 1; ter 4]. split; [exact L5|]. split; [cbn; lia|reflexivity].
Qed.
Example C65_sample : built lost /\ slr_new (ho := id_order) Nat.eqb 60 [] lost = Val lost_table /\
  parse Nat.eqb 5 lost_table [1; 4] = Val (Some (Node (var 0) [Node (ter 4) []; Node (var 1) [Node (ter 1) []]])).
Proof. split; [exact lost_built|]. split; [exact lost_new|]. vm_compute. reflexivity. Qed.
(** [0 -> 0 a | epsilon] panics on [a]: the epsilon takes the bottom of the stack. *)
Example C65_short : let g := gram [(0, [var 0; ter 1]); (0, [eps])] in
  built g /\ mmoves Nat.eqb g 0 (initial [1]) (initial [1]) /\ mshort Nat.eqb g True (initial [1]) /\
  exists tb, slr_new (ho := id_order) Nat.eqb 60 [] g = Val tb /\ parse Nat.eqb 5 tb [1] = Panic.
Proof.
  intros g. split; [apply gram_built; reflexivity|]. split; [constructor|]. split.
  - exists 1, 0, [eps]. split; [|split; [|split; [reflexivity|cbn; lia]]].
    + apply (lr0_start g [eps]); [a_rule|]. apply skip_one. constructor. discriminate.
    + exists 0, [], []. split; [eexists; a_rule|]. apply (step_at g [var 0] [] 0 [var 0; ter 1] []); [constructor|a_rule].
  - eexists. split; vm_compute; reflexivity.
Qed.
(** [0 -> a b] refuses [b] at once: there is an entry, but none for [b]. *)
Example C65_refused : let g := gram [(0, [ter 1; ter 2])] in
  built g /\ mmoves Nat.eqb g 0 (initial [2]) (initial [2]) /\ mrefused Nat.eqb g False (initial [2]) /\
  exists tb, slr_new (ho := id_order) Nat.eqb 60 [] g = Val tb /\ parse Nat.eqb 5 tb [2] = Val None.
Proof.
  intros g. split; [apply gram_built; reflexivity|]. split; [constructor|]. split.
  - assert (Hs : forall w d, lr0 g w d -> w = [] -> d = (0, [], [ter 1; ter 2])).
    { intros w d Hl. induction Hl; intros Ew.
      - each_rule H. inversion H0; subst. reflexivity.
      - specialize (IHHl Ew). congruence.
      - destruct w; discriminate. }
    split.
    + left. exists 0, [], 1, [ter 2]. apply (lr0_start g [ter 1; ter 2] [] [ter 1; ter 2]); [a_rule|constructor; discriminate].
    + split.
      * intros h a t' r Ht Hl. apply Hs in Hl; [|reflexivity]. injection Hl as _ _ E _. subst t'. discriminate.
      * left. intros h bd (t' & Hl & _). apply Hs in Hl; [|reflexivity]. discriminate.
  - eexists. split; vm_compute; reflexivity.
Qed.
(** The sentence [a b] of the first grammar has a tree with an empty variable, the
    sentence [a c b] one without, which is returned. *)
Example C66_sample : parse Nat.eqb 7 lost_table [1; 3; 2] = Val (Some (to_node (Branch 0 [Leaf 1; Branch 1 [Leaf 3]; Leaf 2]))) /\
  ~ never_empty (Branch (T := nat) 0 [Leaf 1; Branch 1 []; Leaf 2]) /\ parse Nat.eqb 7 lost_table [1; 2] = Val None.
Proof.
  split; [vm_compute; reflexivity|]. split; [|vm_compute; reflexivity].
  intros H. apply (H 1). eapply inside_child; [right; left; reflexivity|]. constructor.
Qed.
