(** Property C107: the outcome of every parse, for grammars without epsilon. *)
From Coq Require Import Relation_Operators.
From Verif Require Import Base GrammarModel CfsmModel SlrModel SpecCfg SpecMachine SpecOutcome SlrFinal SlrWitness OutcomeProofs.

(** C107: a tree, a panic, no end, or an error. *)
Theorem C107_outcomes {V T} `{DecEq V} `{DecEq T} {ho : HashOrder} (teq : T -> T -> bool) (g : grammar V T) fuel p tb :
  lawful teq -> built g -> epsilon_free g -> slr_new teq fuel p g = Val tb ->
  exists c (e : Prop), from_grammar fuel (0 :: p) g = Val c /\
    (entry_sure g (g_start g) -> e) /\ (e -> entry_possible g (g_start g)) /\
    forall ts,
      (forall n, (exists fuel', parse teq fuel' tb ts = Val (Some n)) <-> e /\ exists x, accepted teq g ts x /\ n = to_node x) /\
      ((exists fuel', parse teq fuel' tb ts = Panic) <-> crashing teq g e c ts) /\
      ((forall fuel', parse teq fuel' tb ts = Diverge) <-> spinning teq g ts) /\
      ((exists fuel', parse teq fuel' tb ts = Val None) <->
         ~ (e /\ exists x, accepted teq g ts x) /\ ~ crashing teq g e c ts /\ ~ spinning teq g ts).
Proof. exact (fun Ht Hb => outcomes teq Ht g Hb fuel p tb). Qed.
Print Assumptions C107_outcomes.

(** Whether there is an input that makes the parser panic, or never end. *)
Theorem C107_some_input {V T} `{DecEq V} `{DecEq T} {ho : HashOrder} (teq : T -> T -> bool) (g : grammar V T) fuel p tb :
  lawful teq -> built g -> epsilon_free g -> slr_new teq fuel p g = Val tb ->
  exists c (e : Prop), from_grammar fuel (0 :: p) g = Val c /\
    (entry_sure g (g_start g) -> e) /\ (e -> entry_possible g (g_start g)) /\
    ((exists ts fuel', parse teq fuel' tb ts = Panic) <-> can_crash g e c) /\
    ((exists ts, forall fuel', parse teq fuel' tb ts = Diverge) <-> can_spin teq g).
Proof. exact (fun Ht Hb => some_input teq Ht g Hb fuel p tb). Qed.
Print Assumptions C107_some_input.

(** [0 -> 1], [1 -> 2 | a], [2 -> 1], [3 -> 1 b] never ends on [a b]: [a] is a [1], which
    is a [2] before [b], which is a [1]. *)
Example C107_spin_sample : built circle /\ epsilon_free circle /\ slr_new (ho := id_order) Nat.eqb 60 [] circle = Val circle_table /\
  spinning Nat.eqb circle [1; 2].
Proof.
  split; [exact circle_built|]. split; [exact circle_free|]. split; [exact circle_new|].
  assert (R1 : rule circle 1 [var 2]) by (eexists; split; [right; left; reflexivity|left; reflexivity]).
  assert (R2 : rule circle 2 [var 1]) by (eexists; split; [right; right; left; reflexivity|left; reflexivity]).
  assert (R3 : rule circle 3 [var 1; ter 2]) by (eexists; split; [right; right; right; left; reflexivity|left; reflexivity]).
  assert (R4 : rule circle 1 [ter 1]) by (eexists; split; [right; left; reflexivity|right; left; reflexivity]).
  assert (R0 : rule circle 0 [var 1]) by (eexists; split; [left; reflexivity|left; reflexivity]).
  assert (L0 : lr0 circle [] (0, [], [var 1])) by (apply lr0_start with (bd := [var 1]); [exact R0|constructor; discriminate]).
  assert (L1 : lr0 circle [] (1, [], [var 2])) by (eapply lr0_close; [exact L0|exact R1|constructor; discriminate]).
  assert (L2 : lr0 circle [] (2, [], [var 1])) by (eapply lr0_close; [exact L1|exact R2|constructor; discriminate]).
  assert (F1 : followed_by circle 1 2).
  { exists 3, [], []. split; [eauto|]. eapply steps_next; [constructor|]. exact (step_rule circle [] 3 _ [] R3). }
  assert (F2 : followed_by circle 2 2).
  { exists 3, [], []. split; [eauto|]. eapply steps_next; [eapply steps_next; [constructor|exact (step_rule circle [] 3 _ [] R3)]|].
    exact (step_rule circle [] 1 _ [ter 2] R1). }
  exists [], 1, [Branch 1 [Leaf 1]], 2, []. split.
  - split; [repeat constructor|]. split; [repeat constructor; econstructor; [exact R4|repeat constructor|repeat constructor]|].
    split; [reflexivity|]. intros w' v E. exists 2, [], 2. split; [reflexivity|]. split; [|reflexivity].
    destruct w' as [|? [|? ?]]; try discriminate. injection E as <-. exact F1.
  - apply t_trans with (y := 2); apply t_step.
    + split; [exact L2|]. exists 2. split; [exact F2|reflexivity].
    + split; [exact L1|]. exists 2. split; [exact F1|reflexivity].
Qed.

(** [0 -> a] panics on [a], where the state after [a] has no row, and gives an error
    on [b]; with the unused rule [1 -> 0 b] it panics on [a b], for want of a goto. *)
Definition ending : grammar nat nat := gram [(0, [ter 1]); (1, [var 0; ter 2])].
Definition ending_table : table nat nat := new_of id_order Nat.eqb ending.
Example C107_crash_sample : epsilon_free single /\ slr_new (ho := id_order) Nat.eqb 60 [] single = Val single_table /\
  parse Nat.eqb 9 single_table [1] = Panic /\ parse Nat.eqb 9 single_table [2] = Val None /\
  built ending /\ epsilon_free ending /\ slr_new (ho := id_order) Nat.eqb 60 [] ending = Val ending_table /\
  parse Nat.eqb 9 ending_table [1; 2] = Panic /\ parse Nat.eqb 9 ending_table [1] = Val (Some (Node (var 0) [Node (ter 1) []])) /\
  (forall w, ~ mgotos ending w).
Proof.
  split; [intros v bd _ H; each_rule H; cbn; intuition discriminate|]. split; [exact single_new|]. split; [vm_compute; reflexivity|].
  split; [vm_compute; reflexivity|]. split; [apply gram_built; reflexivity|]. split; [intros v bd _ H; each_rule H; cbn; intuition discriminate|].
  split; [vm_compute; reflexivity|]. split; [vm_compute; reflexivity|]. split; [vm_compute; reflexivity|].
  assert (Hi : forall w d, lr0 ending w d -> d = (0, [], [ter 1]) \/ d = (0, [ter 1], [])).
  { intros w d Hl. induction Hl as [bd a b Hr Hs|w h a v r bd a' b' Hl IH Hr Hs|w h a s r a' b' Hl IH Hs].
    - change (g_start ending) with 0 in *. remember 0 as v0 eqn:E0. each_rule Hr; [|discriminate E0]. inversion Hs; subst. auto.
    - destruct IH as [E|E]; discriminate.
    - destruct IH as [E|E]; [|discriminate]. injection E as -> -> -> ->. inversion Hs; subst. auto. }
  intros w (h & a & v & r & Hl). apply Hi in Hl. destruct Hl; discriminate.
Qed.
