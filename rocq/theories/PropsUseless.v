(** Property C113: which grammars with useless variables are parsed exactly. *)
From Verif Require Import Base GrammarModel CfsmModel SlrModel SpecCfg SpecOutcome SlrNew SlrWitness SlrFinal UselessProofs.

(** C113: without epsilon rules, a parser returns exactly the derivation trees of
    the sentences if and only if there is no sentence, or: the start variable stands
    behind nothing that has a text, its bodies that have a text end with terminals,
    and some input has a tree. *)
Theorem C113_parser {V T} `{DecEq V} `{DecEq T} {ho : HashOrder} (teq : T -> T -> bool) (g : grammar V T) fuel p tb :
  lawful teq -> built g -> epsilon_free g -> slr_new teq fuel p g = Val tb ->
  (forall ts x, (exists n, forall fuel', n <= fuel' -> parse teq fuel' tb ts = Val (Some (to_node x))) <-> parses g teq ts x) <->
  (productive g (g_start g) ->
   (forall l r, steps g [Var (g_start g)] (l ++ Var (g_start g) :: r) -> all_productive g l -> l = []) /\
   (forall bd, rule g (g_start g) bd -> all_productive g bd -> exists b t, bd = b ++ [Ter t]) /\
   exists fuel' ts n, parse teq fuel' tb ts = Val (Some n)).
Proof. exact (fun Ht Hb He => useless_one g Hb teq Ht He fuel p tb). Qed.
Print Assumptions C113_parser.

(** The same for every order of the iterations. *)
Theorem C113_grammar {V T} `{DecEq V} `{DecEq T} (teq : T -> T -> bool) (g : grammar V T) :
  lawful teq -> built g -> epsilon_free g ->
  (forall (ho : HashOrder) p, exists n tb, (forall fuel, n <= fuel -> slr_new teq fuel p g = Val tb) /\
     forall ts x, (exists n, forall fuel, n <= fuel -> parse teq fuel tb ts = Val (Some (to_node x))) <-> parses g teq ts x) <->
  ~ clash g teq (entry_possible g (g_start g)) /\
  (productive g (g_start g) ->
   (forall l r, steps g [Var (g_start g)] (l ++ Var (g_start g) :: r) -> all_productive g l -> l = []) /\
   (forall bd, rule g (g_start g) bd -> all_productive g bd -> exists b t, bd = b ++ [Ter t]) /\
   entry_sure g (g_start g)).
Proof. exact (fun Ht Hb He => useless_all g Hb teq Ht He). Qed.
Print Assumptions C113_grammar.

(** In [0 -> 4 0 3 | 2] with [4 -> 4 3] the variable [4] has no text, so the start
    variable stands behind nothing that has one: C110 does not apply, this does. *)
Definition idle : grammar nat nat := gram [(0, [var 4; var 0; ter 3]); (0, [ter 2]); (4, [var 4; ter 3])].
Example C113_sample : lawful Nat.eqb /\ built idle /\ epsilon_free idle /\ ~ clash idle Nat.eqb (entry_possible idle 0) /\ productive idle 0 /\
  (forall l r, steps idle [var 0] (l ++ var 0 :: r) -> all_productive idle l -> l = []) /\
  (forall bd, rule idle 0 bd -> all_productive idle bd -> exists b t, bd = b ++ [Ter t]) /\ entry_sure idle 0 /\
  ~ start_at_front idle /\ reachable idle 4 /\ ~ productive idle 4.
Proof.
  assert (Hb : built idle) by (apply gram_built; reflexivity).
  assert (R1 : rule idle 0 [var 4; var 0; ter 3]) by a_rule. assert (R2 : rule idle 0 [ter 2]) by a_rule.
  assert (Hr : forall v bd, rule idle v bd -> (v = 0 /\ (bd = [var 4; var 0; ter 3] \/ bd = [ter 2])) \/ (v = 4 /\ bd = [var 4; ter 3])).
  { intros v bd H. each_rule H; auto. }
  assert (He : entry_sure idle 0) by (left; exists 0, [var 4], [ter 3]; split; [exact R1|discriminate]).
  assert (Hstay : forall y z, steps idle y z -> forall y', y = var 4 :: y' -> exists z', z = var 4 :: z').
  { intros y z H. induction H as [y|y z z' H IH Hs]; intros y' ->; [eauto|]. destruct (IH _ eq_refl) as (w & ->).
    inversion Hs as [l v bd r Hru E|l r E]; subst.
    - destruct l as [|s l]; injection E as -> E; [|cbn; eauto]. destruct (Hr _ _ Hru) as [(E' & _)|(_ & ->)]; [discriminate|cbn; eauto].
    - destruct l as [|s l]; [discriminate|]. injection E as -> E. cbn. eauto. }
  assert (Hidle : ~ productive idle 4).
  { intros (ws & H). destruct (Hstay _ _ H _ eq_refl) as (z & E). destruct ws; discriminate. }
  assert (Hform : forall y, steps idle [var 0] y -> y = [var 0] \/ y = [ter 2] \/ exists z, y = var 4 :: z).
  { intros y H. remember [var 0] as x eqn:Ex. induction H as [x|x y z H IH Hs]; [auto|]. subst x. destruct (IH eq_refl) as [-> | [-> | (w & ->)]].
    - inversion Hs as [l v bd r Hru E|l r E]; subst.
      + destruct l as [|s [|? l]]; [|discriminate|discriminate]. injection E as -> ->. destruct (Hr _ _ Hru) as [(_ & [-> | ->])|(E' & _)]; [right; right; cbn; eauto|right; left; reflexivity|discriminate].
      + destruct l as [|s [|? l]]; discriminate.
    - inversion Hs as [l v bd r Hru E|l r E]; subst; destruct l as [|s [|? l]]; discriminate.
    - right. right. apply (Hstay (var 4 :: w) z) with (y' := w); [|reflexivity]. econstructor; [constructor|exact Hs]. }
  split; [exact eq_lawful|]. split; [exact Hb|]. split; [intros v bd _ H; each_rule H; cbn; intuition discriminate|].
  split; [|split; [|split; [|split; [|split; [exact He|split; [|split; [|exact Hidle]]]]]]].
  - intros Hc. apply (new_no_clash (ho := id_order) Nat.eqb eq_lawful idle Hb 60 [] (new_of id_order Nat.eqb idle)); [vm_compute; reflexivity|].
    eapply clash_mono; [|exact Hc]. intros _. exact He.
  - exists [2]. apply (step_at idle [var 0] [] 0 [ter 2] []); [constructor|exact R2].
  - intros l r H Hl. destruct l as [|s l]; [reflexivity|]. destruct (Hform _ H) as [E|[E|(z & E)]].
    + destruct l; discriminate.
    + destruct l; discriminate.
    + injection E as -> E. destruct (Hidle (Hl 4 (or_introl eq_refl))).
  - intros bd H Hp. destruct (Hr _ _ H) as [(_ & [-> | ->])|(E & _)]; [exists [var 4; var 0], 3; reflexivity|exists [], 2; reflexivity|discriminate].
  - intros Hf. specialize (Hf [var 4] [ter 3]). discriminate Hf. apply (step_at idle [var 0] [] 0 [var 4; var 0; ter 3] []); [constructor|exact R1].
  - exists [], [var 0; ter 3]. apply (step_at idle [var 0] [] 0 [var 4; var 0; ter 3] []); [constructor|exact R1].
Qed.
