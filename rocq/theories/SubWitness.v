(** Concrete grammars with more or fewer rules. *)
From Verif Require Import Base GrammarModel CfsmModel SlrModel SpecCfg SpecSub SlrNew SlrRun SlrWitness.

(** Only variables of a closed list are reachable. *)
Definition inside_list (l : list nat) (s : symbol nat nat) : bool :=
  match s with Var v => existsb (Nat.eqb v) l | _ => true end.
Definition closed_list (g : grammar nat nat) (l : list nat) : bool :=
  existsb (Nat.eqb (g_start g)) l &&
  forallb (fun r => negb (existsb (Nat.eqb (fst r)) l) || forallb (inside_list l) (snd r)) (rule_list g).

Lemma closed_reachable g l : closed_list g l = true -> forall v, reachable g v -> In v l.
Proof.
  unfold closed_list. rewrite andb_true_iff. intros [H0 H]. rewrite forallb_forall in H.
  assert (Hs : forall x, steps g [Var (g_start g)] x -> forallb (inside_list l) x = true).
  { intros x Hx. remember [Var (g_start g)] as s eqn:Es. induction Hx as [x|x y z Hxy IH Hyz]; subst.
    - cbn. rewrite H0. reflexivity.
    - specialize (IH eq_refl). inversion Hyz as [a v bd b Hr|a b]; subst; rewrite forallb_app in IH |- *.
      + cbn [forallb] in IH. rewrite forallb_app. rewrite !andb_true_iff in *. destruct IH as (I1 & I2 & I3).
        split; [exact I1|]. split; [|exact I3]. apply rule_in in Hr. specialize (H _ Hr). cbn [fst snd] in H. cbn in I2.
        rewrite I2 in H. exact H.
      + cbn [forallb] in IH. rewrite !andb_true_iff in *. tauto. }
  intros v (a & b & Hv). apply Hs in Hv. rewrite forallb_app in Hv. cbn [forallb] in Hv. rewrite !andb_true_iff in Hv.
  destruct Hv as (_ & Hv & _). cbn in Hv. apply existsb_exists in Hv. destruct Hv as (v' & Hi & E). apply Nat.eqb_eq in E. congruence.
Qed.

Definition fewer (rs rs' : list (nat * list (symbol nat nat))) : Prop := forall r, In r rs -> In r rs'.
Lemma fewer_list g g' : g_start g = g_start g' -> fewer (rule_list g) (rule_list g') -> fewer_rules g g'.
Proof. intros E H. split; [exact E|]. intros v bd. rewrite !rule_in. apply H. Qed.

(** The rules with heads in the closed list are the same. *)
Lemma same_list g g' l : g_start g = g_start g' -> fewer (rule_list g) (rule_list g') -> closed_list g' l = true ->
  (forall r, In r (rule_list g') -> In (fst r) l -> In r (rule_list g)) -> same_reachable g g'.
Proof.
  intros E H Hl Hr. split; [apply fewer_list; assumption|]. intros v bd Hv. rewrite !rule_in. intros Hi. apply Hr; [exact Hi|].
  exact (closed_reachable g' l Hl v Hv).
Qed.
Ltac each_of H := repeat (destruct H as [<-|H]; [vm_compute; tauto|]); destruct H.

(** ** [0 -> 4 | 4 epsilon] with a fickle FOLLOW entry *)
Definition fickle2 : grammar nat nat :=
  gram [(0, [var 4]); (0, [var 4; eps]); (1, [var 2; eps]); (2, [var 3]); (3, [var 0]); (4, [ter 1])].
Lemma fickle2_built : built fickle2.
Proof. apply gram_built. reflexivity. Qed.

(** ** Lists of [x ;] *)
Definition items : grammar nat nat := gram [(0, [var 0; var 1; ter 3]); (0, [var 1; ter 3]); (1, [ter 1])].
Lemma items_built : built items.
Proof. apply gram_built. reflexivity. Qed.
Lemma items_fewer : fewer_rules items stmts.
Proof. apply fewer_list; [reflexivity|]. intros r H. vm_compute in H. each_of H. Qed.
Definition items_table : table nat nat := new_of id_order Nat.eqb items.
Lemma items_new : slr_new (ho := id_order) Nat.eqb 60 [] items = Val items_table.
Proof. vm_compute. reflexivity. Qed.
Lemma stmts_entry : entry_sure stmts (g_start stmts).
Proof. left. exists 0, [], [var 1; ter 3]. split; [a_rule|discriminate]. Qed.

(** ** Rules that cannot be used *)
Definition stmts_more : grammar nat nat :=
  gram [(0, [var 0; var 1; ter 3]); (0, [var 1; ter 3]); (1, [var 1; ter 2; ter 1]); (1, [ter 1]); (2, [var 1; ter 4; var 2]); (2, [var 0; ter 1])].
Lemma stmts_more_built : built stmts_more.
Proof. apply gram_built. reflexivity. Qed.
Lemma stmts_more_same : same_reachable stmts stmts_more.
Proof.
  apply (same_list _ _ [0; 1]); [reflexivity| |reflexivity|].
  - intros r H. vm_compute in H. each_of H.
  - intros r H Hf. vm_compute in H. repeat (destruct H as [<-|H]; [vm_compute in *; try tauto; exfalso; destruct Hf as [|[|[]]]; discriminate|]). destruct H.
Qed.
Definition stmts_more_table : table nat nat := new_of id_order Nat.eqb stmts_more.
Lemma stmts_more_new : slr_new (ho := id_order) Nat.eqb 60 [] stmts_more = Val stmts_more_table.
Proof. vm_compute. reflexivity. Qed.

Definition single_more : grammar nat nat := gram [(0, [ter 1]); (1, [var 0; ter 2])].
Definition single_more_table : table nat nat := new_of id_order Nat.eqb single_more.
Lemma unused_accepts : exists (g g' : grammar nat nat) tb tb' n, built g /\ built g' /\ same_reachable g g' /\
  slr_new (ho := id_order) Nat.eqb 60 [] g = Val tb /\ slr_new (ho := id_order) Nat.eqb 60 [] g' = Val tb' /\
  forall fuel, 10 <= fuel -> parse Nat.eqb fuel tb [1] = Panic /\ parse Nat.eqb fuel tb' [1] = Val (Some n).
Proof.
  exists single, single_more, single_table, single_more_table, (Node (Var 0) [Node (Ter 1) []]).
  split; [exact single_built|]. split; [apply gram_built; reflexivity|]. split.
  { apply (same_list _ _ [0]); [reflexivity| |reflexivity|].
    - intros r H. vm_compute in H. each_of H.
    - intros r H Hf. vm_compute in H. repeat (destruct H as [<-|H]; [vm_compute in *; try tauto; exfalso; destruct Hf as [|[]]; discriminate|]). destruct H. }
  split; [exact single_new|]. split; [vm_compute; reflexivity|]. intros fuel Hf.
  split; (eapply (parse_stable Nat.eqb _ 10); [vm_compute; reflexivity|discriminate|exact Hf]).
Qed.

Definition choice : grammar nat nat := gram [(0, [var 1; ter 2]); (0, [var 2; ter 3]); (1, [var 2]); (2, [ter 1])].
Definition choice_more : grammar nat nat := gram [(0, [var 1; ter 2]); (0, [var 2; ter 3]); (1, [var 2]); (2, [ter 1]); (3, [var 1; ter 3])].
Lemma choice_more_built : built choice_more.
Proof. apply gram_built. reflexivity. Qed.
Lemma choice_more_panics (ho : HashOrder) p : exists n, forall fuel, n <= fuel -> slr_new Nat.eqb fuel p choice_more = Panic.
Proof.
  destruct (slr_new_total Nat.eqb eq_lawful choice_more choice_more_built p) as (n & r & E & [[-> _]|(tb & -> & Hn)]); [eauto|].
  destruct Hn. exists [var 2], (0, [var 2], [ter 3]), (Some 3), (1, [var 2], []), (Some 3).
  assert (L1 : lr0 choice_more [] (0, [], [var 2; ter 3])).
  { apply (lr0_start choice_more [var 2; ter 3]); [a_rule|constructor; discriminate]. }
  assert (L0 : lr0 choice_more [] (0, [], [var 1; ter 2])).
  { apply (lr0_start choice_more [var 1; ter 2]); [a_rule|constructor; discriminate]. }
  assert (L2 : lr0 choice_more [] (1, [], [var 2])).
  { eapply lr0_close; [exact L0|a_rule|constructor; discriminate]. }
  split; [split; [apply (lr0_goto _ _ _ _ _ _ _ _ L1); constructor; discriminate|reflexivity]|].
  split; [split; [apply (lr0_goto _ _ _ _ _ _ _ _ L2); constructor; discriminate|]|].
  - exists 3, [], []. split; [eexists; a_rule|]. apply (step_at choice_more [var 3] [] 3 [var 1; ter 3] []); [constructor|a_rule].
  - split; [congruence|reflexivity].
Qed.
Lemma unused_rejects : exists (g g' : grammar nat nat) tb, built g /\ built g' /\ same_reachable g g' /\
  slr_new (ho := id_order) Nat.eqb 60 [] g = Val tb /\
  forall (ho : HashOrder) p, exists n, forall fuel, n <= fuel -> slr_new Nat.eqb fuel p g' = Panic.
Proof.
  exists choice, choice_more, (new_of id_order Nat.eqb choice). split; [apply gram_built; reflexivity|]. split; [exact choice_more_built|].
  split; [|split; [vm_compute; reflexivity|exact @choice_more_panics]].
  apply (same_list _ _ [0; 1; 2]); [reflexivity| |reflexivity|].
  - intros r H. vm_compute in H. each_of H.
  - intros r H Hf. vm_compute in H. repeat (destruct H as [<-|H]; [vm_compute in *; try tauto; exfalso; destruct Hf as [|[|[|[]]]]; discriminate|]). destruct H.
Qed.
