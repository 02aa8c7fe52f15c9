(** From [Slr::new] to the tokens read and the steps made; grammars for the
    examples. *)
From Verif Require Import Base GrammarModel CfsmModel SlrModel SpecCfg SpecPrefix GrammarProofs FirstProofs FollowProofs GrammarTotal
  ItemProofs CfsmProofs CfsmCorrect TableProofs SlrTable SlrNew SlrRun SlrMoves SlrSim SlrTerm SlrFinal SlrWitness SlrPrefix.

Section Reads.
  Context {V T : Type} {dv : DecEq V} {dt : DecEq T} {ho : HashOrder}.
  Variable teq : T -> T -> bool.
  Hypothesis Hteq : lawful teq.
  Variable g : grammar V T.
  Hypothesis Hb : built g.
  Let Hgood : good g := built_good g Hb.

  Lemma stops_at_bad_token {L1 L2} (next1 : L1 -> res (option T * L1)) (next2 : L2 -> res (option T * L2))
    fuel p tb fuel' u t i1 j1 i2 j2 :
    epsilon_free g -> (forall v, reachable g v -> productive g v) -> slr_new teq fuel p g = Val tb ->
    ~ begins_sentence g teq (u ++ [t]) -> reads next1 i1 (u ++ [t]) j1 -> reads next2 i2 (u ++ [t]) j2 ->
    parse_from teq next1 fuel' tb i1 = parse_from teq next2 fuel' tb i2 /\ forall n, parse_from teq next1 fuel' tb i1 <> Val (Some n).
  Proof.
    intros Heps Hp H Hn. destruct (slr_new_parts teq Hteq g Hb _ _ _ H) as (c & fs & _ & Hc & Hf & Ht).
    apply (parse_stops_at teq Hteq g Hgood Heps c Hc fs Hf tb Ht). intros Hv. apply Hn.
    eapply (viable_sentence teq Hteq g Hgood Heps); eauto.
  Qed.

  Lemma reads_list (u v : list T) : reads next_of_list (u ++ v) u v.
  Proof. induction u as [|t u IH]; [constructor|]. econstructor; [reflexivity|exact IH]. Qed.

  Lemma list_stops_at_bad_token fuel p tb fuel' u t v v' :
    epsilon_free g -> (forall v, reachable g v -> productive g v) -> slr_new teq fuel p g = Val tb ->
    ~ begins_sentence g teq (u ++ [t]) ->
    parse teq fuel' tb (u ++ t :: v) = parse teq fuel' tb (u ++ t :: v') /\ forall n, parse teq fuel' tb (u ++ t :: v) <> Val (Some n).
  Proof.
    intros Heps Hp H Hn. unfold parse. change (t :: v) with ([t] ++ v). change (t :: v') with ([t] ++ v'). rewrite !app_assoc.
    eapply stops_at_bad_token; eauto; apply reads_list.
  Qed.

  Lemma parse_steps fuel p tb ts fuel' : epsilon_free g -> all_reachable g \/ no_unit_cycle g -> slr_new teq fuel p g = Val tb ->
    (2 * length ts + 1) * (length (g_rules g) + 1) + 1 <= fuel' -> parse teq fuel' tb ts <> Diverge.
  Proof.
    intros Heps Hor H Hle. destruct (slr_new_parts teq Hteq g Hb _ _ _ H) as (c & fs & _ & Hc & Hf & Ht).
    eapply (parse_bound teq Hteq g Hgood Heps c Hc fs Hf tb Ht); [|nia].
    destruct Hor as [Hall|Hn]; [|intros; apply Hn].
    intros v t. eapply no_followed_cycle; eauto.
  Qed.
End Reads.

(** ** Shapes of sentences *)

(** What holds of the leaves of every tree, checked rule by rule. *)
Lemma leaves_shape (g : grammar nat nat) (P : nat -> list nat -> Prop) :
  (forall v bd cs, rule g v bd -> Forall2 (sat Nat.eqb) (filter not_eps bd) cs ->
     Forall (fun x => match x with Branch u _ => P u (leaves x) | Leaf _ => True end) cs -> P v (flat_map leaves cs)) ->
  forall x, derivation g Nat.eqb x -> match x with Branch v _ => P v (leaves x) | Leaf _ => True end.
Proof.
  intros H. induction x as [t|v cs IH] using tree_ind2; intros Hd; [exact I|].
  inversion Hd as [|? bd ? Hr H2 H3]; subst. cbn [leaves]. eapply H; eauto.
  rewrite Forall_forall in *. intros x Hx. apply (IH x Hx). auto.
Qed.

(** Takes the children of a node apart. *)
Ltac kids H HP :=
  repeat match type of H with
         | Forall2 _ [] _ => inversion H; clear H; subst
         | Forall2 _ (_ :: _) _ =>
             let y := fresh "y" in let ys := fresh "ys" in let S := fresh "S" in let H' := fresh "H'" in
             let P := fresh "P" in let HP' := fresh "HP" in
             inversion H as [|? y ? ys S H']; clear H; subst;
             inversion HP as [|? ? P HP']; clear HP; subst;
             destruct y; cbn [sat] in S; try tauto; match type of S with (_ =? _) = true => apply Nat.eqb_eq in S | _ => idtac end; subst;
             rename H' into H; rename HP' into HP
         end; cbn [leaves flat_map app].

(** [x + +] begins no sentence of [stmts]. *)
Definition stmts_shape (v : nat) (l : list nat) : Prop :=
  match v with
  | 0 => (exists r, l = 1 :: 3 :: r) \/ exists r, l = 1 :: 2 :: 1 :: r
  | _ => l = [1] \/ exists r, l = 1 :: 2 :: 1 :: r
  end.
Lemma stmts_bad : ~ begins_sentence stmts Nat.eqb [1; 2; 2].
Proof.
  intros (rest & x & D & L & cs & ->).
  assert (H : stmts_shape 0 ([1; 2; 2] ++ rest)).
  { rewrite <- L. refine (leaves_shape stmts stmts_shape _ _ D). clear. intros v bd cs Hr H HP.
    each_rule Hr; cbn [filter not_eps] in H; kids H HP; cbn [stmts_shape leaves] in *.
    - destruct P as [(r & ->)|(r & ->)]; cbn; eauto.
    - destruct P as [->|(r & ->)]; cbn; eauto.
    - destruct P as [->|(r & ->)]; cbn; eauto.
    - auto. }
  destruct H as [(r & E)|(r & E)]; discriminate.
Qed.

Lemma stmts_reach_prod v : reachable stmts v -> productive stmts v.
Proof.
  intros (l & r & H). enough (exists bd, rule stmts v bd) as (bd & Hr) by (eapply stmts_productive; eauto).
  assert (Hinv : forall y, steps stmts [var 0] y -> forall u, In (var u) y -> u = 0 \/ u = 1).
  { clear. intros y H. remember [var 0] as y0. induction H as [y|x y z H IH Hs]; intros u Hu.
    - subst. destruct Hu as [[= <-]|[]]. auto.
    - specialize (IH Heqy0). destruct Hs as [l v bd r Hr|l r].
      + apply in_app_iff in Hu. rewrite in_app_iff in Hu. destruct Hu as [Hu|[Hu|Hu]].
        * apply IH. apply in_app_iff. auto.
        * each_rule Hr; cbn in Hu; intuition congruence.
        * apply IH. apply in_app_iff. right. right. auto.
      + apply IH. apply in_app_iff in Hu. apply in_app_iff. cbn. tauto. }
  destruct (Hinv _ H v) as [-> | ->]; [apply in_app_iff; right; left; reflexivity| |]; [exists [var 1; ter 3]|exists [ter 1]]; a_rule.
Qed.

(** ** [0 -> a 1 b | 1 d | 0 e], [1 -> epsilon | c] accepts [a d]. *)
Definition lost : grammar nat nat :=
  gram [(0, [ter 1; var 1; ter 2]); (0, [var 1; ter 4]); (0, [var 0; ter 5]); (1, [eps]); (1, [ter 3])].
Lemma lost_built : built lost.
Proof. apply gram_built. reflexivity. Qed.
Definition lost_table : table nat nat := new_of id_order Nat.eqb lost.
Lemma lost_new : slr_new (ho := id_order) Nat.eqb 60 [] lost = Val lost_table.
Proof. vm_compute. reflexivity. Qed.
Lemma lost_runs fuel : 5 <= fuel ->
  parse Nat.eqb fuel lost_table [1; 4] = Val (Some (Node (var 0) [Node (ter 4) []; Node (var 1) [Node (ter 1) []]])) /\
  parse Nat.eqb fuel lost_table [1; 4; 1] = Val None.
Proof.
  intros Hf. split; (apply (parse_stable Nat.eqb lost_table 5); [vm_compute; reflexivity|discriminate|exact Hf]).
Qed.
Definition lost_shape (v : nat) (l : list nat) : Prop :=
  match v with
  | 0 => exists r, l = 1 :: 2 :: r \/ l = 1 :: 3 :: r \/ l = 3 :: r \/ l = 4 :: r
  | _ => l = [] \/ l = [3]
  end.
Lemma lost_bad : ~ begins_sentence lost Nat.eqb [1; 4].
Proof.
  intros (rest & x & D & L & cs & ->).
  assert (H : lost_shape 0 ([1; 4] ++ rest)).
  { rewrite <- L. refine (leaves_shape lost lost_shape _ _ D). clear. intros v bd cs Hr H HP.
    each_rule Hr; cbn [filter not_eps] in H; kids H HP; cbn [lost_shape leaves] in *.
    - destruct P0 as [-> | ->]; cbn; eauto.
    - destruct P as [-> | ->]; cbn; eauto.
    - destruct P as (r & [-> |[-> |[-> | ->]]]); cbn; eauto 6.
    - auto.
    - auto. }
  destruct H as (r & [E|[E|[E|E]]]); discriminate.
Qed.
Lemma lost_reach_prod v : reachable lost v -> productive lost v.
Proof.
  intros (l & r & H).
  assert (Hinv : forall y, steps lost [var 0] y -> forall u, In (var u) y -> u = 0 \/ u = 1).
  { clear. intros y H. remember [var 0] as y0. induction H as [y|x y z H IH Hs]; intros u Hu.
    - subst. destruct Hu as [[= <-]|[]]. auto.
    - specialize (IH Heqy0). destruct Hs as [l v bd r Hr|l r].
      + apply in_app_iff in Hu. rewrite in_app_iff in Hu. destruct Hu as [Hu|[Hu|Hu]].
        * apply IH. apply in_app_iff. auto.
        * each_rule Hr; cbn in Hu; intuition congruence.
        * apply IH. apply in_app_iff. right. right. auto.
      + apply IH. apply in_app_iff in Hu. apply in_app_iff. cbn. tauto. }
  destruct (Hinv _ H v) as [-> | ->]; [apply in_app_iff; right; left; reflexivity| |].
  - exists [3; 4]. apply (step_at lost _ [] 1 [ter 3] [ter 4]); [|a_rule]. apply (step_at lost _ [] 0 [var 1; ter 4] []); [constructor|a_rule].
  - exists [3]. apply (step_at lost _ [] 1 [ter 3] []); [constructor|a_rule].
Qed.

(** ** [0 -> a 1], [1 -> b 1] has no sentence, and [a b] is read. *)
Definition endless : grammar nat nat := gram [(0, [ter 1; var 1]); (1, [ter 2; var 1])].
Lemma endless_built : built endless.
Proof. apply gram_built. reflexivity. Qed.
Lemma endless_free : epsilon_free endless.
Proof. intros v bd _ H. each_rule H; cbn; intuition discriminate. Qed.
Definition endless_table : table nat nat := new_of id_order Nat.eqb endless.
Lemma endless_new : slr_new (ho := id_order) Nat.eqb 60 [] endless = Val endless_table.
Proof. vm_compute. reflexivity. Qed.
Lemma endless_bad : ~ begins_sentence endless Nat.eqb [1; 2].
Proof.
  intros (rest & x & D & L & cs & ->).
  apply (leaves_shape endless (fun _ _ => False)) in D; [exact D|]. clear. intros v bd cs Hr H HP.
  each_rule Hr; cbn [filter not_eps] in H; kids H HP; auto.
Qed.
(** A source that ends after [a b], and one that panics. *)
Definition source (after : res (option nat * nat)) (i : nat) : res (option nat * nat) :=
  match i with 0 => Val (Some 1, 1) | 1 => Val (Some 2, 2) | _ => after end.
Lemma source_reads after : reads (source after) 0 [1; 2] 2.
Proof. econstructor; [reflexivity|]. econstructor; [reflexivity|]. constructor. Qed.
Lemma endless_runs fuel : 4 <= fuel ->
  parse_from Nat.eqb (source (Val (None, 2))) fuel endless_table 0 = Val None /\
  parse_from Nat.eqb (source Panic) fuel endless_table 0 = Panic.
Proof. intros Hf. destruct fuel as [|[|[|[|fuel]]]]; [lia..|]. split; vm_compute; reflexivity. Qed.
