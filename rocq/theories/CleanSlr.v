(** Proofs for C100: grammars that are SLR(1) without epsilon and useless variables. *)
From Verif Require Import Base GrammarModel CfsmModel SlrModel SpecCfg SpecWrap SpecNamed SpecClean SlrRun SlrWitness NamedProofs CleanProofs CleanFinal.

Section Final.
  Context {V T : Type} {dv : DecEq V} {dt : DecEq T}.
  Variable teq : T -> T -> bool.
  Hypothesis Hteq : lawful teq.

  Lemma cleaned_exact cs (g g' : grammar V T) z e o : build (do_calls cs) = Val g -> build (do_calls (cleaned cs)) = Val g' ->
    alike teq g' -> ~ slr_conflict g' -> (forall h a, lr0 g' [Var (g_start g')] (h, a, []) -> ~ lookahead g' h None) ->
    fresh_variable g' z -> fresh_terminal teq g' e -> fresh_terminal teq g' o -> teq o e = false ->
    exists w, build (do_calls (wrapped (named_calls (cleaned cs)) (inl (g_start g)) (inl z) e o)) = Val w /\
      forall (ho : HashOrder) p, exists n tb, (forall fuel, n <= fuel -> slr_new teq fuel p w = Val tb) /\
        forall us, (forall t, In t us -> teq o t = false) ->
          let turns := (2 * length us + 1) * (length (g_rules w) + 1) + 1 in
          (exists ks e' y, us = ks ++ [e'] /\ teq e e' = true /\ ks <> [] /\ (exists x, parses g teq ks x) /\
             (forall x, parses g teq ks x -> exists y0, pruned x = [y0] /\ named teq y0 y) /\
             forall fuel', turns <= fuel' -> parse teq fuel' tb us = Val (Some (Node (Var (inl z)) [Node (Ter e') []; to_node y]))) \/
          ((forall ks e' x, us = ks ++ [e'] -> teq e e' = true -> ks <> [] -> ~ parses g teq ks x) /\
           forall fuel', turns <= fuel' -> parse teq fuel' tb us = Val None).
  Proof.
    intros Hg Hg' Ha Hc Hs Hz He Ho Heo. destruct (cleaned_ok teq Hteq cs g g' Hg Hg') as (Hcl & Est & Hto & Hfrom & _).
    destruct (named_exact teq Hteq (cleaned cs) g' z e o Hg' Hcl Ha Hc Hs Hz He Ho Heo) as (w & Hw & H). rewrite Est in Hw.
    exists w. split; auto. intros ho p. destruct (H ho p) as (n & tb & Hn & Hp). exists n, tb. split; auto. intros us Hu turns.
    destruct (Hp us Hu) as [(ks & e' & y & E & Ee & (x & Hx) & Hall & Hr)|(Hno & Hr)]; [left|right; split; auto].
    - destruct (Hfrom _ _ Hx) as (Hks & x0 & Hx0 & _). exists ks, e', y. split; auto. split; auto. split; auto. split; [eauto|]. split; auto.
      intros x1 Hx1. destruct (Hto _ _ Hx1 Hks) as (y0 & Ey & Hy0). eauto.
    - intros ks e' x E Ee Hks Hx. destruct (Hto _ _ Hx Hks) as (y0 & _ & Hy0). exact (Hno _ _ _ E Ee Hy0).
  Qed.
End Final.

(** ** The parentheses of CleanWitness.v. *)
From Verif Require Import CleanWitness.

Definition brackets_plain : grammar nat nat := match build (do_calls brackets) with Val g => g | _ => {| g_start := 0; g_rules := [] |} end.
Definition brackets_clean : grammar nat nat := match build (do_calls (cleaned brackets)) with Val g => g | _ => {| g_start := 0; g_rules := [] |} end.

Lemma brackets_build : build (do_calls brackets) = Val brackets_plain.
Proof. vm_compute. reflexivity. Qed.
Lemma brackets_clean_build : build (do_calls (cleaned brackets)) = Val brackets_clean.
Proof. vm_compute. reflexivity. Qed.

Lemma brackets_no_conflict : ~ slr_conflict brackets_clean.
Proof.
  apply (lone_no_conflict brackets_clean
    (match from_grammar (ho := id_order) 60 [] brackets_clean with Val c => c | _ => {| cf_start := 0; cf_states := []; cf_grammar := brackets_clean |} end));
    [eexists; exact brackets_clean_build|vm_compute; reflexivity|vm_compute; reflexivity].
Qed.

Ltac all_rules H := destruct H as (bds & H1 & H2); vm_compute in H1;
  repeat (destruct H1 as [H1|H1]; [injection H1 as <- <-; repeat (destruct H2 as [H2|H2]; [subst; idtac|]); try contradiction|]); try contradiction.

Lemma brackets_no_accept h a : lr0 brackets_clean [Var (g_start brackets_clean)] (h, a, []) -> ~ lookahead brackets_clean h None.
Proof.
  intros H. exfalso. pose proof (lr0_rule _ _ _ _ _ H) as Hr. rewrite app_nil_r in Hr.
  destruct (cleaned_ok Nat.eqb eq_lawful _ _ _ brackets_build brackets_clean_build) as (Hcl & _).
  destruct (lr0_sentential brackets_clean (proj1 Hcl) _ _ _ _ H) as (u & r & E & _).
  all_rules Hr; apply (f_equal (@rev _)) in E; rewrite rev_app_distr in E; discriminate E.
Qed.

Lemma brackets_fresh : fresh_variable brackets_clean 9 /\ fresh_terminal Nat.eqb brackets_clean 5 /\ fresh_terminal Nat.eqb brackets_clean 6.
Proof.
  split; [|split].
  - intros v bd H. all_rules H; (split; [discriminate|]); cbn; intuition discriminate.
  - intros v bd t H Hi. all_rules H; cbn in Hi;
      repeat (destruct Hi as [Hi|Hi]; [first [discriminate|injection Hi as <-; reflexivity]|]); contradiction.
  - intros v bd t H Hi. all_rules H; cbn in Hi;
      repeat (destruct Hi as [Hi|Hi]; [first [discriminate|injection Hi as <-; reflexivity]|]); contradiction.
Qed.
