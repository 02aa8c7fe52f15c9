(** A grammar that [Slr::new] refuses as it is. *)
From Verif Require Import Base GrammarModel CfsmModel SlrModel SpecCfg SpecWrap SpecNamed SlrWitness SlrRun.

(** [0 -> 1 0 2 | 1 0 3 | 4]: two rules begin with the same symbols. *)
Definition twins_calls : list (call nat nat) := calls [(0, [ter 1; var 0; ter 2]); (0, [ter 1; var 0; ter 3]); (0, [ter 4])].
Definition twins : grammar nat nat := gram [(0, [ter 1; var 0; ter 2]); (0, [ter 1; var 0; ter 3]); (0, [ter 4])].

Lemma twins_calls_build : build (do_calls twins_calls) = Val twins.
Proof. vm_compute. reflexivity. Qed.

Lemma twins_built : built twins.
Proof. exists twins_calls. exact twins_calls_build. Qed.

Lemma twins_no_conflict : ~ slr_conflict twins.
Proof.
  apply (lone_no_conflict twins (match from_grammar (ho := id_order) 60 [] twins with Val c => c | _ => {| cf_start := 0; cf_states := []; cf_grammar := twins |} end));
    [exact twins_built|vm_compute; reflexivity|vm_compute; reflexivity].
Qed.

Lemma twins_clean : clean twins.
Proof.
  assert (Hv : forall v bd, rule twins v bd -> v = 0) by (intros v bd H; each_rule H; auto).
  split; [|split].
  - intros v bd _ H. each_rule H; cbn; intuition discriminate.
  - intros v bd H. rewrite (Hv _ _ H). exists [], []. constructor.
  - intros v bd H. rewrite (Hv _ _ H). exists [4]. apply (step_at twins _ [] 0 [ter 4] []); [constructor|a_rule].
Qed.

Lemma twins_no_accept h a : lr0 twins [Var (g_start twins)] (h, a, []) -> ~ lookahead twins h None.
Proof.
  intros H. exfalso. pose proof (lr0_rule _ _ _ _ _ H) as Hr. rewrite app_nil_r in Hr.
  destruct (lr0_sentential twins (proj1 twins_clean) _ _ _ _ H) as (u & r & E & _).
  each_rule Hr; apply (f_equal (@rev _)) in E; rewrite rev_app_distr in E; discriminate E.
Qed.

Lemma twins_fresh : fresh_variable twins 1 /\ fresh_terminal Nat.eqb twins 5 /\ fresh_terminal Nat.eqb twins 6.
Proof.
  split; [|split].
  - intros v bd H. each_rule H; (split; [discriminate|]); cbn; intuition discriminate.
  - intros v bd t H Hi. each_rule H; cbn in Hi;
      repeat (destruct Hi as [Hi|Hi]; [first [discriminate|injection Hi as <-; reflexivity]|]); contradiction.
  - intros v bd t H Hi. each_rule H; cbn in Hi;
      repeat (destruct Hi as [Hi|Hi]; [first [discriminate|injection Hi as <-; reflexivity]|]); contradiction.
Qed.
