(** The programs of [OrderModel] are the functions of the model, and no name is
    asked for twice. *)
From Coq Require Import Sorted.
From Verif Require Import Base GrammarModel CfsmModel SlrModel GrammarProofs FollowProofs OrderModel OrderProofs.

Section Run.
  Context {V T : Type} {dv : DecEq V} {dt : DecEq T} (ho : HashOrder).
  Implicit Types g : grammar V T.

  Lemma run_ask {X} k (l : list X) : run ho (ask k l) = Val (hash_at k l).
  Proof. reflexivity. Qed.

  Lemma run_each {I X Y} (k : I -> list nat) (h : I -> X -> Y) s l :
    run ho (ask_each k h s l) = Val (flat_map (fun e => map (h e) (hash_at (k e) (s e))) l).
  Proof.
    induction l as [|e l IH]; [reflexivity|]. cbn [ask_each]. rewrite run_bind, run_ask. cbn [bind]. rewrite run_bind, IH. reflexivity.
  Qed.

  Ltac go := repeat (rewrite ?run_bind, ?run_ask; cbn [bind run ret]).

  Lemma run_extend p o syms (st : fstate (V := V) (T := T)) : run ho (o_extend p o syms st) = Val (extend_for_variable p o syms st).
  Proof.
    unfold o_extend, extend_for_variable. destruct o as [v|]; [|reflexivity]. cbv zeta.
    destruct (_ =? _); [reflexivity|]. destruct (mget v (f_deps st)); go; reflexivity.
  Qed.

  Lemma run_scan p g o : forall rest st, run ho (o_scan p g o rest st) = first_scan p g o rest st.
  Proof.
    induction rest as [|[t|v|] tl IH]; intros st; cbn [o_scan first_scan]; [reflexivity|apply run_extend| |].
    - cbv zeta. destruct (memb v _).
      + destruct (mget v _) as [fv|]; [|reflexivity]. go. rewrite run_extend. cbn [bind]. destruct (memb Eps fv); [apply IH|reflexivity].
      + destruct (get_rule_bodies g v); go; reflexivity.
    - destruct tl; [apply run_extend|apply IH].
  Qed.

  Lemma run_entry p g o : forall bs st, run ho (o_entry p g o bs st) = first_entry p g o bs st.
  Proof.
    induction bs as [|b bs IH]; intros st; cbn [o_entry first_entry]; [reflexivity|]. go. rewrite run_scan.
    destruct (first_scan p g o b st); cbn [bind]; auto.
  Qed.

  Lemma run_first_loop p g : forall fuel st, run ho (o_first_loop fuel p g st) = first_loop fuel p g st.
  Proof.
    induction fuel as [|fuel IH]; intros st; cbn [o_first_loop first_loop]; destruct (f_pending st) as [|[o bs] rest]; try reflexivity.
    go. rewrite run_entry. destruct (first_entry _ _ _ _ _); cbn [bind]; auto.
  Qed.

  Lemma run_bodies fuel p g o bs : run ho (o_bodies fuel p g o bs) = first_bodies fuel p g o bs.
  Proof. unfold o_bodies, first_bodies. go. rewrite run_first_loop. reflexivity. Qed.

  Lemma run_first fuel p g v : run ho (o_first fuel p g v) = first fuel p g v.
  Proof.
    unfold o_first, first. go. destruct (get_rule_bodies g v); [|reflexivity]. cbn [of_option bind]. go. apply run_bodies.
  Qed.

  Lemma run_follow_scan fuel p g h : forall rest st, run ho (o_follow_scan fuel p g h rest st) = follow_scan fuel p g h rest st.
  Proof.
    induction rest as [|[t|v|] tl IH]; intros st; cbn [o_follow_scan follow_scan]; [reflexivity|apply IH| |apply IH].
    destruct tl as [|s tl]; [reflexivity|]. go. rewrite run_bodies. unfold first_body.
    destruct (first_bodies _ _ _ _ _); cbn [bind]; auto.
  Qed.

  Lemma run_follow_rules fuel p g : forall rs st, run ho (o_follow_rules fuel p g rs st) = follow_rules fuel p g rs st.
  Proof.
    induction rs as [|[i [h bd]] rs IH]; intros st; cbn [o_follow_rules follow_rules]; [reflexivity|]. go. rewrite run_follow_scan.
    destruct (follow_scan _ _ _ _ _ _); cbn [bind]; auto.
  Qed.

  Lemma run_follow_loop p deps : forall fuel queue (m : list (V * list (symbol V T))),
    run ho (o_follow_loop fuel p deps queue m) = follow_loop fuel p deps queue m.
  Proof.
    induction fuel as [|fuel IH]; intros queue m; cbn [o_follow_loop follow_loop]; destruct queue as [|[lhs rhs] rest]; try reflexivity.
    destruct (mget rhs m) as [fr|]; [|apply IH]. cbv zeta. destruct (_ =? _); [go; apply IH|].
    destruct (mget lhs deps); go; apply IH.
  Qed.

  Lemma run_follow_set fuel p g : run ho (o_follow_set fuel p g) = follow_set fuel p g.
  Proof.
    unfold o_follow_set, follow_set, o_iter_rules, o_iter_deps. go. rewrite run_each. cbn [bind]. go. rewrite run_follow_rules.
    unfold iter_rules. match goal with |- bind ?x _ = _ => destruct x; cbn [bind]; try reflexivity end.
    go. rewrite run_each. cbn [bind]. apply run_follow_loop.
  Qed.

  Lemma run_items_loop p g : forall fuel k queue items, run ho (o_items_loop fuel k p g queue items) = items_loop fuel k p g queue items.
  Proof.
    induction fuel as [|fuel IH]; intros k queue items; cbn [o_items_loop items_loop]; destruct queue as [|ib rest]; try reflexivity.
    go. destruct (cursor_variable ib) as [[h|]| |]; cbn [bind]; try reflexivity; [|apply IH]. go.
    destruct (get_rule_bodies g h); cbn [of_option bind]; [|reflexivity]. go. destruct (closure_insert _ _ _ _). apply IH.
  Qed.

  Lemma run_complete fuel p items g : run ho (o_complete fuel p items g) = from_incomplete_map fuel p items g.
  Proof. unfold o_complete, from_incomplete_map. go. apply run_items_loop. Qed.

  Lemma run_group_items p (items : item_set V T) : run ho (o_group_items p items) = Val (group_items p items).
  Proof. unfold o_group_items, group_items. go. reflexivity. Qed.

  Lemma run_cfsm_groups fuel p g added : forall groups trans next pending,
    run ho (o_cfsm_groups fuel p g added groups trans next pending) = cfsm_groups fuel p g added groups trans next pending.
  Proof.
    induction groups as [|[i [s group]] groups IH]; intros trans next pending; cbn [o_cfsm_groups cfsm_groups]; [reflexivity|]. cbv zeta. go.
    rewrite run_complete. destruct (from_incomplete_map _ _ _ _) as [items| |]; cbn [bind]; try reflexivity.
    destruct (find _ added); apply IH.
  Qed.

  Lemma run_cfsm_loop p g : forall fuel k added next pending,
    run ho (o_cfsm_loop fuel k p g added next pending) = cfsm_loop fuel k p g added next pending.
  Proof.
    induction fuel as [|fuel IH]; intros k added next pending; cbn [o_cfsm_loop cfsm_loop]; destruct pending as [|st rest]; try reflexivity.
    go. rewrite run_group_items. cbn [bind]. go. rewrite run_cfsm_groups.
    destruct (cfsm_groups _ _ _ _ _ _ _ _) as [[[trans next'] pending']| |]; cbn [bind]; auto.
  Qed.

  Lemma run_from_grammar fuel p g : run ho (o_from_grammar fuel p g) = from_grammar fuel p g.
  Proof.
    unfold o_from_grammar, from_grammar, item_set_from_rules. go. destruct (get_rule_bodies g (g_start g)) as [bds|]; [|reflexivity].
    cbn [of_option bind]. go. rewrite run_complete. destruct (from_incomplete_map _ _ _ _) as [items| |]; cbn [bind]; try reflexivity.
    go. rewrite run_cfsm_loop. destruct (cfsm_loop _ _ _ _ _ _ _); reflexivity.
  Qed.

  Variable teq : T -> T -> bool.

  Lemma run_table_items p g fs st : forall items tbs, run ho (o_table_items teq p g fs st items tbs) = table_items teq p g fs st items tbs.
  Proof.
    induction items as [|[i [h ib]] items IH]; intros tbs; cbn [o_table_items table_items]; [reflexivity|].
    destruct (cursor_symbol ib) as [[t|v|]|]; try reflexivity.
    - go. destruct (mget (Ter t) _); cbn [of_option bind]; [|reflexivity]. destruct (insert_action _ _ _ _ _); [apply IH|reflexivity].
    - go. destruct (mget (Var v) _); cbn [of_option bind]; [|reflexivity]. go. destruct (insert_goto _ _ _ _); cbn [bind]; auto.
    - destruct (mget h fs); [|apply IH]. go. destruct (insert_reduces _ _ _ _ _ _) as [[ac|]| |]; cbn [bind]; try reflexivity.
      destruct (eqb h (g_start g)); [|apply IH]. destruct (insert_action _ _ _ _ _); [apply IH|reflexivity].
  Qed.

  Lemma run_table_states p g fs : forall sts tbs, run ho (o_table_states teq p g fs sts tbs) = table_states teq p g fs sts tbs.
  Proof.
    induction sts as [|st sts IH]; intros tbs; cbn [o_table_states table_states]; [reflexivity|]. go. rewrite run_table_items.
    destruct (table_items _ _ _ _ _ _ _) as [[tbs'|]| |]; cbn [bind]; try reflexivity. apply IH.
  Qed.

  Lemma run_new_slr fuel p (c : cfsm V T) : run ho (o_new_slr teq fuel p c) = new_slr teq fuel p c.
  Proof.
    unfold o_new_slr, new_slr. go. rewrite run_follow_set. destruct (follow_set _ _ _); cbn [bind]; try reflexivity. go.
    rewrite run_table_states. destruct (table_states _ _ _ _ _ _) as [[[ac gt]|]| |]; reflexivity.
  Qed.

  Lemma run_slr_new fuel p g : run ho (o_slr_new teq fuel p g) = slr_new teq fuel p g.
  Proof.
    unfold o_slr_new, slr_new. go. rewrite run_from_grammar. destruct (from_grammar _ _ _); cbn [bind]; try reflexivity. go.
    rewrite run_new_slr. destruct (new_slr _ _ _ _); reflexivity.
  Qed.
End Run.
