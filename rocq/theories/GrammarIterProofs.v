(** The iterators over a grammar and the answer of [add_rule]. *)
From Verif Require Import Base GrammarModel SpecCfg GrammarProofs.

Section Iter.
  Context {V T : Type} {dv : DecEq V} {dt : DecEq T}.

  Lemma variables_exact {ho : HashOrder} (g : grammar V T) p : SpecCfg.built g ->
    NoDup (iter_variables p g) /\ forall v, In v (iter_variables p g) <-> exists bd, rule g v bd.
  Proof.
    intros Hb. destruct (built_good g Hb) as [Hok _ _]. unfold iter_variables. split.
    - apply (Permutation_NoDup (l := map fst (g_rules g))); [|apply Hok]. apply Permutation_map. symmetry. apply hash_at_perm.
    - intros v. rewrite in_map_iff. split.
      + intros (e & <- & H). apply in_hash_at in H. apply (head_rule _ _ Hok). apply in_map. assumption.
      + intros H. apply (head_rule _ _ Hok) in H. apply in_map_iff in H. destruct H as (e & <- & H). exists e.
        split; [reflexivity|]. apply in_hash_at. assumption.
  Qed.

  Lemma in_body_terminals (bd : body V T) t : In t (body_terminals bd) <-> In (Ter t) bd.
  Proof.
    unfold body_terminals. rewrite in_flat_map. split.
    - intros ([v|x|] & H & Hin); cbn in Hin; try tauto. destruct Hin as [->|[]]. assumption.
    - intros H. exists (Ter t). split; [assumption|left; reflexivity].
  Qed.

  Lemma terminals_exact {ho : HashOrder} (g : grammar V T) p :
    NoDup (iter_terminals p g) /\
    forall t, In t (iter_terminals p g) <-> exists v bd, rule g v bd /\ In (Ter t) bd.
  Proof.
    unfold iter_terminals.
    set (f := fun (terminals : list T) (e : nat * (V * list (body V T))) =>
           set_extend (flat_map body_terminals (hash_at (fst e :: 1 :: p) (snd (snd e)))) terminals).
    assert (H : forall l acc, NoDup acc -> NoDup (fold_left f l acc) /\
      forall t, In t (fold_left f l acc) <-> In t acc \/ exists e bd, In e l /\ In bd (snd (snd e)) /\ In (Ter t) bd).
    { induction l as [|e l IH]; intros acc Ha; cbn [fold_left].
      - split; [assumption|]. intros t. split; [auto|]. intros [H|(? & ? & [] & _)]. assumption.
      - destruct (IH (f acc e)) as [H1 H2]; [apply nodup_set_extend; assumption|]. split; [assumption|].
        intros t. rewrite H2. unfold f at 1. rewrite in_set_extend, in_flat_map. split.
        + intros [[(bd & Hb & Ht)|H]|(e' & bd & Hi & H)].
          * apply in_hash_at in Hb. apply in_body_terminals in Ht. right. exists e, bd. split; [left; reflexivity|auto].
          * auto.
          * right. exists e', bd. split; [right; assumption|assumption].
        + intros [H|(e' & bd & [<-|Hi] & Hb & Ht)].
          * auto.
          * left. left. exists bd. split; [apply in_hash_at; assumption|apply in_body_terminals; assumption].
          * right. exists e', bd. auto. }
    destruct (H (enumerate (hash_at (0 :: p) (g_rules g))) [] (NoDup_nil T)) as [H1 H2]. split.
    - eapply Permutation_NoDup; [symmetry; apply hash_at_perm|assumption].
    - intros t. rewrite in_hash_at, H2. split.
      + intros [[]|(e & bd & Hi & Hb & Ht)]. apply (in_map snd) in Hi. rewrite map_snd_enumerate in Hi. apply in_hash_at in Hi.
        exists (fst (snd e)), bd. split; [|assumption]. exists (snd (snd e)). split; [|assumption].
        destruct e as [n [v bds]]. assumption.
      + intros (v & bd & (bds & Hi & Hb) & Ht). right.
        assert (Hin : In (v, bds) (map snd (enumerate (hash_at (0 :: p) (g_rules g))))).
        { rewrite map_snd_enumerate. apply in_hash_at. assumption. }
        apply in_map_iff in Hin. destruct Hin as (e & E & Hin). exists e, bd. rewrite E. auto.
  Qed.

  Lemma add_rule_new (cs : list (call V T)) v bd :
    fst (add_rule v bd (do_calls cs)) = true <-> ~ added cs v (norm_body bd).
  Proof.
    rewrite <- do_calls_rules, rrule_mget by (apply do_calls_good). cbn [add_rule fst]. fold (norm_body bd).
    rewrite negb_true_iff. destruct (mget v (b_rules (do_calls cs))) as [bs|].
    - rewrite <- not_true_iff_false, memb_in. split.
      + intros H (bds & [= <-] & Hi). contradiction.
      + intros H Hi. apply H. eauto.
    - split; [|reflexivity]. intros _ (bds & H & _). discriminate.
  Qed.
End Iter.
