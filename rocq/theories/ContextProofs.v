(** The inputs with a tree are those of a grammar, for every table. *)
From Verif Require Import Base GrammarModel CfsmModel SlrModel SpecCfg SpecMachine GrammarProofs FollowProofs GrammarTotal
  CfsmProofs CfsmCorrect TableProofs SlrTable SlrNew SlrRun SlrMoves SlrFinal SlrMachine TrackProofs.

Section Context.
  Context {V T : Type} {dv : DecEq V} {dt : DecEq T}.
  Notation sym := (symbol V T).
  Variable teq : T -> T -> bool.
  Hypothesis Hteq : lawful teq.
  Variable g : grammar V T.
  Hypothesis Hgood : good g.
  Variable c : cfsm V T.
  Hypothesis Hc : cfsm_ok g c.
  Variable fs : list (V * list sym).
  Hypothesis Hf : exact_follow g fs.
  Variable tb : table V T.
  Hypothesis Htb : table_ok teq g c fs tb.

  Definition each_row {A B} (rows : list (list A)) (f : nat -> list A -> list B) : list B :=
    flat_map (fun i => f i (nth i rows [])) (seq 0 (length rows)).

  Lemma in_each_row {A B} (rows : list (list A)) (f : nat -> list A -> list B) x : (forall i, f i [] = []) ->
    In x (each_row rows f) <-> exists i, In x (f i (nth i rows [])).
  Proof.
    intros H0. unfold each_row. rewrite in_flat_map. split; [intros (i & _ & H); eauto|]. intros (i & H). exists i. split; [|exact H].
    apply in_seq. destruct (Nat.lt_ge_cases i (length rows)) as [Hi|Hi]; [lia|]. rewrite nth_overflow in H by exact Hi. rewrite H0 in H. destruct H.
  Qed.

  Definition shifts_of : list (nat * T * nat) := each_row (tb_action tb) (fun i =>
    flat_map (fun x : key T * action V => match x with (Some t, Shift d) => [(i, t, d)] | _ => [] end)).
  Definition reduces_of : list (nat * T * V * nat) := each_row (tb_action tb) (fun i =>
    flat_map (fun x : key T * action V => match x with (Some t, Reduce v (S j)) => [(i, t, v, j)] | _ => [] end)).
  Definition accepts_of : list (nat * nat) := each_row (tb_action tb) (fun i =>
    flat_map (fun x : key T * action V => match x with (None, Accept _ k) => [(i, k)] | _ => [] end)).
  Definition gotos_of : list (nat * V * nat) := each_row (tb_goto tb) (fun i row =>
    flat_map (fun x => match mget (fst x) row with Some d => [(i, fst x, d)] | None => [] end) row).

  Lemma in_shifts i t d : In (i, t, d) shifts_of <-> In (Some t, Shift d) (nth i (tb_action tb) []).
  Proof.
    unfold shifts_of. rewrite in_each_row by reflexivity. split.
    - intros (i' & H). apply in_flat_map in H. destruct H as ([[t'|] [d'|v' k'|v' k']] & H1 & H2); try destruct H2 as [[= <- <- <-]|[]]; try destruct H2; auto.
    - intros H. exists i. apply in_flat_map. exists (Some t, Shift d). split; [exact H|left; auto].
  Qed.
  Lemma in_reduces i t v j : In (i, t, v, j) reduces_of <-> In (Some t, Reduce v (S j)) (nth i (tb_action tb) []).
  Proof.
    unfold reduces_of. rewrite in_each_row by reflexivity. split.
    - intros (i' & H). apply in_flat_map in H. destruct H as ([[t'|] [d'|v' [|k']|v' k']] & H1 & H2); try destruct H2 as [[= <- <- <- <-]|[]]; try destruct H2; auto.
    - intros H. exists i. apply in_flat_map. exists (Some t, Reduce v (S j)). split; [exact H|left; auto].
  Qed.
  Lemma in_accepts i k : In (i, k) accepts_of <-> exists v, In (None, Accept v k) (nth i (tb_action tb) []).
  Proof.
    unfold accepts_of. rewrite in_each_row by reflexivity. split.
    - intros (i' & H). apply in_flat_map in H. destruct H as ([[t'|] [d'|v' k'|v' k']] & H1 & H2); try destruct H2 as [[= <- <-]|[]]; try destruct H2; eauto.
    - intros (v & H). exists i. apply in_flat_map. exists (None, Accept v k). split; [exact H|left; auto].
  Qed.
  Lemma in_gotos i v d : In (i, v, d) gotos_of <-> mget v (nth i (tb_goto tb) []) = Some d.
  Proof.
    unfold gotos_of. rewrite in_each_row by reflexivity. split.
    - intros (i' & H). apply in_flat_map in H. destruct H as (x & H1 & H2). destruct (mget (fst x) (nth i' (tb_goto tb) [])) as [d'|] eqn:E; [|destruct H2].
      destruct H2 as [[= <- <- <-]|[]]. exact E.
    - intros H. exists i. apply in_flat_map. exists (v, d). split; [apply mget_in; exact H|]. cbn [fst]. rewrite H. left. auto.
  Qed.

  Notation run := (runs teq shifts_of reduces_of gotos_of accepts_of).
  Notation held := (held c tb).

  Lemma held_top st sm : held st sm -> exists rest, map snd sm = top sm :: rest /\ length rest = length st.
  Proof.
    intros H. pose proof (held_length c tb _ _ H) as Hl. destruct sm as [|[n k] sm]; [discriminate|]. exists (map snd sm). split; [reflexivity|].
    rewrite map_length. injection Hl as Hl. exact Hl.
  Qed.

  Lemma accepted_run k : forall st ts sm m n, held st sm -> mmoves teq g k (st, ts) m -> maccepts g (has_entry g fs) m n -> exists j, run j (map snd sm) ts.
  Proof.
    induction k as [|k IH]; intros st ts sm m n Hh Hm Ha; inversion Hm as [|? ? m1 ? M1 M2]; subst; destruct (held_top _ _ Hh) as (rest & E & Hl);
      pose proof (held_path c tb _ _ Hh) as Hp.
    - destruct Ha as (-> & He & bd & H1 & H2 & _). rewrite E. exists 0. apply runs_accept with (k := length bd); [|lia].
      apply in_accepts. exists (g_start g). apply (row_action teq g c Hc fs Hf tb Htb _ _ _ _ Hp). split; [reflexivity|]. split; [eauto|exact He].
    - inversion M1 as [st0 t ts0 t' h a r L1 L2|popped st0 t ts0 t' h bd h' a r L1 L2 L3 L4 L5]; subst.
      + destruct (lr0_next g c Hc _ _ _ _ _ L1) as (d & Hd).
        destruct (IH _ _ ((Node (Ter t) [], d) :: sm) _ _ (held_cons c tb _ _ _ _ _ Hh Hd) M2 Ha) as (j & Hj). cbn [map snd] in Hj. rewrite E in Hj |- *.
        exists (S j). eapply runs_shift; [apply in_shifts|exact L2|exact Hj]. apply (row_action teq g c Hc fs Hf tb Htb _ _ _ _ Hp). split; eauto.
      + destruct (lr0_next g c Hc _ _ _ _ _ L5) as (d & Hd). destruct (held_pop c tb _ _ _ Hh) as (Hh' & _).
        destruct (held_top _ _ Hh') as (rest' & E' & Hl').
        destruct (IH _ _ ((Node (Var h) (map snd popped), d) :: skipn (length popped) sm) _ _ (held_cons c tb _ _ _ _ _ Hh' Hd) M2 Ha) as (j & Hj).
        cbn [map snd] in Hj. rewrite E' in Hj. rewrite E. exists (S j).
        pose proof (body_nonempty g Hgood _ _ _ L1) as Hne. destruct (length bd) as [|i] eqn:Eb; [destruct bd; [congruence|discriminate]|].
        eapply runs_reduce with (j := i); [apply in_reduces| exact L3 | | | exact Hj].
        * apply (row_action teq g c Hc fs Hf tb Htb _ _ _ _ Hp). exists bd. split; [exact L1|]. split; [exact Eb|]. apply follow_steps; assumption.
        * rewrite <- E', L4, <- skipn_map. unfold parse_node in *. rewrite E. reflexivity.
        * apply in_gotos. apply (row_goto teq g c Hc fs tb Htb _ _ _ _ (held_path c tb _ _ Hh')). exact Hd.
  Qed.

  Lemma run_accepted j : forall st ts sm, held st sm -> run j (map snd sm) ts -> exists k m n, mmoves teq g k (st, ts) m /\ maccepts g (has_entry g fs) m n.
  Proof.
    induction j as [|j IH]; intros st ts sm Hh Hr; destruct (held_top _ _ Hh) as (rest & E & Hl); pose proof (held_path c tb _ _ Hh) as Hp; rewrite E in Hr.
    - inversion Hr as [? ? k H1 H2| |]; subst. apply in_accepts in H1. destruct H1 as (v & H1). apply (row_action teq g c Hc fs Hf tb Htb _ _ _ _ Hp) in H1.
      destruct H1 as (-> & (bd & H3 & <-) & H4). eexists 0, (st, []), _. split; [constructor|]. split; [reflexivity|]. split; [exact H4|].
      exists bd. split; [exact H3|]. split; [lia|reflexivity].
    - inversion Hr as [|n' q st1 t ts1 t' d H1 H2 H3|n' q st1 t ts1 t' v i p st' d H1 H2 H3 H4 H5]; subst.
      + apply in_shifts in H1. apply (row_action teq g c Hc fs Hf tb Htb _ _ _ _ Hp) in H1. destruct H1 as ((h & a & r & L) & Hd).
        destruct (IH ((Ter t', Node (Ter t) []) :: st) ts1 ((Node (Ter t) [], d) :: sm)) as (k & m & n & M1 & M2).
        * apply held_cons; [exact Hh|exact Hd].
        * cbn [map snd]. rewrite E. exact H3.
        * exists (S k), m, n. split; [|exact M2]. econstructor; [|exact M1]. econstructor; eauto.
      + apply in_reduces in H1. apply (row_action teq g c Hc fs Hf tb Htb _ _ _ _ Hp) in H1. destruct H1 as (bd & L & Eb & Hfo).
        assert (Hlen : i < length rest) by (destruct (Nat.lt_ge_cases i (length rest)) as [Hx|Hx]; [exact Hx|rewrite skipn_all2 in H3 by lia; discriminate]).
        rewrite <- (firstn_skipn (S i) st) in Hh. set (popped := firstn (S i) st) in *. set (st0 := skipn (S i) st) in *.
        assert (Hpl : length popped = S i) by (unfold popped; rewrite firstn_length; lia).
        destruct (held_pop c tb _ _ _ Hh) as (Hh' & _). rewrite Hpl in Hh'. destruct (held_top _ _ Hh') as (rest' & E' & _).
        rewrite <- skipn_map in E'. unfold parse_node in *. rewrite E in E'. change (skipn (S i) (top sm :: rest)) with (skipn i rest) in E'. rewrite H3 in E'. assert (Epq : p = top (skipn (S i) sm) /\ st' = rest') by (split; congruence). destruct Epq as [-> ->].
        apply in_gotos in H4. pose proof (held_path c tb _ _ Hh') as Hp'.
        pose proof (proj1 (row_goto teq g c Hc fs tb Htb _ _ _ _ Hp') H4) as Hd.
        assert (Hv : exists h' a r, lr0 g (word st0) (h', a, Var v :: r)).
        { apply (var_goto teq g Hgood c Hc fs tb Htb _ _ _ Hp'). rewrite H4. discriminate. }
        destruct Hv as (h' & a & r & Hv).
        destruct (IH ((Var v, Node (Var v) (map snd popped)) :: st0) (t :: ts1) ((Node (Var v) (map snd popped), d) :: skipn (S i) sm)) as (k & m & n & M1 & M2).
        * apply held_cons; [exact Hh'|exact Hd].
        * cbn [map snd]. rewrite <- skipn_map, E. cbn [skipn]. rewrite H3. exact H5.
        * exists (S k), m, n. split; [|exact M2]. econstructor; [|exact M1]. rewrite <- (firstn_skipn (S i) st). fold popped st0.
          apply follow_steps in Hfo. eapply mmove_reduce; [|exact Hfo|exact H2| |exact Hv]; [|rewrite Eb; exact Hpl].
          unfold popped, st0. rewrite firstn_skipn. exact L.
  Qed.

  Lemma context_free : exists (W : Type) (g' : grammar W T), forall ts, (exists fuel n, parse teq fuel tb ts = Val (Some n)) <-> exists y, parses g' teq ts y.
  Proof.
    exists (@track V T), (track_grammar teq shifts_of reduces_of gotos_of accepts_of). intros ts. rewrite <- (track_language teq Hteq).
    pose proof (proj1 (machine_ok teq Hteq g Hgood c Hc fs Hf tb Htb ts)) as M. split.
    - intros (fuel & n & E). destruct (proj1 (M n)) as (k & m & M1 & M2); [eauto|]. exact (accepted_run k [] ts (stack0 tb) m n (held_nil c tb) M1 M2).
    - intros (j & Hj). destruct (run_accepted j [] ts (stack0 tb) (held_nil c tb) Hj) as (k & m & n & M1 & M2).
      destruct (proj2 (M n)) as (fuel & E); [eauto|]. eauto.
  Qed.
End Context.

Lemma parser_context_free {V T} `{DecEq V} `{DecEq T} {ho : HashOrder} (teq : T -> T -> bool) (g : grammar V T) fuel p tb :
  lawful teq -> built g -> slr_new teq fuel p g = Val tb ->
  exists (W : Type) (g' : grammar W T), forall ts, (exists fuel' n, parse teq fuel' tb ts = Val (Some n)) <-> exists y, parses g' teq ts y.
Proof.
  intros Ht Hb E. destruct (slr_new_parts teq Ht g Hb _ _ _ E) as (c & fs & _ & Hc & Hf & Htb).
  exact (context_free teq Ht g (built_good g Hb) c Hc fs Hf tb Htb).
Qed.
