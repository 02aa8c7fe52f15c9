(** A parse that does not end after linearly many moves goes round in a circle. *)
From Verif Require Import Base GrammarModel CfsmModel SlrModel SpecCfg SpecMachine GrammarProofs FirstProofs FollowProofs GrammarTotal
  ItemProofs CfsmProofs CfsmCorrect TableProofs SlrTable SlrNew SlrRun SlrMoves SlrSim SlrAll SlrFinal SlrMachine SlrSource SpecCircle.

Section Linear.
  Context {V T : Type} {dv : DecEq V} {dt : DecEq T}.
  Variable teq : T -> T -> bool.
  Variable g : grammar V T.
  Hypothesis Hgood : good g.
  Notation mmove := (mmove teq g).
  Notation mmoves := (mmoves teq g).
  Notation shape := (@shape V T).

  Lemma mmoves_app k : forall j m m1 m2, mmoves k m m1 -> mmoves j m1 m2 -> mmoves (k + j) m m2.
  Proof.
    induction k as [|k IH]; intros j m m1 m2 H H2; inversion H as [|? ? m' ? Ha Hb]; subst; [assumption|]. cbn. econstructor; [exact Ha|]. eauto.
  Qed.

  Lemma mmoves_part k : forall j m m', j <= k -> mmoves k m m' -> exists m1, mmoves j m m1.
  Proof.
    induction k as [|k IH]; intros [|j] m m' Hj H; try lia; try (eexists; constructor).
    inversion H as [|? ? m1 ? Ha Hb]; subst. destruct (IH j m1 m' ltac:(lia) Hb) as (m2 & H2). exists m2. econstructor; eassumption.
  Qed.

  Lemma shape_word (st st1 : stack V T) : map fst st1 = map fst st -> word st1 = word st.
  Proof. intros E. unfold word. rewrite E. reflexivity. Qed.

  (** The trees do not matter. *)
  Lemma mmove_shape m m1 m' : shape m1 = shape m -> mmove m m' -> exists m1', mmove m1 m1' /\ shape m1' = shape m'.
  Proof.
    intros E H. destruct m1 as [st1 rem1]. destruct H as [st t ts t' h a r Hl Ht|popped st t ts t' h bd h' a r Hl Hf Ht Hlen Hl'];
      unfold SpecCircle.shape in E; cbn [fst snd] in E; injection E as E ->.
    - eexists. split; [eapply mmove_shift; [rewrite (shape_word _ _ E); exact Hl|exact Ht]|]. unfold SpecCircle.shape. cbn. rewrite E. reflexivity.
    - rewrite map_app in E.
      assert (Es : map fst (skipn (length popped) st1) = map fst st).
      { rewrite <- skipn_map, E, skipn_app, map_length, Nat.sub_diag, skipn_all2 by (rewrite map_length; lia). reflexivity. }
      assert (Ep : map fst (firstn (length popped) st1) = map fst popped).
      { rewrite <- firstn_map, E, firstn_app, map_length, Nat.sub_diag, firstn_all2 by (rewrite map_length; lia). apply app_nil_r. }
      rewrite <- (firstn_skipn (length popped) st1) in E |- *.
      eexists. split.
      + eapply mmove_reduce with (h := h) (bd := bd); [|exact Hf|exact Ht| |].
        * rewrite (shape_word (popped ++ st) _); [exact Hl|]. rewrite !map_app. congruence.
        * apply (f_equal (@length _)) in Ep. rewrite !map_length in Ep. congruence.
        * rewrite (shape_word st _ Es). exact Hl'.
      + unfold SpecCircle.shape. cbn. rewrite Es. reflexivity.
  Qed.

  Lemma mmoves_shape k : forall m m1 m', shape m1 = shape m -> mmoves k m m' -> exists m1', mmoves k m1 m1' /\ shape m1' = shape m'.
  Proof.
    induction k as [|k IH]; intros m m1 m' E H; inversion H as [|? ? m2 ? Ha Hb]; subst; [exists m1; split; [constructor|assumption]|].
    destruct (mmove_shape _ _ _ E Ha) as (m3 & H3 & E3). destruct (IH _ _ _ E3 Hb) as (m1' & H1' & E'). exists m1'. split; [econstructor; eassumption|assumption].
  Qed.

  (** A circle goes on for ever. *)
  Lemma circle_forever j m m' : mmoves (S j) m m' -> shape m' = shape m -> forall k, exists m1, mmoves k m m1.
  Proof.
    intros H E. assert (Hn : forall n, exists m1, mmoves (n * S j) m m1 /\ shape m1 = shape m).
    { induction n as [|n (m1 & H1 & E1)]; [exists m; split; [constructor|reflexivity]|].
      destruct (mmoves_shape _ _ _ _ E1 H) as (m2 & H2 & E2). exists m2. split; [|congruence].
      replace (S n * S j) with (n * S j + S j) by lia. eapply mmoves_app; eassumption. }
    intros k. destruct (Hn k) as (m1 & H1 & _). apply (mmoves_part (k * S j) k m m1); [nia|assumption].
  Qed.

  Notation R := (length (g_rules g)).

  Lemma heads_bound (seen : list V) : NoDup seen -> (forall v, In v seen -> exists bd, rule g v bd) -> length seen <= R.
  Proof.
    intros Hn Hs. rewrite <- (map_length fst (g_rules g)). apply NoDup_incl_length; [assumption|].
    intros v Hv. destruct (Hs v Hv) as (bd & bds & H1 & _). apply in_map_iff. exists (v, bds). auto.
  Qed.

  Lemma long_circle k : forall st rem m seen, NoDup seen -> (forall v, In v seen -> exists bd, rule g v bd) ->
    (forall v, In v seen -> exists j st0, mmoves j (st0, rem) (st, rem) /\ map fst st0 = Var v :: tl (map fst st)) ->
    mmoves k (st, rem) m -> (2 * length rem + length st) * (R + 1) + (R - length seen) < k ->
    exists i m1 j m2, mmoves i (st, rem) m1 /\ mmoves (S j) m1 m2 /\ shape m2 = shape m1.
  Proof.
    induction k as [|k IH]; intros st rem m seen Hnd Hrules Hseen H Hk; [lia|].
    inversion H as [|? ? m1 ? H1 H2]; subst.
    assert (Hstep : (exists i m2 j m3, mmoves i m1 m2 /\ mmoves (S j) m2 m3 /\ shape m3 = shape m2) ->
      exists i m2 j m3, mmoves i (st, rem) m2 /\ mmoves (S j) m2 m3 /\ shape m3 = shape m2).
    { intros (i & m2 & j & m3 & Hi & Hj & E). exists (S i), m2, j, m3. split; [econstructor; eassumption|auto]. }
    inversion H1 as [st0 t ts t' h a r Hl Ht Ea Eb|popped st0 t ts t' h bd h' a r Hl Hf Ht Hlen Hl' Ea Eb]; subst; apply Hstep; clear Hstep.
    - apply (IH _ _ m []); [constructor|intros v []|intros v []|assumption|]. cbn [length] in *. nia.
    - pose proof (body_nonempty g Hgood _ _ _ Hl) as Hne. pose proof (lr0_rule g _ _ _ _ Hl) as Hr. rewrite app_nil_r in Hr.
      destruct popped as [|x popped]; [destruct bd; [congruence|discriminate Hlen]|]. destruct popped as [|y popped].
      + cbn [app] in *. cbn [map tl fst] in Hseen. destruct (in_dec (fun x y => Bool.reflect_dec _ _ (Bool.iff_reflect _ _ (iff_sym (eqb_eq x y)))) h seen) as [Hin|Hin].
        * destruct (Hseen h Hin) as (j & st1 & Hj & Es).
          assert (Hcyc : mmoves (j + 1) (st1, t :: ts) ((Var h, Node (Var h) (map snd [x])) :: st0, t :: ts)).
          { eapply mmoves_app; [exact Hj|]. econstructor; [exact H1|constructor]. }
          replace (j + 1) with (S j) in Hcyc by lia.
          assert (Esh : shape ((Var h, Node (Var h) (map snd [x])) :: st0, t :: ts) = shape (st1, t :: ts)).
          { unfold SpecCircle.shape. cbn. rewrite Es. reflexivity. }
          destruct (mmoves_shape _ _ _ _ Esh Hcyc) as (m2 & Hm2 & E2). eexists 0, _, j, m2. split; [constructor|]. split; [exact Hm2|]. congruence.
        * assert (Hnd' : NoDup (h :: seen)) by (constructor; assumption).
          assert (Hrules' : forall v, In v (h :: seen) -> exists bd, rule g v bd) by (intros v [<-|Hv]; eauto).
          pose proof (heads_bound (h :: seen) Hnd' Hrules') as Hle. cbn [length] in Hle.
          apply (IH _ _ m (h :: seen)); [assumption|assumption| |assumption|cbn [length] in *; nia].
          intros v [<-|Hv].
          -- eexists 0, _. split; [constructor|reflexivity].
          -- destruct (Hseen v Hv) as (j & st1 & Hj & Es). exists (j + 1), st1. split; [|assumption].
             eapply mmoves_app; [exact Hj|]. econstructor; [exact H1|constructor].
      + apply (IH _ _ m []); [constructor|intros v []|intros v []|assumption|]. rewrite app_length in Hk. cbn [length] in *. nia.
  Qed.
End Linear.

Section Final.
  Context {V T : Type} {dv : DecEq V} {dt : DecEq T} {ho : HashOrder}.
  Variable teq : T -> T -> bool.
  Hypothesis Hteq : lawful teq.
  Variable g : grammar V T.
  Hypothesis Hb : built g.

  Lemma long_initial ts k m : mmoves teq g k (initial ts) m -> (2 * length ts + 1) * (length (g_rules g) + 1) <= k ->
    circles teq g (initial ts).
  Proof.
    intros H Hk. apply (long_circle teq g (built_good g Hb) k [] ts m []); [constructor|intros v []|intros v []|exact H|cbn; nia].
  Qed.

  Lemma parse_circle fuel p tb ts : slr_new teq fuel p g = Val tb ->
    ((forall fuel', parse teq fuel' tb ts = Diverge) <-> circles teq g (initial ts)).
  Proof.
    intros H. destruct (slr_new_parts teq Hteq g Hb _ _ _ H) as (c & fs & _ & Hc & Hf & Ht).
    edestruct (machine_ok teq Hteq g (built_good g Hb) c Hc fs Hf tb Ht ts) as (_ & _ & M3 & _). rewrite M3. split.
    - intros Hk. destruct (Hk ((2 * length ts + 1) * (length (g_rules g) + 1))) as (m & Hm). exact (long_initial ts _ m Hm (le_n _)).
    - intros (i & m1 & j & m2 & Hi & Hj & E) k. destruct (circle_forever teq g j m1 m2 Hj E k) as (m3 & H3).
      apply (mmoves_part teq g (i + k) k _ m3); [lia|]. eapply mmoves_app; eassumption.
  Qed.

  Lemma parse_linear fuel p tb ts fuel' : slr_new teq fuel p g = Val tb ->
    (2 * length ts + 1) * (length (g_rules g) + 1) + 1 <= fuel' ->
    parse teq fuel' tb ts = parse teq ((2 * length ts + 1) * (length (g_rules g) + 1) + 1) tb ts.
  Proof.
    intros H Hle. set (B := (2 * length ts + 1) * (length (g_rules g) + 1)) in *.
    destruct (slr_new_parts teq Hteq g Hb _ _ _ H) as (c & fs & _ & Hc & Hf & Ht). pose proof (built_good g Hb) as Hgood.
    destruct (run_cases teq Hteq g Hgood c Hc fs Hf tb Ht B [] ts (stack0 tb) (held_nil c tb)) as [(m & Hm)|(j & st & rem & sm & Hj & Hm & Hh & Hcase)].
    - pose proof (proj2 (parse_circle fuel p tb ts H) (long_initial ts B m Hm (le_n _))) as Hd. rewrite !Hd. reflexivity.
    - destruct (held_mmoves teq Hteq g c Hc fs Hf tb Ht j [] ts (stack0 tb) _ (held_nil c tb) Hm) as (sm' & Hh' & E). cbn [fst snd] in Hh', E.
      assert (Hst : exists r, r <> Diverge /\ stops teq tb rem sm' r).
      { destruct Hcase as [(n & Ha & _)|[Hs _]].
        - exists (Val (Some n)). split; [discriminate|]. exact (proj2 (maccepts_stops teq Hteq g c Hc fs Hf tb Ht _ _ _ _ Hh' Ha)).
        - destruct (stuck_stops teq g Hgood c Hc fs Hf tb Ht _ _ _ Hh' Hs) as [Hx|Hx]; (eexists; split; [|exact Hx]; discriminate). }
      destruct Hst as (r & Hr & Hs).
      assert (Hrun : forall f, 2 + j <= f -> parse teq f tb ts = r).
      { intros f Hf'. rewrite parse_ploop. replace f with (j + (f - j)) by lia. rewrite E. apply (stops_ploop teq tb); assumption. }
      assert (HjB : j < B).
      { destruct (Nat.eq_dec j B) as [->|]; [exfalso|lia]. apply Hr. rewrite <- (Hrun (2 + B) (le_n _)).
        exact (proj2 (parse_circle fuel p tb ts H) (long_initial ts B _ Hm (le_n _)) _). }
      rewrite !Hrun by lia. reflexivity.
  Qed.
End Final.
