(** Renaming the symbols of a grammar renames its items, FOLLOW sets, conflicts
    and parses. *)
From Verif Require Import Base GrammarModel CfsmModel SlrModel SpecCfg SpecMachine SpecCircle SpecRename GrammarProofs FirstProofs FollowProofs GrammarTotal
  ItemProofs CfsmProofs CfsmCorrect TableProofs SlrTable SlrNew SlrRun SlrMoves SlrSim SlrAll SlrFinal SlrMachine SlrLinear.

Section Transport.
  Context {V T V' T' : Type}.
  Variable f : V -> V'.
  Variable h : T -> T'.
  Hypothesis Hf : injective f.
  Hypothesis Hh : injective h.
  Variable teq : T -> T -> bool.
  Variable teq' : T' -> T' -> bool.
  Hypothesis Hteq : forall x y, teq' (h x) (h y) = teq x y.
  Variable g : grammar V T.
  Variable g' : grammar V' T'.
  Hypothesis Hg : renamed f h g g'.
  Notation rs := (rename_symbol f h).
  Notation rb := (rename_body f h).
  Notation rn := (rename_node f h).

  Lemma rs_inj x y : rs x = rs y -> x = y.
  Proof. destruct x, y; cbn; intros E; try discriminate; try (injection E as E); f_equal; auto. Qed.

  Lemma rb_inj : forall x y, rb x = rb y -> x = y.
  Proof.
    induction x as [|a x IH]; intros [|b y] E; cbn in E; try discriminate; auto. injection E as E1 E2. f_equal; [apply rs_inj; auto|auto].
  Qed.

  Lemma rb_app x y : rb (x ++ y) = rb x ++ rb y.
  Proof. apply map_app. Qed.

  Lemma rb_split x : forall a b, rb x = a ++ b -> exists a0 b0, x = a0 ++ b0 /\ a = rb a0 /\ b = rb b0.
  Proof.
    induction x as [|s x IH]; intros a b E; cbn in E.
    - destruct a; [|discriminate]. destruct b; [|discriminate]. exists [], []. auto.
    - destruct a as [|s' a]; cbn in E.
      + exists [], (s :: x). auto.
      + injection E as <- E. destruct (IH _ _ E) as (a0 & b0 & -> & -> & ->). exists (s :: a0), b0. auto.
  Qed.

  Lemma rb_cons x s' b : rb x = s' :: b -> exists s b0, x = s :: b0 /\ s' = rs s /\ b = rb b0.
  Proof. destruct x as [|s x]; cbn; intros E; [discriminate|]. injection E as <- <-. eauto. Qed.

  Lemma rs_ter s t' : rs s = Ter t' -> exists t, s = Ter t /\ t' = h t.
  Proof. destruct s; cbn; intros E; try discriminate. injection E as <-. eauto. Qed.
  Lemma rs_var s v' : rs s = Var v' -> exists v, s = Var v /\ v' = f v.
  Proof. destruct s; cbn; intros E; try discriminate. injection E as <-. eauto. Qed.
  Lemma rs_eps s : rs s = Eps -> s = Eps.
  Proof. destruct s; cbn; intros E; try discriminate. auto. Qed.

  Lemma rule_to v bd : rule g v bd -> rule g' (f v) (rb bd).
  Proof. intros H. apply Hg. eauto. Qed.
  Lemma rule_from v' bd' : rule g' v' bd' -> exists v bd, v' = f v /\ bd' = rb bd /\ rule g v bd.
  Proof. apply Hg. Qed.
  Lemma start_same : g_start g' = f (g_start g).
  Proof. apply Hg. Qed.
  Lemma rule_at v bd' : rule g' (f v) bd' -> exists bd, bd' = rb bd /\ rule g v bd.
  Proof. intros H. destruct (rule_from _ _ H) as (v0 & bd & E & -> & Hr). apply Hf in E. subst v0. eauto. Qed.

  (** Derivations *)
  Lemma steps_to x y : steps g x y -> steps g' (rb x) (rb y).
  Proof.
    induction 1 as [x|x y z H IH Hs]; [constructor|]. eapply steps_next; [exact IH|]. destruct Hs.
    - rewrite !rb_app. cbn [rename_body map rename_symbol]. apply step_rule. apply rule_to. assumption.
    - rewrite !rb_app. cbn [rename_body map rename_symbol]. apply step_eps.
  Qed.

  Lemma steps_from x y' : steps g' (rb x) y' -> exists y, y' = rb y /\ steps g x y.
  Proof.
    intros H. remember (rb x) as x' eqn:E. induction H as [x'|x' y' z' H IH Hs]; [subst; eexists; split; [reflexivity|constructor]|].
    destruct (IH E) as (y & -> & Hy). inversion Hs as [l v bd r Hr E1 E2|l r E1 E2].
    - symmetry in E1. apply rb_split in E1. destruct E1 as (l0 & q & -> & -> & E1). symmetry in E1. apply rb_cons in E1. destruct E1 as (s & r0 & -> & E1 & ->).
      symmetry in E1. apply rs_var in E1. destruct E1 as (v0 & -> & ->). apply rule_at in Hr. destruct Hr as (bd0 & -> & Hr).
      exists (l0 ++ bd0 ++ r0). rewrite !rb_app. split; auto. eapply steps_next; [exact Hy|]. constructor. assumption.
    - symmetry in E1. apply rb_split in E1. destruct E1 as (l0 & q & -> & -> & E1). symmetry in E1. apply rb_cons in E1. destruct E1 as (s & r0 & -> & E1 & ->).
      symmetry in E1. apply rs_eps in E1. subst s.
      exists (l0 ++ r0). rewrite !rb_app. split; auto. eapply steps_next; [exact Hy|]. constructor.
  Qed.

  Lemma followed_to v t : followed_by g v t -> followed_by g' (f v) (h t).
  Proof.
    intros (x & l & r & (bd & Hr) & Hs). exists (f x), (rb l), (rb r). split; [eexists; apply rule_to; eassumption|].
    apply steps_to in Hs. rewrite rb_app in Hs. exact Hs.
  Qed.
  Lemma followed_from v' t' : followed_by g' v' t' -> exists v t, v' = f v /\ t' = h t /\ followed_by g v t.
  Proof.
    intros (x' & l & r & (bd' & Hr) & Hs). apply rule_from in Hr. destruct Hr as (x & bd & -> & -> & Hr).
    apply (steps_from [Var x]) in Hs. destruct Hs as (y & E & Hs). symmetry in E. apply rb_split in E. destruct E as (l0 & q & -> & -> & E).
    symmetry in E. apply rb_cons in E. destruct E as (s & r0 & -> & E & E2). symmetry in E. apply rs_var in E. destruct E as (v & -> & ->).
    symmetry in E2. apply rb_cons in E2. destruct E2 as (s & r1 & -> & E & ->). symmetry in E. apply rs_ter in E. destruct E as (t & -> & ->).
    exists v, t. split; auto. split; auto. exists x, l0, r1. split; eauto.
  Qed.
  Lemma followed_at v t : followed_by g' (f v) (h t) -> followed_by g v t.
  Proof. intros H. destruct (followed_from _ _ H) as (v0 & t0 & E1 & E2 & H0). apply Hf in E1. apply Hh in E2. subst. exact H0. Qed.

  Lemma empty_to x : derives_empty g x -> derives_empty g' (rb x).
  Proof. apply steps_to. Qed.
  Lemma empty_from x : derives_empty g' (rb x) -> derives_empty g x.
  Proof. intros H. apply steps_from in H. destruct H as (y & E & H). destruct y; [exact H|discriminate]. Qed.

  Lemma possible_to v : entry_possible g v -> entry_possible g' (f v).
  Proof.
    induction 1 as [k l v r Hr Hne|k l v r Hr He H IH]; apply rule_to in Hr; rewrite rb_app in Hr.
    - eapply entry_direct; [exact Hr|]. destruct r; [congruence|discriminate].
    - eapply entry_up; [exact Hr|apply empty_to; exact He|exact IH].
  Qed.
  Lemma rule_mid k' l' v' r' : rule g' k' (l' ++ Var v' :: r') ->
    exists k l v r, k' = f k /\ l' = rb l /\ v' = f v /\ r' = rb r /\ rule g k (l ++ Var v :: r).
  Proof.
    intros Hr. apply rule_from in Hr. destruct Hr as (k & bd & -> & E & Hr). symmetry in E. apply rb_split in E. destruct E as (l & q & -> & -> & E).
    symmetry in E. apply rb_cons in E. destruct E as (s & r & -> & E & ->). symmetry in E. apply rs_var in E. destruct E as (v & -> & ->).
    exists k, l, v, r. auto.
  Qed.
  Lemma possible_from v' : entry_possible g' v' -> exists v, v' = f v /\ entry_possible g v.
  Proof.
    induction 1 as [k' l' v' r' Hr Hne|k' l' v' r' Hr He H IH]; apply rule_mid in Hr; destruct Hr as (k & l & v & r & -> & -> & -> & -> & Hr).
    - exists v. split; auto. eapply entry_direct; [exact Hr|]. intros ->. apply Hne. reflexivity.
    - destruct IH as (k0 & E & IH). apply Hf in E. subst k0. exists v. split; auto. eapply entry_up; [exact Hr|apply empty_from; exact He|exact IH].
  Qed.
  Lemma sure_to v : entry_sure g v -> entry_sure g' (f v).
  Proof.
    intros [(k & l & r & Hr & Hne)|[(t & Ht)|(k & l & k' & l' & r' & Hr & Hr' & Hne)]].
    - left. apply rule_to in Hr. rewrite rb_app in Hr. eexists _, _, _. split; [exact Hr|]. destruct r; [congruence|discriminate].
    - right. left. exists (h t). apply followed_to. exact Ht.
    - right. right. apply rule_to in Hr, Hr'. rewrite rb_app in Hr, Hr'. do 5 eexists. split; [exact Hr|]. split; [exact Hr'|].
      destruct r'; [congruence|discriminate].
  Qed.
  Lemma sure_from v : entry_sure g' (f v) -> entry_sure g v.
  Proof.
    intros [(k' & l' & r' & Hr & Hne)|[(t' & Ht)|(k' & l' & k2' & l2' & r' & Hr & Hr2 & Hne)]].
    - left. apply rule_mid in Hr. destruct Hr as (k & l & v0 & r & -> & -> & E & -> & Hr). apply Hf in E. subst v0.
      exists k, l, r. split; auto. intros ->. apply Hne. reflexivity.
    - right. left. destruct (followed_from _ _ Ht) as (v0 & t & E & -> & H0). apply Hf in E. subst v0. eauto.
    - right. right. apply rule_mid in Hr, Hr2. destruct Hr as (k & l & v0 & r & -> & -> & E & E' & Hr). apply Hf in E. subst v0.
      destruct Hr2 as (k2 & l2 & v0 & r2 & -> & -> & E & -> & Hr2). apply Hf in E. subst v0.
      destruct r; [|discriminate]. exists k, l, k2, l2, r2. split; auto. split; auto. intros ->. apply Hne. reflexivity.
  Qed.

  (** Items *)
  Definition rd (d : dotted V T) : dotted V' T' := let '(v, a, b) := d in (f v, rb a, rb b).

  Lemma rd_inj d d' : rd d = rd d' -> d = d'.
  Proof. destruct d as [[v a] b], d' as [[v' a'] b']. cbn. intros E. injection E as E1 E2 E3. apply Hf in E1. apply rb_inj in E2, E3. congruence. Qed.

  Lemma skip_to x y : skip_eps x y -> skip_eps (rb (fst x), rb (snd x)) (rb (fst y), rb (snd y)).
  Proof.
    induction 1 as [a b H|a b x H IH]; cbn [fst snd] in *.
    - constructor. intros b' E. apply rb_cons in E. destruct E as (s & b0 & -> & E & ->). symmetry in E. apply rs_eps in E. subst s. eapply H; reflexivity.
    - rewrite rb_app in IH. cbn. constructor. exact IH.
  Qed.
  Lemma skip_from x' y' : skip_eps x' y' -> forall a b, x' = (rb a, rb b) -> exists a0 b0, y' = (rb a0, rb b0) /\ skip_eps (a, b) (a0, b0).
  Proof.
    induction 1 as [a' b' H|a' b' y' H IH]; intros a b E; injection E as E1 E2.
    - subst. exists a, b. split; auto. constructor. intros b0 ->. eapply H. reflexivity.
    - symmetry in E2. apply rb_cons in E2. destruct E2 as (s & b0 & -> & E & ->). symmetry in E. apply rs_eps in E. subst s a'.
      destruct (IH (a ++ [Eps]) b0) as (a1 & b1 & -> & Hs); [rewrite rb_app; reflexivity|]. exists a1, b1. split; auto. constructor. exact Hs.
  Qed.

  Lemma lr0_to w d : lr0 g w d -> lr0 g' (rb w) (rd d).
  Proof.
    induction 1 as [bd a b Hr Hs|w k a v r bd a' b' H IH Hr Hs|w k a s r a' b' H IH Hs]; apply skip_to in Hs; cbn [fst snd rd] in *.
    - rewrite <- start_same. eapply lr0_start; [|exact Hs]. rewrite start_same. apply rule_to. exact Hr.
    - eapply lr0_close; [exact IH|apply rule_to; exact Hr|exact Hs].
    - rewrite rb_app in *. eapply lr0_goto; [exact IH|exact Hs].
  Qed.
  Lemma lr0_from w' d' : lr0 g' w' d' -> exists w d, w' = rb w /\ d' = rd d /\ lr0 g w d.
  Proof.
    induction 1 as [bd' a' b' Hr Hs|w' k' a' v' r' bd' a1 b1 H IH Hr Hs|w' k' a' s' r' a1 b1 H IH Hs].
    - rewrite start_same in *. apply rule_at in Hr. destruct Hr as (bd & -> & Hr). destruct (skip_from _ _ Hs [] bd eq_refl) as (a0 & b0 & E & Hs0).
      injection E as -> ->. exists [], (g_start g, a0, b0). split; auto. split; auto. eapply lr0_start; eauto.
    - destruct IH as (w & [[k a] b] & -> & E & H0). injection E as -> -> E. symmetry in E. apply rb_cons in E. destruct E as (s & r & -> & E & ->).
      symmetry in E. apply rs_var in E. destruct E as (v & -> & ->). apply rule_at in Hr. destruct Hr as (bd & -> & Hr).
      destruct (skip_from _ _ Hs [] bd eq_refl) as (a0 & b0 & E & Hs0). injection E as -> ->.
      exists w, (v, a0, b0). split; auto. split; auto. eapply lr0_close; eauto.
    - destruct IH as (w & [[k a] b] & -> & E & H0). injection E as -> -> E. symmetry in E. apply rb_cons in E. destruct E as (s & r & -> & -> & ->).
      destruct (skip_from _ _ Hs (a ++ [s]) r) as (a0 & b0 & E & Hs0); [rewrite rb_app; reflexivity|]. injection E as -> ->.
      exists (w ++ [s]), (k, a0, b0). rewrite rb_app. split; auto. split; auto. eapply lr0_goto; eauto.
  Qed.
  Lemma lr0_at w d' : lr0 g' (rb w) d' -> exists d, d' = rd d /\ lr0 g w d.
  Proof. intros H. destruct (lr0_from _ _ H) as (w0 & d & E & -> & H0). apply rb_inj in E. subst w0. eauto. Qed.
  Lemma lr0_done w k' a' : lr0 g' (rb w) (k', a', []) -> exists k a, k' = f k /\ a' = rb a /\ lr0 g w (k, a, []).
  Proof.
    intros H. destruct (lr0_at _ _ H) as ([[k a] b] & E & H0). injection E as -> -> E. destruct b; [|discriminate]. eauto.
  Qed.
  Lemma lr0_ter w k' a' t' r' : lr0 g' (rb w) (k', a', Ter t' :: r') ->
    exists k a t r, k' = f k /\ a' = rb a /\ t' = h t /\ r' = rb r /\ lr0 g w (k, a, Ter t :: r).
  Proof.
    intros H. destruct (lr0_at _ _ H) as ([[k a] b] & E & H0). injection E as -> -> E. symmetry in E. apply rb_cons in E. destruct E as (s & r & -> & E & ->).
    symmetry in E. apply rs_ter in E. destruct E as (t & -> & ->). exists k, a, t, r. auto.
  Qed.
  Lemma lr0_var w k' a' v' r' : lr0 g' (rb w) (k', a', Var v' :: r') ->
    exists k a v r, k' = f k /\ a' = rb a /\ v' = f v /\ r' = rb r /\ lr0 g w (k, a, Var v :: r).
  Proof.
    intros H. destruct (lr0_at _ _ H) as ([[k a] b] & E & H0). injection E as -> -> E. symmetry in E. apply rb_cons in E. destruct E as (s & r & -> & E & ->).
    symmetry in E. apply rs_var in E. destruct E as (t & -> & ->). exists k, a, t, r. auto.
  Qed.

  (** Conflicts *)
  Definition rk (k : option T) : option T' := option_map h k.
  Lemma rk_inj k k' : rk k = rk k' -> k = k'.
  Proof. destruct k, k'; cbn; intros E; try discriminate; auto. injection E as E. f_equal. auto. Qed.

  Lemma wants_to (e e' : Prop) w d k : (e -> e') -> wants g e w d k -> wants g' e' (rb w) (rd d) (rk k).
  Proof.
    intros He [H1 H2]. split; [apply lr0_to; exact H1|]. destruct d as [[v a] [|[t|x|] r]], k as [t'|]; cbn in *; try tauto.
    - apply followed_to. exact H2.
    - destruct H2 as [-> H2]. split; auto. symmetry. apply start_same.
    - congruence.
  Qed.
  Lemma wants_from (e e' : Prop) w' d' k' : (e' -> e) -> wants g' e' w' d' k' ->
    exists w d k, w' = rb w /\ d' = rd d /\ k' = rk k /\ wants g e w d k.
  Proof.
    intros He [H1 H2]. destruct (lr0_from _ _ H1) as (w & d & -> & -> & H0). exists w, d.
    destruct d as [[v a] [|[t|x|] r]], k' as [t'|]; cbn in H2; try tauto.
    - apply followed_from in H2. destruct H2 as (v0 & t & E & -> & H2). apply Hf in E. subst v0. exists (Some t). repeat (split; [reflexivity|]). split; auto.
    - destruct H2 as [E H2]. rewrite start_same in E. apply Hf in E. subst v. exists None. repeat (split; [reflexivity|]). split; cbn; auto.
    - subst t'. exists (Some t). repeat (split; [reflexivity|]). split; cbn; auto.
  Qed.
  Lemma same_key_rk k k' : same_key teq' (rk k) (rk k') <-> same_key teq k k'.
  Proof. destruct k, k'; cbn; rewrite ?Hteq; tauto. Qed.

  Lemma clash_to (e e' : Prop) : (e -> e') -> clash g teq e -> clash g' teq' e'.
  Proof.
    intros He (w & d & k & d' & k' & H1 & H2 & Hne & Hk). exists (rb w), (rd d), (rk k), (rd d'), (rk k').
    split; [eapply wants_to; eauto|]. split; [eapply wants_to; eauto|]. split; [|apply same_key_rk; auto].
    intros E. injection E as E1 E2. apply rd_inj in E1. apply rk_inj in E2. congruence.
  Qed.
  Lemma clash_from (e e' : Prop) : (e' -> e) -> clash g' teq' e' -> clash g teq e.
  Proof.
    intros He (w & d & k & d' & k' & H1 & H2 & Hne & Hk).
    destruct (wants_from e _ _ _ _ He H1) as (w0 & d0 & k0 & -> & -> & -> & W1).
    destruct (wants_from e _ _ _ _ He H2) as (w1 & d1 & k1 & E & -> & -> & W2). apply rb_inj in E. subst w1.
    exists w0, d0, k0, d1, k1. split; auto. split; auto. split; [congruence|apply same_key_rk; auto].
  Qed.

  (** The machine *)
  Definition rst (st : stack V T) : stack V' T' := map (fun e => (rs (fst e), rn (snd e))) st.
  Definition rc (m : config V T) : config V' T' := (rst (fst m), map h (snd m)).

  Lemma word_rst st : word (rst st) = rb (word st).
  Proof. unfold word, rst, rename_body. rewrite map_rev, !map_map. reflexivity. Qed.
  Lemma snd_rst st : map snd (rst st) = map rn (map snd st).
  Proof. unfold rst. rewrite !map_map. reflexivity. Qed.
  Lemma rst_app a b : rst (a ++ b) = rst a ++ rst b.
  Proof. apply map_app. Qed.
  Lemma rst_length a : length (rst a) = length a.
  Proof. apply map_length. Qed.
  Lemma rb_length a : length (rb a) = length a.
  Proof. apply map_length. Qed.
  Lemma rst_split st : forall a b, rst st = a ++ b -> exists a0 b0, st = a0 ++ b0 /\ a = rst a0 /\ b = rst b0.
  Proof.
    induction st as [|s x IH]; intros a b E; cbn in E.
    - destruct a; [|discriminate]. destruct b; [|discriminate]. exists [], []. auto.
    - destruct a as [|s' a]; cbn in E.
      + exists [], (s :: x). auto.
      + injection E as <- E. destruct (IH _ _ E) as (a0 & b0 & -> & -> & ->). exists (s :: a0), b0. auto.
  Qed.

  Lemma mmove_to m m1 : mmove teq g m m1 -> mmove teq' g' (rc m) (rc m1).
  Proof.
    intros H. inversion H as [st t ts t' k a r Hl Ht|popped st t ts t' k bd k' a r Hl Hfo Ht Hlen Hl']; subst; unfold rc; cbn [fst snd map].
    - cbn [rst map fst snd rename_node rename_symbol]. eapply mmove_shift; [rewrite word_rst; apply lr0_to in Hl; exact Hl|rewrite Hteq; exact Ht].
    - cbn [rst map fst snd rename_node rename_symbol]. fold (rst st) (rst (popped ++ st)). rewrite rst_app, <- (snd_rst popped).
      eapply (mmove_reduce _ _ (rst popped) (rst st) (h t) (map h ts) (h t') (f k) (rb bd)).
      + rewrite <- rst_app, word_rst. apply lr0_to in Hl. exact Hl.
      + apply followed_to. exact Hfo.
      + rewrite Hteq. exact Ht.
      + rewrite rst_length, rb_length. exact Hlen.
      + rewrite word_rst. apply lr0_to in Hl'. exact Hl'.
  Qed.
  Lemma mmove_from m m' : mmove teq' g' (rc m) m' -> exists m1, m' = rc m1 /\ mmove teq g m m1.
  Proof.
    destruct m as [st0 ts0]. unfold rc. cbn [fst snd]. intros H.
    inversion H as [st t ts t' k a r Hl Ht E1 E2|popped st t ts t' k bd k' a r Hl Hfo Ht Hlen Hl' E1 E2].
    - subst st. match goal with H : _ = map h ts0 |- _ => rename H into E3 end. destruct ts0 as [|t0 ts0]; [discriminate|]. injection E3 as -> ->. rewrite word_rst in Hl. apply lr0_ter in Hl.
      destruct Hl as (k0 & a0 & t1 & r0 & -> & -> & -> & -> & Hl). rewrite Hteq in Ht.
      exists ((Ter t1, Node (Ter t0) []) :: st0, ts0). split; [reflexivity|]. eapply mmove_shift; eauto.
    - match goal with H : _ = map h ts0 |- _ => rename H into E3 end. match goal with H : _ = rst st0 |- _ => rename H into E4 end.
      symmetry in E4. apply rst_split in E4. destruct E4 as (p0 & s0 & -> & -> & ->). destruct ts0 as [|t0 ts0]; [discriminate|]. injection E3 as -> ->.
      rewrite <- rst_app, word_rst in Hl. apply lr0_done in Hl. destruct Hl as (k0 & bd0 & -> & -> & Hl).
      rewrite word_rst in Hl'. apply lr0_var in Hl'. destruct Hl' as (k1 & a0 & v0 & r0 & -> & -> & E & -> & Hl'). apply Hf in E. subst v0.
      apply followed_from in Hfo. destruct Hfo as (v0 & t1 & E & -> & Hfo). apply Hf in E. subst v0. rewrite Hteq in Ht.
      rewrite rst_length, rb_length in Hlen. rewrite snd_rst.
      exists ((Var k0, Node (Var k0) (map snd p0)) :: s0, t0 :: ts0). split; [reflexivity|]. eapply mmove_reduce; eauto.
  Qed.
  Lemma mmoves_to k m m1 : mmoves teq g k m m1 -> mmoves teq' g' k (rc m) (rc m1).
  Proof. induction 1; [constructor|]. econstructor; [apply mmove_to; eassumption|assumption]. Qed.
  Lemma mmoves_from k : forall m m', mmoves teq' g' k (rc m) m' -> exists m1, m' = rc m1 /\ mmoves teq g k m m1.
  Proof.
    induction k as [|k IH]; intros m m' H; inversion H; subst.
    - exists m. split; [reflexivity|constructor].
    - match goal with H1 : mmove _ _ _ _, H2 : mmoves _ _ _ _ _ |- _ => apply mmove_from in H1; destruct H1 as (m2 & -> & H1); apply IH in H2; destruct H2 as (m3 & -> & H2) end.
      exists m3. split; auto. econstructor; eauto.
  Qed.

  Lemma maccepts_to (e e' : Prop) m n : (e -> e') -> maccepts g e m n -> maccepts g' e' (rc m) (rn n).
  Proof.
    destruct m as [st ts]. intros He (-> & H1 & bd & Hl & Hlen & ->). split; auto. split; auto. exists (rb bd).
    split; [rewrite start_same; change (fst ([], @nil T)) with (@nil (symbol V T)); cbn [fst]; rewrite word_rst; apply lr0_to in Hl; exact Hl|].
    cbn [fst]. rewrite rb_length, rst_length. split; auto. cbn [rename_node rename_symbol]. rewrite start_same. f_equal.
    rewrite <- firstn_map, map_app, snd_rst. unfold bottom. rewrite start_same. reflexivity.
  Qed.
  Lemma maccepts_from (e e' : Prop) m n' : (e' -> e) -> maccepts g' e' (rc m) n' -> exists n, n' = rn n /\ maccepts g e m n.
  Proof.
    destruct m as [st ts]. intros He (E & H1 & bd & Hl & Hlen & ->). cbn [fst snd] in *. destruct ts; [|discriminate].
    rewrite word_rst in Hl. apply lr0_done in Hl. destruct Hl as (k0 & bd0 & E1 & -> & Hl). rewrite start_same in E1. apply Hf in E1. subst k0.
    rewrite rb_length, rst_length in *. exists (Node (Var (g_start g)) (firstn (length bd0) (map snd st ++ [bottom g]))). split.
    - cbn [rename_node rename_symbol]. rewrite start_same. f_equal. rewrite <- firstn_map, map_app, snd_rst. unfold bottom. rewrite start_same. reflexivity.
    - split; auto. split; auto. exists bd0. auto.
  Qed.
  Lemma mstuck_to (e e' : Prop) m : (e <-> e') -> mstuck teq g e m -> mstuck teq' g' e' (rc m).
  Proof.
    intros He [H1 H2]. split.
    - intros m' Hm. apply mmove_from in Hm. destruct Hm as (m1 & _ & Hm). exact (H1 _ Hm).
    - intros n' Hn. apply (maccepts_from e) in Hn; [|tauto]. destruct Hn as (n & _ & Hn). exact (H2 _ Hn).
  Qed.
End Transport.

Section Parser.
  Context {V T V' T' : Type} {dv : DecEq V} {dt : DecEq T} {dv' : DecEq V'} {dt' : DecEq T'}.
  Variable f : V -> V'.
  Variable h : T -> T'.
  Hypothesis Hf : injective f.
  Hypothesis Hh : injective h.
  Variable teq : T -> T -> bool.
  Variable teq' : T' -> T' -> bool.
  Hypothesis Hl : lawful teq.
  Hypothesis Hl' : lawful teq'.
  Hypothesis Hteq : forall x y, teq' (h x) (h y) = teq x y.
  Variable g : grammar V T.
  Variable g' : grammar V' T'.
  Hypothesis Hb : built g.
  Hypothesis Hb' : built g'.
  Hypothesis Hg : renamed f h g g'.
  Hypothesis Hent : entry_possible g (g_start g) -> entry_sure g (g_start g).
  Variables ho ho' : HashOrder.

  Lemma parse_renamed fuel p tb fuel' p' tb' ts :
    slr_new teq (ho := ho) fuel p g = Val tb -> slr_new teq' (ho := ho') fuel' p' g' = Val tb' ->
    exists n, forall k, n <= k -> agree (rename_result f h (parse teq k tb ts)) (parse teq' k tb' (map h ts)).
  Proof.
    intros H H'.
    destruct (parser_machine (ho := ho) teq Hl g Hb _ _ _ H) as (e & Es & Ep & M).
    destruct (parser_machine (ho := ho') teq' Hl' g' Hb' _ _ _ H') as (e' & Es' & Ep' & M').
    assert (Hee : e <-> e').
    { split; intros He.
      - apply Es'. rewrite (start_same f h g g' Hg). apply (sure_to f h g g' Hg). auto.
      - apply Es. apply Hent. specialize (Ep' He). rewrite (start_same f h g g' Hg) in Ep'.
        destruct (possible_from f h Hf g g' Hg _ Ep') as (v & E & Hv). apply Hf in E. subst v. exact Hv. }
    destruct (M ts) as (M1 & M2 & M3 & _). destruct (M' (map h ts)) as (N1 & N2 & N3 & _). clear M M'.
    set (B := Nat.max ((2 * length ts + 1) * (length (g_rules g) + 1) + 1) ((2 * length (map h ts) + 1) * (length (g_rules g') + 1) + 1)).
    destruct (parse teq B tb ts) as [[n|]| |] eqn:E.
    - destruct (proj1 (M1 n)) as (k & m & Hm & Ha); [eauto|].
      destruct (proj2 (N1 (rename_node f h n))) as (k' & E').
      { exists k, (rc f h m). split; [apply (mmoves_to f h teq teq' Hteq g g' Hg) in Hm; exact Hm|apply (maccepts_to f h g g' Hg e); [tauto|exact Ha]]. }
      exists (Nat.max B k'). intros k0 Hk. left. exists (rename_node f h n).
      rewrite (parse_stable teq tb B ts _ E) by (discriminate || lia). rewrite (parse_stable teq' tb' k' _ _ E') by (discriminate || lia). auto.
    - destruct (proj1 M2) as (k & m & Hm & Ha); [exists B; left; exact E|].
      destruct (proj2 N2) as (k' & E').
      { exists k, (rc f h m). split; [apply (mmoves_to f h teq teq' Hteq g g' Hg) in Hm; exact Hm|apply (mstuck_to f h Hf Hh teq teq' Hteq g g' Hg e); [tauto|exact Ha]]. }
      exists (Nat.max B k'). intros k0 Hk. right. left.
      rewrite (parse_stable teq tb B ts _ E) by (discriminate || lia). split; [left; reflexivity|].
      destruct E' as [E'|E']; rewrite (parse_stable teq' tb' k' _ _ E') by (discriminate || lia); [left|right]; reflexivity.
    - destruct (proj1 M2) as (k & m & Hm & Ha); [exists B; right; exact E|].
      destruct (proj2 N2) as (k' & E').
      { exists k, (rc f h m). split; [apply (mmoves_to f h teq teq' Hteq g g' Hg) in Hm; exact Hm|apply (mstuck_to f h Hf Hh teq teq' Hteq g g' Hg e); [tauto|exact Ha]]. }
      exists (Nat.max B k'). intros k0 Hk. right. left.
      rewrite (parse_stable teq tb B ts _ E) by (discriminate || lia). split; [right; reflexivity|].
      destruct E' as [E'|E']; rewrite (parse_stable teq' tb' k' _ _ E') by (discriminate || lia); [left|right]; reflexivity.
    - assert (D : forall k, parse teq k tb ts = Diverge).
      { intros k. destruct (parse teq k tb ts) as [o| |] eqn:E2; auto; exfalso.
        - pose proof (parse_stable teq tb k ts _ E2 ltac:(discriminate) (Nat.max k B) ltac:(lia)) as E3.
          rewrite (parse_linear (ho := ho) teq Hl g Hb _ _ _ ts (Nat.max k B) H) in E3 by lia.
          rewrite <- (parse_linear (ho := ho) teq Hl g Hb _ _ _ ts B H) in E3 by lia. congruence.
        - pose proof (parse_stable teq tb k ts _ E2 ltac:(discriminate) (Nat.max k B) ltac:(lia)) as E3.
          rewrite (parse_linear (ho := ho) teq Hl g Hb _ _ _ ts (Nat.max k B) H) in E3 by lia.
          rewrite <- (parse_linear (ho := ho) teq Hl g Hb _ _ _ ts B H) in E3 by lia. congruence. }
      assert (D' : forall k, parse teq' k tb' (map h ts) = Diverge).
      { apply N3. intros k. destruct (proj1 M3 D k) as (m & Hm). exists (rc f h m). apply (mmoves_to f h teq teq' Hteq g g' Hg) in Hm. exact Hm. }
      exists 0. intros k _. right. right. rewrite D, D'. auto.
  Qed.

  Lemma new_renamed p p' : exists n, forall fuel, n <= fuel ->
    (slr_new teq (ho := ho) fuel p g = Panic /\ slr_new teq' (ho := ho') fuel p' g' = Panic) \/
    exists tb tb', slr_new teq (ho := ho) fuel p g = Val tb /\ slr_new teq' (ho := ho') fuel p' g' = Val tb' /\
      forall ts, exists m, forall k, m <= k -> agree (rename_result f h (parse teq k tb ts)) (parse teq' k tb' (map h ts)).
  Proof.
    destruct (slr_new_total (ho := ho) teq Hl g Hb p) as (n1 & r1 & E1 & H1).
    destruct (slr_new_total (ho := ho') teq' Hl' g' Hb' p') as (n2 & r2 & E2 & H2).
    exists (Nat.max n1 n2). intros fuel Hfu. rewrite E1, E2 by lia.
    assert (Hent' : entry_possible g' (g_start g') -> entry_sure g (g_start g)).
    { intros Hp. apply Hent. rewrite (start_same f h g g' Hg) in Hp.
      destruct (possible_from f h Hf g g' Hg _ Hp) as (v & E & Hv). apply Hf in E. subst v. exact Hv. }
    destruct H1 as [[-> C1]|(tb1 & -> & C1)], H2 as [[-> C2]|(tb2 & -> & C2)]; auto.
    - destruct C2. eapply (clash_to f h Hf Hh teq teq' Hteq g g' Hg); [|exact C1]. intros Hp. rewrite (start_same f h g g' Hg). apply (sure_to f h g g' Hg). auto.
    - destruct C1. eapply (clash_from f h Hf Hh teq teq' Hteq g g' Hg); [|exact C2]. auto.
    - right. exists tb1, tb2. split; auto. split; auto. intros ts.
      eapply parse_renamed; [exact (E1 n1 (le_n _))|exact (E2 n2 (le_n _))].
  Qed.
End Parser.

Section Calls.
  Context {V T V' T' : Type} {dv : DecEq V} {dt : DecEq T} {dv' : DecEq V'} {dt' : DecEq T'}.
  Variable f : V -> V'.
  Variable h : T -> T'.
  Hypothesis Hf : injective f.

  Lemma closed_renamed cs cs' : renamed_calls f h cs cs' -> (closed_calls cs' <-> closed_calls cs).
  Proof.
    intros [Hs Hr].
    assert (Hh : forall v, has_rule cs' (f v) <-> has_rule cs v).
    { intros v. split; intros (bd & H).
      - apply Hr in H. destruct H as (v0 & bd0 & E & _ & H). apply Hf in E. subst v0. eexists; eauto.
      - eexists. apply Hr. eauto. }
    split.
    - intros (s' & E & H1 & H2). rewrite Hs in E. destruct (last_start cs) as [s|] eqn:Es; [|discriminate]. injection E as <-.
      exists s. split; auto. split; [apply Hh; auto|]. intros v bd x Ha Hi. apply Hh. apply (H2 (f v) (rename_body f h bd)); [apply Hr; eauto|].
      apply (in_map (rename_symbol f h)) in Hi. exact Hi.
    - intros (s & Es & H1 & H2). exists (f s). rewrite Hs, Es. split; auto. split; [apply Hh; auto|].
      intros v' bd' x' Ha Hi. apply Hr in Ha. destruct Ha as (v & bd & -> & -> & Ha). apply in_map_iff in Hi. destruct Hi as (s0 & E & Hi).
      destruct s0; try discriminate. injection E as <-. apply Hh. eauto.
  Qed.

  Lemma build_renamed cs cs' : renamed_calls f h cs cs' ->
    (build (do_calls cs) = Panic /\ build (do_calls cs') = Panic) \/
    exists g g', build (do_calls cs) = Val g /\ build (do_calls cs') = Val g' /\ renamed f h g g'.
  Proof.
    intros H. pose proof (closed_renamed _ _ H) as Hc. destruct H as [Hs Hr].
    destruct (build (do_calls cs)) as [g| |] eqn:E.
    - assert (Hcl : closed_calls cs) by (apply build_ok; eauto). apply Hc in Hcl. apply build_ok in Hcl. destruct Hcl as (g' & E').
      right. exists g, g'. split; auto. split; auto.
      destruct (build_contents cs g E) as (S1 & R1 & _). destruct (build_contents cs' g' E') as (S2 & R2 & _). split.
      + rewrite S1 in Hs. cbn in Hs. congruence.
      + intros v' bd'. rewrite R2, Hr. split; intros (v & bd & E1 & E2 & H); exists v, bd; rewrite R1 in *; auto.
    - left. split; auto. apply build_exact. intros Hcl. apply Hc in Hcl. apply build_ok in Hcl. destruct Hcl as (g & E'). congruence.
    - exfalso. assert (N : ~ closed_calls cs) by (intros Hcl; apply build_ok in Hcl; destruct Hcl as (g & E'); congruence).
      apply (proj2 (build_exact cs)) in N. congruence.
  Qed.
End Calls.

(** ** Statements with other names, [x = 10], [+ = 13], [; = 16] *)
Definition other_calls : list (call nat nat) :=
  [CallRule 11 [Ter 10]; CallRule 10 [Var 11; Ter 16]; CallRule 11 [Ter 10]; CallStart 11;
   CallRule 10 [Var 10; Var 11; Ter 16]; CallStart 10; CallRule 11 [Var 11; Ter 13; Ter 10]].
