(** The parser is the machine of SpecMachine.v, for every grammar. *)
From Verif Require Import Base GrammarModel CfsmModel SlrModel SpecCfg SpecMachine GrammarProofs FirstProofs FollowProofs GrammarTotal
  ItemProofs CfsmProofs CfsmCorrect TableProofs SlrTable SlrNew SlrRun SlrMoves SlrSim SlrAll SlrFinal.

Section Machine.
  Context {V T : Type} {dv : DecEq V} {dt : DecEq T}.
  Notation sym := (symbol V T).
  Notation nd := (node V T).
  Variable teq : T -> T -> bool.
  Hypothesis Hteq : lawful teq.
  Variable g : grammar V T.
  Hypothesis Hgood : good g.
  Variable c : cfsm V T.
  Hypothesis Hc : cfsm_ok g c.
  Variable fs : list (V * list sym).
  Hypothesis Hf : exact_follow g fs.
  Variable tb : table V T.
  Hypothesis Htb : table_ok teq g c fs tb.

  Notation entry := (has_entry g fs).
  Notation mmove := (mmove teq g).
  Notation mmoves := (mmoves teq g).
  Notation maccepts := (maccepts g entry).
  Notation mstuck := (mstuck teq g entry).
  Notation mshort := (mshort teq g entry).

  Inductive held : stack V T -> list (parse_node V T) -> Prop :=
  | held_nil : held [] (stack0 tb)
  | held_cons : forall s n k st sm, held st sm -> path c 0 (word ((s, n) :: st)) k -> held ((s, n) :: st) ((n, k) :: sm).

  Lemma held_path st sm : held st sm -> path c 0 (word st) (top sm).
  Proof. destruct 1; [constructor|assumption]. Qed.

  Lemma held_nodes st sm : held st sm -> map fst sm = map snd st ++ [bottom g].
  Proof.
    induction 1 as [|s n k st sm H IH Hp]; cbn.
    - unfold bottom. rewrite (to_grammar _ _ _ _ _ Htb). reflexivity.
    - f_equal. exact IH.
  Qed.

  Lemma held_length st sm : held st sm -> length sm = S (length st).
  Proof. induction 1 as [|s n k st sm H IH Hp]; cbn; [reflexivity|]. f_equal. exact IH. Qed.

  Lemma held_pop popped : forall st sm, held (popped ++ st) sm -> held st (skipn (length popped) sm) /\ map fst (firstn (length popped) sm) = map snd popped.
  Proof.
    induction popped as [|[s n] popped IH]; intros st sm H; [cbn; auto|]. cbn [app] in H.
    inversion H as [|s' n' k st' sm' H' Hp]; subst. destruct (IH _ _ H') as [I1 I2]. cbn. split; [assumption|]. f_equal. exact I2.
  Qed.

  Lemma skip_total (b : list sym) : forall a, exists a' b', skip_eps (a, b) (a', b').
  Proof.
    induction b as [|s b IH]; intros a; [exists a, []; constructor; discriminate|].
    destruct s as [t|v|]; try (eexists _, _; constructor; discriminate). destruct (IH (a ++ [Eps])) as (a' & b' & H). exists a', b'. constructor. exact H.
  Qed.

  Lemma lr0_next w h a s r : lr0 g w (h, a, s :: r) -> exists i, path c 0 (w ++ [s]) i.
  Proof. intros H. destruct (skip_total r (a ++ [s])) as (a' & b' & Hs). eapply (lr0_path g c Hc). eapply lr0_goto; eassumption. Qed.

  Lemma word_cons s n (st : stack V T) : word ((s, n) :: st) = word st ++ [s].
  Proof. reflexivity. Qed.

  Lemma sym_eq x y : teq x y = true -> teq y x = true.
  Proof. apply Hteq. Qed.

  (** A move is what the parser does. *)
  Lemma mmove_handle st rem st' rem' sm : held st sm -> mmove (st, rem) (st', rem') ->
    exists t ts tok2 stack' pn, rem = t :: ts /\ handle_token teq tb (Some t) sm (top sm) = Val (Some (tok2, stack', pn, false)) /\
      held st' (pn :: stack') /\ ((tok2 = None /\ rem' = ts) \/ (tok2 = Some t /\ rem' = rem)).
  Proof.
    intros Hh Hm. pose proof (held_path _ _ Hh) as Hp.
    inversion Hm as [st0 t ts t' h a r H1 H2|popped st0 t ts t' h bd h' a r H1 H2 H3 H4 H5]; subst.
    - destruct (lr0_next _ _ _ _ _ H1) as (d & Hd).
      assert (Hin : In (Some t', Shift d) (nth (top sm) (tb_action tb) [])).
      { apply (row_action teq g c Hc fs Hf tb Htb (word st)); auto. split; eauto. }
      destruct (action_get teq Hteq g c Hc fs tb Htb (word st) (top sm) (Some t) (Some t') (Shift d) Hp Hin) as [E1 E2]; [exact H2|].
      exists t, rem', None, sm, (Node (Ter t) [], d). split; [reflexivity|]. split; [|split; [constructor; auto|auto]].
      unfold handle_token. rewrite E1. cbn [of_option bind]. rewrite E2. reflexivity.
    - assert (Hin : In (Some t', Reduce h (length bd)) (nth (top sm) (tb_action tb) [])).
      { apply (row_action teq g c Hc fs Hf tb Htb (word (popped ++ st0))); auto. exists bd. split; [assumption|]. split; [reflexivity|]. apply follow_steps; assumption. }
      destruct (action_get teq Hteq g c Hc fs tb Htb (word (popped ++ st0)) (top sm) (Some t) (Some t') _ Hp Hin) as [E1 E2]; [exact H3|].
      destruct (held_pop _ _ _ Hh) as [Hh' Hn]. destruct (lr0_next _ _ _ _ _ H5) as (d & Hd).
      exists t, ts, (Some t), (skipn (length popped) sm), (Node (Var h) (map snd popped), d).
      split; [reflexivity|]. split; [|split; [constructor; auto|auto]].
      pose proof (held_path _ _ Hh') as Hp'. pose proof (held_length _ _ Hh) as Hlen. rewrite app_length in Hlen. pose proof (held_length _ _ Hh') as Hlen'.
      unfold handle_token. rewrite E1. cbn [of_option bind]. rewrite E2. rewrite <- H4.
      unfold drain. destruct (Nat.leb_spec (length popped) (length sm)) as [_|Hbad]; [|lia]. cbn [bind].
      pose proof (proj2 (row_goto teq g c Hc fs tb Htb (word st0) _ h d Hp') Hd) as Hg.
      destruct (skipn (length popped) sm) as [|[nd k] rest] eqn:Es; [cbn in Hlen'; lia|].
      cbn [hd_error of_option bind snd top] in *.
      destruct (goto_lookup teq g c fs tb Htb k) as [Eg|(_ & Eg & _)]; [|rewrite Eg in Hg; discriminate].
      rewrite Eg. cbn [of_option bind]. rewrite Hg, Hn. reflexivity.
  Qed.

  Lemma mmove_sim st rem st' rem' sm : held st sm -> mmove (st, rem) (st', rem') ->
    exists sm', held st' sm' /\ forall fuel, ploop teq tb (S fuel) rem sm = ploop teq tb fuel rem' sm'.
  Proof.
    intros Hh Hm. destruct (mmove_handle _ _ _ _ _ Hh Hm) as (t & ts & tok2 & stack' & pn & -> & E & Hh' & Hr).
    exists (pn :: stack'). split; [assumption|]. intros fuel. cbn [ploop]. rewrite E. cbn [bind].
    destruct Hr as [(-> & ->)|(-> & ->)]; reflexivity.
  Qed.

  Definition stops (rem : list T) (sm : list (parse_node V T)) (r : res (option nd)) : Prop := forall fuel, ploop teq tb (S (match rem with [] => S fuel | _ => fuel end)) rem sm = r.

  (** A configuration with a token moves, or the parser stops without a tree. *)
  Lemma token_cases st t ts sm : held st sm ->
    (exists m', mmove (st, t :: ts) m') \/ stops (t :: ts) sm (Val None) \/ stops (t :: ts) sm Panic.
  Proof.
    intros Hh. pose proof (held_path _ _ Hh) as Hp. unfold stops.
    destruct (row_lookup teq g c fs tb Htb (top sm)) as [E1|(E1 & _)].
    2:{ right. right. intros fuel. cbn [ploop]. unfold handle_token. rewrite E1. reflexivity. }
    destruct (row_get teq (Some t) (nth (top sm) (tb_action tb) [])) as [a|] eqn:E2.
    2:{ right. left. intros fuel. cbn [ploop]. unfold handle_token. rewrite E1. cbn [of_option bind]. rewrite E2. reflexivity. }
    apply row_get_in in E2 as Hin. destruct Hin as (k & Ek & Hin).
    apply (row_action teq g c Hc fs Hf tb Htb (word st)) in Hin; auto. destruct k as [t'|]; [|discriminate]. cbn in Ek.
    destruct a as [d|h n|h n]; [| |destruct Hin].
    - destruct Hin as [(h & a & r & Hl) _]. left. eexists. eapply mmove_shift; eassumption.
    - destruct Hin as (bd & Hl & <- & Hfo).
      assert (Heq : forall fuel, ploop teq tb (S fuel) (t :: ts) sm =
        if Nat.leb (length bd) (length sm) then
          match skipn (length bd) sm with
          | [] => Panic
          | tp :: _ =>
              match nth_error (tb_goto tb) (snd tp) with
              | None => Panic
              | Some grow =>
                match mget h grow with
                | None => Val None
                | Some d => ploop teq tb fuel (t :: ts) ((Node (Var h) (map fst (firstn (length bd) sm)), d) :: skipn (length bd) sm)
                end
              end
          end
        else Panic).
      { intros fuel. cbn [ploop]. unfold handle_token. rewrite E1. cbn [of_option bind]. rewrite E2. unfold drain.
        destruct (Nat.leb (length bd) (length sm)); [|reflexivity]. cbn [bind].
        destruct (skipn (length bd) sm) as [|tp rest]; [reflexivity|]. cbn [hd_error of_option bind].
        destruct (nth_error (tb_goto tb) (snd tp)) as [grow|]; [|reflexivity]. cbn [of_option bind]. destruct (mget h grow); reflexivity. }
      pose proof (held_length _ _ Hh) as Hlen.
      destruct (Nat.le_gt_cases (length bd) (length st)) as [Hle|Hgt].
      + set (popped := firstn (length bd) st). set (rest := skipn (length bd) st).
        assert (Est : st = popped ++ rest) by (symmetry; apply firstn_skipn).
        assert (Hpl : length popped = length bd) by (apply firstn_length_le; assumption).
        rewrite Est in Hh. destruct (held_pop _ _ _ Hh) as [Hh' Hn]. rewrite Hpl in Hh'. pose proof (held_path _ _ Hh') as Hp'.
        pose proof (held_length _ _ Hh') as Hlen'.
        destruct (Nat.leb_spec (length bd) (length sm)) as [_|Hbad]; [|lia].
        destruct (skipn (length bd) sm) as [|[nd0 k] sm'] eqn:Es; [cbn in Hlen'; lia|]. cbn [snd top] in *.
        destruct (goto_lookup teq g c fs tb Htb k) as [Eg|(Eg & _ & _)].
        * rewrite Eg in Heq. destruct (mget h (nth k (tb_goto tb) [])) as [d|] eqn:Em.
          -- apply (row_goto teq g c Hc fs tb Htb (word rest)) in Em; [|exact Hp'].
             apply (path_lr0 g Hgood c Hc) in Em. destruct Em as (d0 & Em). apply (lr0_last g) in Em. destruct Em as (h' & a & r & Hl').
             left. eexists. rewrite Est. eapply mmove_reduce; try eassumption; [rewrite <- Est; exact Hl|apply follow_steps; eassumption].
          -- right. left. intros fuel. apply Heq.
        * right. right. intros fuel. rewrite Heq, Eg. reflexivity.
      + right. right. intros fuel. rewrite Heq. destruct (Nat.leb_spec (length bd) (length sm)) as [Hle|_]; [|reflexivity].
        rewrite skipn_all2 by lia. reflexivity.
  Qed.

  (** The end of the input. *)
  Lemma end_cases st sm : held st sm ->
    (exists n, maccepts (st, []) n /\ stops [] sm (Val (Some n))) \/ stops [] sm (Val None) \/ stops [] sm Panic.
  Proof.
    intros Hh. pose proof (held_path _ _ Hh) as Hp. unfold stops. cbn [ploop eof_loop]. unfold handle_token.
    destruct (row_lookup teq g c fs tb Htb (top sm)) as [E1|(E1 & _)]; rewrite E1; cbn [of_option bind]; [|auto].
    destruct (row_get teq None (nth (top sm) (tb_action tb) [])) as [a|] eqn:E2; [|auto].
    apply row_get_in in E2 as Hin. destruct Hin as (k & Ek & Hin).
    apply (row_action teq g c Hc fs Hf tb Htb (word st)) in Hin; auto. destruct k as [t'|]; [discriminate|].
    destruct a as [d|h n|h n]; [destruct Hin|destruct Hin|]. destruct Hin as (-> & (bd & Hl & <-) & He).
    unfold drain. pose proof (held_length _ _ Hh) as Hlen. destruct (Nat.leb_spec (length bd) (length sm)) as [Hle|_]; [|auto]. cbn [bind fst]. left.
    eexists. split; [|intros _; reflexivity]. split; [reflexivity|]. split; [exact He|]. exists bd. split; [assumption|]. split; [lia|].
    rewrite <- (held_nodes _ _ Hh). f_equal. symmetry. apply firstn_map.
  Qed.

  (** The two ways round. *)
  Lemma maccepts_stops st rem sm n : held st sm -> maccepts (st, rem) n -> rem = [] /\ stops rem sm (Val (Some n)).
  Proof.
    intros Hh (-> & He & bd & Hl & Hle & ->). split; [reflexivity|]. pose proof (held_path _ _ Hh) as Hp.
    assert (Hin : In (None, Accept (g_start g) (length bd)) (nth (top sm) (tb_action tb) [])).
    { apply (row_action teq g c Hc fs Hf tb Htb (word st)); auto. split; [reflexivity|]. split; [eauto|exact He]. }
    destruct (action_get teq Hteq g c Hc fs tb Htb (word st) (top sm) None None _ Hp Hin) as [E1 E2]; [reflexivity|].
    intros fuel. cbn [ploop eof_loop]. unfold handle_token. rewrite E1. cbn [of_option bind]. rewrite E2. unfold drain.
    rewrite (held_length _ _ Hh). destruct (Nat.leb_spec (length bd) (S (length st))) as [_|Hbad]; [|lia]. cbn [bind fst].
    rewrite <- (held_nodes _ _ Hh). do 3 f_equal. symmetry. apply firstn_map.
  Qed.

  Lemma mshort_stops st rem sm : held st sm -> mshort (st, rem) -> stops rem sm Panic.
  Proof.
    intros Hh Hs. pose proof (held_path _ _ Hh) as Hp. pose proof (held_length _ _ Hh) as Hlen. destruct rem as [|t ts].
    - destruct Hs as (He & bd & Hl & Hlt).
      assert (Hin : In (None, Accept (g_start g) (length bd)) (nth (top sm) (tb_action tb) [])).
      { apply (row_action teq g c Hc fs Hf tb Htb (word st)); auto. split; [reflexivity|]. split; [eauto|exact He]. }
      destruct (action_get teq Hteq g c Hc fs tb Htb (word st) (top sm) None None _ Hp Hin) as [E1 E2]; [reflexivity|].
      intros fuel. cbn [ploop eof_loop]. unfold handle_token. rewrite E1. cbn [of_option bind]. rewrite E2. unfold drain.
      destruct (Nat.leb_spec (length bd) (length sm)) as [Hbad|_]; [lia|]. reflexivity.
    - destruct Hs as (t' & h & bd & Hl & Hfo & Ht & Hlt).
      assert (Hin : In (Some t', Reduce h (length bd)) (nth (top sm) (tb_action tb) [])).
      { apply (row_action teq g c Hc fs Hf tb Htb (word st)); auto. exists bd. split; [assumption|]. split; [reflexivity|]. apply follow_steps; assumption. }
      destruct (action_get teq Hteq g c Hc fs tb Htb (word st) (top sm) (Some t) (Some t') _ Hp Hin) as [E1 E2]; [exact Ht|].
      intros fuel. cbn [ploop]. unfold handle_token. rewrite E1. cbn [of_option bind]. rewrite E2. unfold drain.
      destruct (Nat.leb_spec (length bd) (length sm)) as [Hle|_]; [|reflexivity]. cbn [bind]. rewrite skipn_all2 by lia. reflexivity.
  Qed.

  Lemma mmove_det m m1 m2 : (exists sm, held (fst m) sm) -> mmove m m1 -> mmove m m2 -> m1 = m2.
  Proof.
    intros (sm & Hh) H H'. pose proof (held_path _ _ Hh) as Hp.
    pose proof (fun k a => row_action teq g c Hc fs Hf tb Htb _ _ k a Hp) as Hr. pose proof (row_distinct teq g c Hc fs tb Htb _ _ Hp) as Hd.
    assert (Hu : forall t k k' a a', In (Some k, a) (nth (top sm) (tb_action tb) []) -> In (Some k', a') (nth (top sm) (tb_action tb) []) ->
      teq t k = true -> teq t k' = true -> (k, a) = (k', a')).
    { intros t k k' a a' I1 I2 T1 T2. pose proof (distinct_same teq Hteq _ _ _ _ _ Hd I1 I2) as E.
      assert (Ek : key_eq teq (Some k) (Some k') = true) by (cbn; destruct Hteq as (_ & Hs & Htr); eapply Htr; [apply Hs; exact T1|exact T2]).
      specialize (E Ek). congruence. }
    assert (Hshift : forall t' h a r, lr0 g (word (fst m)) (h, a, Ter t' :: r) -> exists d, In (Some t', Shift d) (nth (top sm) (tb_action tb) [])).
    { intros t' h a r Hl. destruct (lr0_next _ _ _ _ _ Hl) as (d & Hd'). exists d. apply Hr. split; eauto. }
    assert (Hred : forall t' h bd, lr0 g (word (fst m)) (h, bd, []) -> followed_by g h t' -> In (Some t', Reduce h (length bd)) (nth (top sm) (tb_action tb) [])).
    { intros t' h bd Hl Hfo. apply Hr. exists bd. split; [assumption|]. split; [reflexivity|]. apply follow_steps; assumption. }
    inversion H as [st0 t ts t' h a r H1 H2|popped st0 t ts t' h bd h' a r H1 H2 H3 H4 H5]; subst;
      inversion H' as [st1 t1 ts1 t1' h1 a1 r1 J1 J2|popped1 st1 t1 ts1 t1' h1 bd1 h1' a1 r1 J1 J2 J3 J4 J5]; subst; cbn [fst] in *.
    - destruct (Hshift _ _ _ _ H1) as (d1 & I1). destruct (Hshift _ _ _ _ J1) as (d2 & I2). pose proof (Hu _ _ _ _ _ I1 I2 H2 J2) as E. congruence.
    - exfalso. destruct (Hshift _ _ _ _ H1) as (d1 & I1). pose proof (Hred _ _ _ J1 J2) as I2. pose proof (Hu _ _ _ _ _ I1 I2 H2 J3) as E. discriminate.
    - exfalso. destruct (Hshift _ _ _ _ J1) as (d1 & I1). pose proof (Hred _ _ _ H1 H2) as I2. pose proof (Hu _ _ _ _ _ I1 I2 J2 H3) as E. discriminate.
    - pose proof (Hred _ _ _ H1 H2) as I1. match goal with E : _ ++ _ = _ ++ _ |- _ => pose proof E as Est end.
      rewrite Est in J1. pose proof (Hred _ _ _ J1 J2) as I2. pose proof (Hu _ _ _ _ _ I1 I2 H3 J3) as E. injection E as _ <- E.
      assert (Hlen : length popped1 = length popped) by congruence.
      assert (popped1 = popped /\ st1 = st0) as [-> ->]; [|reflexivity].
      clear - Est Hlen. revert popped Est Hlen. induction popped1 as [|x popped1 IH]; intros [|y popped] E L; cbn in *; try lia; auto.
      injection E as <- E. destruct (IH _ E) as [<- <-]; auto.
  Qed.

  Lemma held_mmoves k : forall st rem sm m', held st sm -> mmoves k (st, rem) m' ->
    exists sm', held (fst m') sm' /\ forall fuel, ploop teq tb (k + fuel) rem sm = ploop teq tb fuel (snd m') sm'.
  Proof.
    induction k as [|k IH]; intros st rem sm m' Hh H; inversion H as [|? ? [st1 rem1] ? H1 H2]; subst.
    - exists sm. auto.
    - destruct (mmove_sim _ _ _ _ _ Hh H1) as (sm1 & Hh1 & E). destruct (IH _ _ _ _ Hh1 H2) as (sm' & Hh' & E'). exists sm'. split; [assumption|].
      intros fuel. cbn [plus]. rewrite E. apply E'.
  Qed.

  (** Which case holds after any number of moves. *)
  Lemma run_cases k : forall st rem sm, held st sm ->
    (exists m', mmoves k (st, rem) m') \/
    exists j st' rem' sm', j <= k /\ mmoves j (st, rem) (st', rem') /\ held st' sm' /\
      ((exists n, maccepts (st', rem') n /\ stops rem' sm' (Val (Some n))) \/
       (mstuck (st', rem') /\ (stops rem' sm' (Val None) \/ stops rem' sm' Panic))).
  Proof.
    induction k as [|k IH]; intros st rem sm Hh; [left; eexists; constructor|].
    assert (Hstop : (exists m', mmove (st, rem) m') \/ (exists n, maccepts (st, rem) n /\ stops rem sm (Val (Some n))) \/
      (mstuck (st, rem) /\ (stops rem sm (Val None) \/ stops rem sm Panic))).
    { assert (Hno : stops rem sm (Val None) \/ stops rem sm Panic -> (forall n, ~ maccepts (st, rem) n)).
      { intros Hs n Ha. destruct (maccepts_stops _ _ _ _ Hh Ha) as [_ E]. destruct Hs as [Hs|Hs]; specialize (Hs 0); specialize (E 0); congruence. }
      destruct rem as [|t ts].
      - assert (Hm : forall m', ~ mmove (st, []) m') by (intros m' Hm; inversion Hm).
        destruct (end_cases st sm Hh) as [Ha|Hs]; [auto|]. right. right. split; [split; [assumption|exact (Hno Hs)]|assumption].
      - destruct (token_cases st t ts sm Hh) as [Hm|Hs]; [auto|]. right. right. split; [|assumption]. split; [|exact (Hno Hs)].
        intros [st' rem'] Hm. destruct (mmove_sim _ _ _ _ _ Hh Hm) as (sm' & Hh' & E).
        destruct Hs as [Hs|Hs]; pose proof (eq_trans (eq_sym (E 0)) (Hs 0)) as X; discriminate X. }
    destruct Hstop as [([st1 rem1] & Hm)|Hs].
    - destruct (mmove_sim _ _ _ _ _ Hh Hm) as (sm1 & Hh1 & _). destruct (IH st1 rem1 sm1 Hh1) as [(m' & H)|(j & st' & rem' & sm' & Hj & H & Hh' & Hc')].
      + left. exists m'. econstructor; eassumption.
      + right. exists (S j), st', rem', sm'. split; [lia|]. split; [econstructor; eassumption|]. auto.
    - right. exists 0, st, rem, sm. split; [lia|]. split; [constructor|]. auto.
  Qed.

  (** ** Runs *)

  Lemma stops_ploop rem sm r k fuel : stops rem sm r -> 2 + k <= fuel -> ploop teq tb (fuel - k) rem sm = r.
  Proof.
    intros H Hle. destruct rem as [|t ts].
    - replace (fuel - k) with (S (S (fuel - k - 2))) by lia. apply (H (fuel - k - 2)).
    - replace (fuel - k) with (S (fuel - k - 1)) by lia. apply (H (fuel - k - 1)).
  Qed.

  Lemma run_result k ts m r : mmoves k (initial ts) m -> (forall sm, held (fst m) sm -> stops (snd m) sm r) ->
    forall fuel, 2 + k <= fuel -> parse teq fuel tb ts = r.
  Proof.
    intros H Hs fuel Hle. rewrite parse_ploop. destruct (held_mmoves k [] ts (stack0 tb) m held_nil H) as (sm & Hh & E).
    replace fuel with (k + (fuel - k)) by lia. rewrite E. apply stops_ploop; auto.
  Qed.

  Lemma parse_one f1 f2 ts r1 r2 : parse teq f1 tb ts = r1 -> parse teq f2 tb ts = r2 -> r1 <> Diverge -> r2 <> Diverge -> r1 = r2.
  Proof.
    intros H1 H2 N1 N2. rewrite <- (parse_stable teq tb f1 ts r1 H1 N1 (f1 + f2)) by lia.
    apply (parse_stable teq tb f2 ts r2 H2 N2). lia.
  Qed.

  (** Runs of a deterministic machine that cannot go on. *)
  Lemma moves_diverge k ts : (exists m, mmoves k (initial ts) m) -> forall fuel, fuel <= k -> parse teq fuel tb ts = Diverge.
  Proof.
    intros (m & H) fuel Hle. rewrite parse_ploop. 
    assert (Hk : exists m', mmoves fuel (initial ts) m').
    { clear - H Hle. revert k H Hle. generalize (@initial V T ts). induction fuel as [|fuel IH]; intros m0 k H Hle; [eexists; constructor|].
      destruct k as [|k]; [lia|]. inversion H as [|? ? m1 ? H1 H2]; subst. destruct (IH m1 k H2) as (m' & H'); [lia|]. exists m'. econstructor; eassumption. }
    destruct Hk as (m' & H'). destruct (held_mmoves fuel [] ts (stack0 tb) m' held_nil H') as (sm & _ & E).
    specialize (E 0). rewrite Nat.add_0_r in E. rewrite E. reflexivity.
  Qed.

  Lemma machine_ok ts : 
    (forall n, (exists fuel, parse teq fuel tb ts = Val (Some n)) <-> exists k m, mmoves k (initial ts) m /\ maccepts m n) /\
    ((exists fuel, failed (parse teq fuel tb ts)) <-> exists k m, mmoves k (initial ts) m /\ mstuck m) /\
    ((forall fuel, parse teq fuel tb ts = Diverge) <-> forall k, exists m, mmoves k (initial ts) m) /\
    ((exists k m, mmoves k (initial ts) m /\ mshort m) -> exists fuel, parse teq fuel tb ts = Panic).
  Proof.
    assert (Hacc : forall k m n, mmoves k (initial ts) m -> maccepts m n -> parse teq (2 + k) tb ts = Val (Some n)).
    { intros k [st rem] n H Ha. eapply (run_result k); [exact H| |lia]. intros sm Hh. cbn [fst snd] in *. apply (maccepts_stops _ _ _ _ Hh Ha). }
    assert (Hstk : forall k m, mmoves k (initial ts) m -> mstuck m -> failed (parse teq (2 + k) tb ts)).
    { intros k [st rem] H Hs. destruct (held_mmoves k [] ts (stack0 tb) _ held_nil H) as (sm & Hh & E). cbn [fst snd] in *.
      rewrite parse_ploop. replace (2 + k) with (k + 2) by lia. rewrite E.
      assert (Hst : stops rem sm (Val None) \/ stops rem sm Panic).
      { destruct rem as [|t ts']; [destruct (end_cases _ _ Hh) as [(n & Ha & _)|Hx]; [destruct Hs as [_ Hs]; destruct (Hs _ Ha)|exact Hx]|].
        destruct (token_cases _ t ts' _ Hh) as [(m' & Hx)|Hx]; [destruct Hs as [Hs _]; destruct (Hs _ Hx)|exact Hx]. }
      destruct Hst as [Hst|Hst]; pose proof (stops_ploop _ _ _ 0 2 Hst (le_n _)) as Ex; cbn [Nat.sub] in Ex; unfold failed; auto. }
    assert (Hall : forall k, (exists m, mmoves k (initial ts) m) \/
      (exists j m, mmoves j (initial ts) m /\ ((exists n, maccepts m n) \/ mstuck m))).
    { intros k. destruct (run_cases k [] ts (stack0 tb) held_nil) as [Hm|(j & st' & rem' & sm' & Hj & Hm & _ & Hcase)]; [auto|].
      right. exists j, (st', rem'). split; [assumption|]. destruct Hcase as [(n & Ha & _)|[Hs _]]; eauto. }
    assert (Hend : forall fuel, parse teq fuel tb ts <> Diverge -> exists j m, mmoves j (initial ts) m /\ ((exists n, maccepts m n) \/ mstuck m)).
    { intros fuel Hne. destruct (Hall fuel) as [Hm|Hm]; [|assumption]. destruct Hne. apply (moves_diverge fuel); auto. }
    split; [|split; [|split]].
    - intros n. split; [|intros (k & m & H1 & H2); eauto]. intros (fuel & E). destruct (Hend fuel) as (j & m & Hm & [(n' & Ha)|Hs]); [congruence| |].
      + exists j, m. split; [assumption|]. pose proof (parse_one _ _ _ _ _ E (Hacc _ _ _ Hm Ha) ltac:(discriminate) ltac:(discriminate)) as En.
        injection En as ->. assumption.
      + exfalso. destruct (Hstk _ _ Hm Hs) as [Ef|Ef]; pose proof (parse_one _ _ _ _ _ E Ef ltac:(discriminate) ltac:(discriminate)); discriminate.
    - split; [|intros (k & m & H1 & H2); eauto]. intros (fuel & Ef). destruct (Hend fuel) as (j & m & Hm & [(n' & Ha)|Hs]); [destruct Ef; congruence| |eauto].
      exfalso. pose proof (Hacc _ _ _ Hm Ha) as E. destruct Ef as [Ef|Ef]; pose proof (parse_one _ _ _ _ _ E Ef ltac:(discriminate) ltac:(discriminate)); discriminate.
    - split.
      + intros Hd k. destruct (Hall k) as [Hm|(j & m & Hm & [(n & Ha)|Hs])]; [assumption| |]; exfalso.
        * pose proof (Hacc _ _ _ Hm Ha) as E. rewrite Hd in E. discriminate.
        * destruct (Hstk _ _ Hm Hs) as [E|E]; rewrite Hd in E; discriminate.
      + intros Hk fuel. apply (moves_diverge fuel); auto.
    - intros (k & [st rem] & Hm & Hs). exists (2 + k). eapply (run_result k); [exact Hm| |lia]. intros sm Hh. eapply mshort_stops; eassumption.
  Qed.

  Lemma mmove_one ts k m m1 m2 : mmoves k (initial ts) m -> mmove m m1 -> mmove m m2 -> m1 = m2.
  Proof.
    intros H. apply mmove_det. destruct (held_mmoves k [] ts (stack0 tb) m held_nil H) as (sm & Hh & _). exists sm. exact Hh.
  Qed.

  (** ** How the machine is stuck *)
  Notation macts := (macts g entry).
  Notation mrefused := (mrefused teq g entry).
  Notation mrowless := (mrowless teq g entry).

  Lemma macts_row w i : path c 0 w i -> macts w <-> nth i (tb_action tb) [] <> [].
  Proof.
    intros Hp. pose proof (fun k a => row_action teq g c Hc fs Hf tb Htb w i k a Hp) as Hr. split.
    - intros Ha E. rewrite E in Hr. destruct Ha as [(h & a & t & r & Hl)|[(h & bd & t & Hl & Hfo)|(He & bd & Hl)]].
      + destruct (lr0_next _ _ _ _ _ Hl) as (d & Hd). apply (Hr (Some t) (Shift d)). split; eauto.
      + apply (Hr (Some t) (Reduce h (length bd))). exists bd. split; [assumption|]. split; [reflexivity|]. apply follow_steps; assumption.
      + apply (Hr None (Accept (g_start g) (length bd))). split; [reflexivity|]. split; [eauto|exact He].
    - intros Hne. destruct (nth i (tb_action tb) []) as [|[k a] row] eqn:E; [congruence|].
      pose proof (proj1 (Hr k a) (or_introl eq_refl)) as Hx.
      destruct k as [t|], a as [d|h n|h n]; try destruct Hx.
      + left. destruct H as (h & a & r & Hl). eauto 6.
      + right. left. destruct H as (Hl & _ & Hfo). exists h, x, t. split; [assumption|]. apply follow_steps; assumption.
      + right. right. subst h. destruct H0 as [(x & Hl & _) He]. split; [exact He|]. eauto.
  Qed.

  Lemma macts_some w i : path c 0 w i -> macts w -> nth_error (tb_action tb) i = Some (nth i (tb_action tb) []).
  Proof.
    intros Hp Ha. apply (macts_row w i Hp) in Ha. destruct (row_lookup teq g c fs tb Htb i) as [E|(_ & E & _)]; [exact E|congruence].
  Qed.

  Lemma var_goto w i v : path c 0 w i -> (exists h a r, lr0 g w (h, a, Var v :: r)) <-> mget v (nth i (tb_goto tb) []) <> None.
  Proof.
    intros Hp. split.
    - intros (h & a & r & Hl). destruct (lr0_next _ _ _ _ _ Hl) as (d & Hd).
      rewrite (proj2 (row_goto teq g c Hc fs tb Htb w i v d Hp) Hd). discriminate.
    - intros Hne. destruct (mget v (nth i (tb_goto tb) [])) as [d|] eqn:E; [|congruence].
      apply (row_goto teq g c Hc fs tb Htb w i v d Hp) in E. apply (path_lr0 g Hgood c Hc) in E. destruct E as (d0 & E).
      apply (lr0_last g) in E. exact E.
  Qed.

  Lemma mgotos_row w i : path c 0 w i -> mgotos g w <-> nth i (tb_goto tb) [] <> [].
  Proof.
    intros Hp. split.
    - intros (h & a & v & r & Hl) E. apply (proj1 (var_goto w i v Hp)); [eauto|]. rewrite E. reflexivity.
    - intros Hne. destruct (nth i (tb_goto tb) []) as [|[v d] row] eqn:E; [congruence|].
      destruct (proj2 (var_goto w i v Hp)) as (h & a & r & Hl); [rewrite E; cbn; rewrite eqb_refl; discriminate|].
      exists h, a, v, r. exact Hl.
  Qed.

  Lemma mgotos_some w i : path c 0 w i -> mgotos g w -> nth_error (tb_goto tb) i = Some (nth i (tb_goto tb) []).
  Proof.
    intros Hp Ha. apply (mgotos_row w i Hp) in Ha. destruct (goto_lookup teq g c fs tb Htb i) as [E|(_ & E & _)]; [exact E|congruence].
  Qed.

  Lemma mrefused_stops st rem sm : held st sm -> mrefused (st, rem) -> stops rem sm (Val None).
  Proof.
    intros Hh (Ha & Hs). pose proof (held_path _ _ Hh) as Hp. pose proof (held_length _ _ Hh) as Hlen.
    pose proof (macts_some _ _ Hp Ha) as E1. pose proof (fun k a => row_action teq g c Hc fs Hf tb Htb _ _ k a Hp) as Hr.
    destruct rem as [|t ts].
    - intros fuel. cbn [ploop eof_loop]. unfold handle_token. rewrite E1. cbn [of_option bind].
      destruct (row_get teq None (nth (top sm) (tb_action tb) [])) as [a|] eqn:E2; [|reflexivity]. exfalso. apply Hs.
      apply row_get_in in E2. destruct E2 as ([k|] & Ek & Hin); [discriminate|]. apply Hr in Hin.
      destruct a as [d|h n|h n]; [destruct Hin|destruct Hin|]. destruct Hin as (-> & (bd & Hl & _) & He). split; [exact He|eauto].
    - intros fuel. cbn [ploop]. unfold handle_token. rewrite E1. cbn [of_option bind]. destruct Hs as [Hns Hs].
      destruct (row_get teq (Some t) (nth (top sm) (tb_action tb) [])) as [a|] eqn:E2; [|reflexivity].
      apply row_get_in in E2 as E3. destruct E3 as ([k|] & Ek & Hin); [|discriminate]. cbn in Ek. apply Hr in Hin as Hx.
      destruct a as [d|h n|h n]; [| |destruct Hx].
      + exfalso. destruct Hx as [(h & a & r & Hl) _]. exact (Hns _ _ _ _ Ek Hl).
      + destruct Hx as (bd & Hl & <- & Hfo).
        destruct Hs as [Hs|(h' & bd' & (t' & Hl' & Hfo' & Ht') & Hle & Hgo & Hno)].
        { exfalso. apply (Hs h bd). exists k. split; [assumption|]. split; [apply follow_steps; assumption|exact Ek]. }
        assert (Hin' : In (Some t', Reduce h' (length bd')) (nth (top sm) (tb_action tb) [])).
        { apply Hr. exists bd'. split; [assumption|]. split; [reflexivity|]. apply follow_steps; assumption. }
        destruct (action_get teq Hteq g c Hc fs tb Htb (word st) (top sm) (Some t) (Some t') _ Hp Hin') as [_ E4]; [exact Ht'|].
        rewrite E2 in E4. injection E4 as -> Elen. rewrite Elen. unfold drain.
        destruct (Nat.leb_spec (length bd') (length sm)) as [_|Hbad]; [|lia]. cbn [bind].
        rewrite <- (firstn_skipn (length bd') st) in Hh. destruct (held_pop _ _ _ Hh) as [Hh' _].
        rewrite firstn_length_le in Hh' by assumption. pose proof (held_path _ _ Hh') as Hp'. pose proof (held_length _ _ Hh') as Hlen'.
        destruct (skipn (length bd') sm) as [|[nd0 k0] sm'] eqn:Es; [cbn in Hlen'; lia|]. cbn [hd_error of_option bind snd top] in *.
        rewrite (mgotos_some _ _ Hp' Hgo). cbn [of_option bind].
        destruct (mget h' (nth k0 (tb_goto tb) [])) as [d|] eqn:Em; [|reflexivity]. exfalso.
        destruct (proj2 (var_goto _ _ h' Hp')) as (h2 & a & r & Hl2); [congruence|]. exact (Hno _ _ _ Hl2).
  Qed.

  Lemma stuck_kinds st rem sm : held st sm -> mstuck (st, rem) -> mrefused (st, rem) \/ mshort (st, rem) \/ mrowless (st, rem).
  Proof.
    intros Hh [Hm Hac]. pose proof (held_path _ _ Hh) as Hp. pose proof (fun k a => row_action teq g c Hc fs Hf tb Htb _ _ k a Hp) as Hr.
    destruct (nth (top sm) (tb_action tb) []) as [|en row] eqn:Erow.
    { right. right. left. intros Ha. apply (macts_row _ _ Hp) in Ha. congruence. }
    assert (Ha : macts (word st)) by (apply (macts_row _ _ Hp); rewrite Erow; discriminate).
    rewrite <- Erow in Hr. clear en row Erow.
    destruct rem as [|t ts].
    - destruct (row_get teq None (nth (top sm) (tb_action tb) [])) as [a|] eqn:E2.
      + apply row_get_in in E2. destruct E2 as ([k|] & Ek & Hin); [discriminate|]. apply Hr in Hin.
        destruct a as [d|h n|h n]; [destruct Hin|destruct Hin|]. destruct Hin as (-> & (bd & Hl & _) & He).
        right. left. split; [exact He|]. exists bd. split; [assumption|].
        destruct (Nat.le_gt_cases (length bd) (S (length st))) as [Hle|Hgt]; [|lia]. exfalso. eapply Hac. split; [reflexivity|]. split; [exact He|]. eauto.
      + left. split; [assumption|]. intros (He & bd & Hl).
        assert (Hin : In (None, Accept (g_start g) (length bd)) (nth (top sm) (tb_action tb) [])).
        { apply Hr. split; [reflexivity|]. split; [eauto|exact He]. }
        destruct (action_get teq Hteq g c Hc fs tb Htb (word st) (top sm) None None _ Hp Hin) as [_ E]; [reflexivity|]. congruence.
    - assert (Hns : forall h a t' r, teq t t' = true -> ~ lr0 g (word st) (h, a, Ter t' :: r)).
      { intros h a t' r Ht Hl. eapply Hm. eapply mmove_shift; eassumption. }
      destruct (row_get teq (Some t) (nth (top sm) (tb_action tb) [])) as [a|] eqn:E2.
      + apply row_get_in in E2. destruct E2 as ([k|] & Ek & Hin); [|discriminate]. cbn in Ek. apply Hr in Hin.
        destruct a as [d|h n|h n]; [| |destruct Hin].
        { exfalso. destruct Hin as [(h & a & r & Hl) _]. exact (Hns _ _ _ _ Ek Hl). }
        destruct Hin as (bd & Hl & <- & Hfo). apply follow_steps in Hfo.
        destruct (Nat.le_gt_cases (length bd) (length st)) as [Hle|Hgt]; [|right; left; exists k, h, bd; auto].
        assert (Hred : mreduces teq g st t h bd) by (exists k; auto).
        pose proof Hh as Hh0. rewrite <- (firstn_skipn (length bd) st) in Hh0. destruct (held_pop _ _ _ Hh0) as [Hh' _].
        rewrite firstn_length_le in Hh' by assumption. pose proof (held_path _ _ Hh') as Hp'.
        destruct (nth (top (skipn (length bd) sm)) (tb_goto tb) []) as [|en row] eqn:Eg.
        * right. right. right. exists h, bd. split; [assumption|]. split; [assumption|]. intros Hgo. apply (mgotos_row _ _ Hp') in Hgo. congruence.
        * left. split; [assumption|]. split; [assumption|]. right. exists h, bd. split; [assumption|]. split; [assumption|].
          split; [apply (mgotos_row _ _ Hp'); rewrite Eg; discriminate|]. intros h' a r Hl'.
          assert (Hm' : forall m', ~ mmove (firstn (length bd) st ++ skipn (length bd) st, t :: ts) m')
            by (rewrite firstn_skipn; exact Hm).
          eapply Hm'. eapply mmove_reduce; try eassumption.
          -- rewrite firstn_skipn. exact Hl.
          -- apply firstn_length_le. exact Hle.
      + left. split; [assumption|]. split; [assumption|]. left. intros h bd (t' & Hl & Hfo & Ht).
        assert (Hin : In (Some t', Reduce h (length bd)) (nth (top sm) (tb_action tb) [])).
        { apply Hr. exists bd. split; [assumption|]. split; [reflexivity|]. apply follow_steps; assumption. }
        destruct (action_get teq Hteq g c Hc fs tb Htb (word st) (top sm) (Some t) (Some t') _ Hp Hin) as [_ E]; [exact Ht|]. congruence.
  Qed.

  Lemma failures_ok ts k m : mmoves k (initial ts) m ->
    (mrefused m -> exists fuel, parse teq fuel tb ts = Val None) /\
    (mstuck m -> mrefused m \/ mshort m \/ mrowless m).
  Proof.
    destruct m as [st rem]. intros Hm. split.
    - intros Hs. exists (2 + k). eapply (run_result k); [exact Hm| |lia]. intros sm Hh. cbn [fst snd] in *. apply (mrefused_stops st); assumption.
    - destruct (held_mmoves k [] ts (stack0 tb) _ held_nil Hm) as (sm & Hh & _). apply stuck_kinds with (sm := sm). exact Hh.
  Qed.

  (** ** Epsilon rules *)

  Inductive hollow : nd -> Prop :=
  | hollow_here : forall v, hollow (Node (Var v) [])
  | hollow_child : forall s cs n, In n cs -> hollow n -> hollow (Node s cs).

  Lemma inside_hollow v (x : tree V T) : inside (Branch v []) x -> hollow (to_node x).
  Proof.
    induction 1 as [|v' cs z Hin H IH]; [constructor|]. cbn [to_node]. eapply hollow_child; [|exact IH].
    apply -> in_rev. apply in_map. assumption.
  Qed.

  Lemma body_nonempty w h bd : lr0 g w (h, bd, []) -> bd <> [].
  Proof.
    intros H. apply (lr0_rule g) in H. rewrite app_nil_r in H. destruct H as (bds & H1 & H2).
    destruct (proj2 (good_ok g Hgood) _ _ H1) as (_ & _ & H3). auto.
  Qed.

  Definition solid (st : stack V T) : Prop := Forall (fun en => ~ hollow (snd en)) st.

  Lemma mmove_solid m m' : mmove m m' -> solid (fst m) -> solid (fst m').
  Proof.
    intros H Hs. inversion H as [st0 t ts t' h a r H1 H2|popped st0 t ts t' h bd h' a r H1 H2 H3 H4 H5]; subst; cbn [fst] in *.
    - constructor; [|assumption]. cbn. intros Hh. inversion Hh as [|? ? ? Hin]; subst. destruct Hin.
    - apply Forall_app in Hs. destruct Hs as [Hs1 Hs2]. constructor; [|assumption]. cbn. intros Hh.
      inversion Hh as [v E|s cs n Hin Hn E]; subst.
      + apply body_nonempty in H1. destruct bd; [congruence|]. destruct popped; discriminate.
      + apply in_map_iff in Hin. destruct Hin as (en & <- & Hin). rewrite Forall_forall in Hs1. exact (Hs1 _ Hin Hn).
  Qed.

  Lemma mmoves_solid k m m' : mmoves k m m' -> solid (fst m) -> solid (fst m').
  Proof. induction 1 as [|k m m1 m2 H H' IH]; auto. intros Hs. apply IH. eapply mmove_solid; eassumption. Qed.

  Lemma never_hollow (x : tree V T) : ~ hollow (to_node x) -> never_empty x.
  Proof. intros H v Hi. apply H. eapply inside_hollow. exact Hi. Qed.

  Lemma solid_result fuel ts x : parse teq fuel tb ts = Val (Some (to_node x)) ->
    never_empty x \/ exists cs, x = Branch (g_start g) (Branch (g_start g) [] :: cs) /\ Forall never_empty cs.
  Proof.
    intros E. destruct (proj1 (proj1 (machine_ok ts) (to_node x))) as (k & [st rem] & Hm & -> & _ & bd & Hl & Hle & En); [eauto|].
    pose proof (mmoves_solid _ _ _ Hm (Forall_nil _)) as Hs. cbn [fst] in Hs.
    assert (Hno : forall n, In n (map snd st) -> ~ hollow n).
    { intros n Hin. apply in_map_iff in Hin. destruct Hin as (en & <- & Hin). unfold solid in Hs. rewrite Forall_forall in Hs. exact (Hs _ Hin). }
    destruct (Nat.eq_dec (length bd) (S (length st))) as [Hb|Hb].
    - right. destruct x as [t|v cs]; [discriminate|]. cbn [to_node] in En. injection En as -> En.
      rewrite firstn_all2 in En by (rewrite app_length, map_length; cbn; lia).
      apply (f_equal (@rev _)) in En. rewrite rev_involutive, rev_app_distr in En. cbn [rev app] in En.
      destruct cs as [|b cs]; [discriminate|]. cbn [map] in En. injection En as Eb En.
      destruct b as [t|v bs]; [discriminate|]. cbn [to_node] in Eb. injection Eb as -> Eb. destruct bs as [|b1 bs]; [|cbn in Eb; destruct (rev (map to_node bs)); discriminate].
      exists cs. split; [reflexivity|]. apply Forall_forall. intros z Hz. apply never_hollow. apply Hno. apply in_rev. rewrite <- En. apply in_map. assumption.
    - left. apply never_hollow. rewrite En. intros Hh. rewrite firstn_app, map_length in Hh.
      replace (length bd - length st) with 0 in Hh by lia. cbn [firstn] in Hh. rewrite app_nil_r in Hh.
      inversion Hh as [v Ev|s cs n Hin Hn Ev].
      + pose proof (body_nonempty _ _ _ Hl). destruct bd; [congruence|]. destruct st as [|en st]; [cbn in Hle, Hb; lia|]. discriminate.
      + subst. apply (Hno n); [|assumption]. rewrite <- (firstn_skipn (length bd)). apply in_or_app. left. assumption.
  Qed.
End Machine.

Section Final.
  Context {V T : Type} {dv : DecEq V} {dt : DecEq T} {ho : HashOrder}.
  Variable teq : T -> T -> bool.
  Hypothesis Hteq : lawful teq.
  Variable g : grammar V T.
  Hypothesis Hb : built g.

  Lemma parser_machine fuel p tb : slr_new teq fuel p g = Val tb ->
    exists e : Prop, (entry_sure g (g_start g) -> e) /\ (e -> entry_possible g (g_start g)) /\
    forall ts,
      (forall n, (exists fuel', parse teq fuel' tb ts = Val (Some n)) <->
        exists k m, mmoves teq g k (initial ts) m /\ maccepts g e m n) /\
      ((exists fuel', failed (parse teq fuel' tb ts)) <-> exists k m, mmoves teq g k (initial ts) m /\ mstuck teq g e m) /\
      ((forall fuel', parse teq fuel' tb ts = Diverge) <-> forall k, exists m, mmoves teq g k (initial ts) m) /\
      ((exists k m, mmoves teq g k (initial ts) m /\ mshort teq g e m) -> exists fuel', parse teq fuel' tb ts = Panic) /\
      ((exists k m, mmoves teq g k (initial ts) m /\ mrefused teq g e m) -> exists fuel', parse teq fuel' tb ts = Val None) /\
      (forall k m, mmoves teq g k (initial ts) m -> mstuck teq g e m -> mrefused teq g e m \/ mshort teq g e m \/ mrowless teq g e m).
  Proof.
    intros H. destruct (slr_new_parts teq Hteq g Hb _ _ _ H) as (c & fs & _ & Hc & Hf & Ht). exists (has_entry g fs).
    pose proof (built_good g Hb) as Hgood.
    split; [intros He; eapply entry_sure_has; eauto|]. split; [intros He; eapply has_entry_possible; eauto|].
    intros ts. edestruct (machine_ok teq Hteq g Hgood c Hc fs Hf tb Ht ts) as (M1 & M2 & M3 & M4).
    split; [exact M1|]. split; [exact M2|]. split; [exact M3|]. split; [exact M4|]. split.
    - intros (k & m & Hm & Hr). exact (proj1 (failures_ok teq Hteq g Hgood c Hc fs Hf tb Ht ts k m Hm) Hr).
    - intros k m Hm. exact (proj2 (failures_ok teq Hteq g Hgood c Hc fs Hf tb Ht ts k m Hm)).
  Qed.

  Lemma machine_one fuel p tb ts k m m1 m2 : slr_new teq fuel p g = Val tb ->
    mmoves teq g k (initial ts) m -> mmove teq g m m1 -> mmove teq g m m2 -> m1 = m2.
  Proof.
    intros H. destruct (slr_new_parts teq Hteq g Hb _ _ _ H) as (c & fs & _ & Hc & Hf & Ht).
    pose proof (built_good g Hb) as Hgood. eapply mmove_one; eassumption.
  Qed.

  Lemma no_empty_variables fuel p tb fuel' ts x : slr_new teq fuel p g = Val tb -> parse teq fuel' tb ts = Val (Some (to_node x)) ->
    never_empty x \/ exists cs, x = Branch (g_start g) (Branch (g_start g) [] :: cs) /\ Forall never_empty cs.
  Proof.
    intros H. destruct (slr_new_parts teq Hteq g Hb _ _ _ H) as (c & fs & _ & Hc & Hf & Ht).
    pose proof (built_good g Hb) as Hgood. eapply solid_result; eassumption.
  Qed.
End Final.
