(** The outcomes of a parse for grammars without epsilon. *)
From Coq Require Import Relation_Operators Operators_Properties.
From Verif Require Import Base GrammarModel CfsmModel SlrModel SpecCfg GrammarProofs FirstProofs FollowProofs GrammarTotal
  ItemProofs CfsmProofs CfsmCorrect TableProofs SlrTable SlrNew SlrRun SlrMoves SlrSim SlrFinal SpecMachine SlrMachine SpecCircle SlrLinear SlrPrefix SpecOutcome.

Section Outcome.
  Context {V T : Type} {dv : DecEq V} {dt : DecEq T}.
  Notation sym := (symbol V T).
  Notation tr := (tree V T).
  Variable teq : T -> T -> bool.
  Hypothesis Hteq : lawful teq.
  Variable g : grammar V T.
  Hypothesis Hgood : good g.
  Hypothesis Heps : epsilon_free g.
  Variable c : cfsm V T.
  Hypothesis Hc : cfsm_ok g c.
  Variable fs : list (V * list sym).
  Hypothesis Hf : exact_follow g fs.
  Variable tb : table V T.
  Hypothesis Htb : table_ok teq g c fs tb.

  Notation move := (SlrMoves.move teq g).
  Notation moves := (SlrMoves.moves teq g).
  Notation entry := (has_entry g fs).
  Notation stk := (SlrSim.stk c tb).
  Notation read_to := (read_to teq g).

  Let tsym x y : teq x y = true -> teq y x = true.
  Proof. apply Hteq. Qed.

  (** ** What is read *)

  Lemma last_or_nil {A} (l : list A) : l = [] \/ exists l' x, l = l' ++ [x].
  Proof. destruct l as [|y l]; [left; reflexivity|]. right. destruct (exists_last (l := y :: l)) as (l' & x & E); [discriminate|]. eauto. Qed.

  Definition due (w : list sym) (rest : list T) : Prop :=
    forall w' v, w = w' ++ [Var v] -> exists t ts' t', rest = t :: ts' /\ followed_by g v t' /\ teq t t' = true.

  Lemma move_due m m' : move m m' -> due (fst (fst m')) (snd m').
  Proof.
    destruct 1 as [w xs t ts t' h a r H1 H2|w bd xs ys t ts t' h h' a r H1 H2 H3 H4 H5]; cbn [fst snd]; intros w' v E; apply app_inj_tail in E; destruct E as [-> E].
    - discriminate.
    - injection E as ->. exists t, ts, t'. split; [reflexivity|]. split; [apply follow_steps; assumption|apply tsym; assumption].
  Qed.

  Lemma moves_due m m' : moves m m' -> due (fst (fst m)) (snd m) -> due (fst (fst m')) (snd m').
  Proof. induction 1 as [m|m m1 m2 H H' IH]; intros Hd; [assumption|]. apply IH. eapply move_due; eassumption. Qed.

  Lemma moves_read ts w xs rest : moves ([], [], ts) (w, xs, rest) -> read_to ts w xs rest.
  Proof.
    intros H. destruct (moves_ok teq g Heps ts _ _ H) as (H1 & H2 & H3).
    - split; [constructor|]. split; [constructor|reflexivity].
    - split; [exact H1|]. split; [exact H2|]. split; [symmetry; exact H3|]. apply (moves_due _ _ H). intros w' v E. destruct w'; discriminate.
  Qed.

  Lemma read_moves ts w xs rest d : read_to ts w xs rest -> lr0 g w d -> moves ([], [], ts) (w, xs, rest).
  Proof.
    intros (H1 & H2 & -> & Hd) Hl. destruct (last_or_nil w) as [->|(w0 & s & ->)].
    - inversion H1; subst. constructor.
    - destruct s as [t'|v|].
      + apply forall2_split in H1. destruct H1 as (xs1 & xs2 & -> & H1 & H3). inversion H3 as [|? x ? ? Hs H4]; subst. inversion H4; subst.
        apply Forall_app in H2. destruct H2 as [H2 _]. destruct x as [t|? ?]; [|destruct Hs]. cbn in Hs.
        destruct (lr0_last g _ _ _ Hl) as (h & a & r & Hl').
        rewrite flat_map_app. cbn [flat_map leaves app]. rewrite <- app_assoc. cbn [app].
        eapply moves_trans.
        * eapply (prefix_moves teq g Hgood Heps w0 xs1 t rest); [exact H1|exact H2|exact Hl'|].
          intros w' u ->. destruct u as [?|u|]; cbn; auto. exists t'. split; [assumption|]. eapply (lr0_follow g Heps); [exact Hl'|]. constructor.
        * apply moves_one. eapply move_shift; eassumption.
      + destruct (Hd w0 v eq_refl) as (t & ts' & t' & -> & Hfo & Ht).
        eapply (prefix_moves teq g Hgood Heps); [exact H1|exact H2|exact Hl|].
        intros w' u E. apply app_inj_tail in E. destruct E as [_ <-]. cbn. exists t'. split; [apply tsym; assumption|apply follow_steps; assumption].
      + apply forall2_split in H1. destruct H1 as (xs1 & xs2 & -> & H1 & H3). inversion H3 as [|? x ? ? Hs H4]; subst. destruct x; destruct Hs.
  Qed.
  (** ** Panics *)

  Lemma no_row_none w i : path c 0 w i ->
    (nth_error (tb_action tb) i = None <-> forall w' j, path c 0 w' j -> i <= j -> ~ macts g entry w').
  Proof.
    intros Hp. rewrite nth_error_None. split.
    - intros Hn w' j Hp' Hle Ha. pose proof (macts_some teq g c Hc fs Hf tb Htb w' j Hp' Ha) as E.
      assert (j < length (tb_action tb)) by (apply nth_error_Some; congruence). lia.
    - intros Hn. destruct (Nat.le_gt_cases (length (tb_action tb)) i) as [|Hlt]; [assumption|exfalso].
      apply (to_len _ _ _ _ _ Htb) in Hlt. destruct Hlt as (st & Hin & Hle & Hne).
      destruct (ok_reach _ _ Hc st Hin) as (w' & Hp'). apply (Hn w' _ Hp' Hle). apply (macts_row teq g c Hc fs Hf tb Htb w' _ Hp').
      intros E. pose proof (to_row _ _ _ _ _ Htb st Hin) as Hpm. rewrite E in Hpm. apply Permutation_nil in Hpm. congruence.
  Qed.

  Lemma no_gotos_none : (forall w, ~ mgotos g w) <-> tb_goto tb = [].
  Proof.
    split.
    - intros Hn. destruct (tb_goto tb) as [|row rows] eqn:E; [reflexivity|exfalso].
      assert (0 < length (tb_goto tb)) as Hlt by (rewrite E; cbn; lia). apply (to_glen _ _ _ _ _ Htb) in Hlt.
      destruct Hlt as (st & v & d & Hin & _ & Ht). destruct (ok_reach _ _ Hc st Hin) as (w & Hp).
      assert (path c 0 (w ++ [Var v]) d) as Hp' by (econstructor; eauto). apply (path_lr0 g Hgood c Hc) in Hp'. destruct Hp' as (d0 & Hl).
      apply (lr0_last g) in Hl. destruct Hl as (h & a & r & Hl). apply (Hn w). exists h, a, v, r. exact Hl.
    - intros E w (h & a & v & r & Hl). destruct (lr0_path g c Hc _ _ (lr0_adv g Heps _ _ _ _ _ Hl)) as (i & Hi).
      remember (w ++ [Var v]) as z eqn:Ez. destruct Hi as [|? ? j s k s0 Hi1 Hi2 Hi3 Hi4]; [destruct w; discriminate|].
      apply app_inj_tail in Ez. destruct Ez as [_ ->]. assert (0 < length (tb_goto tb)); [|rewrite E in *; cbn in *; lia].
      apply (to_glen _ _ _ _ _ Htb). exists s0, v, k. split; [assumption|]. split; [lia|assumption].
  Qed.

  Definition panics_at (m : list sym * list tr * list T) : Prop :=
    let '(w, xs, rem) := m in
    (exists i, path c 0 w i /\ nth_error (tb_action tb) i = None) \/
    (tb_goto tb = [] /\ lr0 g w (g_start g, w, []) /\ exists t ts t', rem = t :: ts /\ followb g (g_start g) t' /\ teq t t' = true).

  Lemma eof_panic w xs st fuel : stk w xs st -> ploop teq tb (S (S fuel)) [] st = Panic -> nth_error (tb_action tb) (top st) = None.
  Proof.
    intros Hst H. destruct (row_lookup teq g c fs tb Htb (top st)) as [E1|(E1 & _)]; [exfalso|exact E1].
    pose proof (stk_path _ _ _ _ _ Hst) as Hp. cbn [ploop eof_loop] in H. unfold handle_token in H. rewrite E1 in H. cbn [of_option bind] in H.
    destruct (row_get teq None (nth (top st) (tb_action tb) [])) as [a|] eqn:E2; [|discriminate].
    apply row_get_in in E2 as Hin. destruct Hin as (k & Ek & Hin).
    apply (row_action teq g c Hc fs Hf tb Htb w) in Hin; [|assumption]. destruct k as [t'|]; [discriminate|].
    destruct a as [d|h n|h n]; [destruct Hin|destruct Hin|]. destruct Hin as (-> & (bd & Hl & <-) & He).
    destruct (lr0_back g Heps _ _ _ _ Hl) as (w0 & -> & _). pose proof (stk_length _ _ _ _ _ Hst) as [_ Hln]. rewrite app_length in Hln.
    unfold drain in H. destruct (Nat.leb_spec (length bd) (length st)) as [_|Hbad]; [|lia]. discriminate.
  Qed.

  Lemma token_panic w xs t ts st fuel : stk w xs st -> (forall m', ~ move (w, xs, t :: ts) m') ->
    ploop teq tb (S fuel) (t :: ts) st = Panic -> panics_at (w, xs, t :: ts).
  Proof.
    intros Hst Hno H. pose proof (stk_path _ _ _ _ _ Hst) as Hp. cbn [panics_at].
    destruct (row_lookup teq g c fs tb Htb (top st)) as [E1|(E1 & _)]; [|left; eauto]. right.
    cbn [ploop] in H. unfold handle_token in H. rewrite E1 in H. cbn [of_option bind] in H.
    destruct (row_get teq (Some t) (nth (top st) (tb_action tb) [])) as [a|] eqn:E2; [|discriminate].
    apply row_get_in in E2 as Hin. destruct Hin as (k & Ek & Hin).
    apply (row_action teq g c Hc fs Hf tb Htb w) in Hin; [|assumption]. destruct k as [t'|]; [|discriminate]. cbn in Ek.
    destruct a as [d|h n|h n]; [| |destruct Hin].
    - exfalso. destruct Hin as [(h & a & r & Hl) Hd]. eapply Hno. eapply move_shift; [exact Hl|apply tsym; exact Ek].
    - destruct Hin as (bd & Hl & <- & Hfo). destruct (lr0_back g Heps _ _ _ _ Hl) as (w0 & -> & Hl0). rewrite app_nil_r in Hl0.
      destruct (stk_split _ _ _ _ _ _ Hst) as (xs1 & ys1 & -> & Hlen & Hst' & _). pose proof (stk_path _ _ _ _ _ Hst') as Hp'.
      destruct (lr0_init g Heps _ _ _ Hl0) as [[-> ->]|(h' & a & r & Hl')].
      + pose proof (stk_length _ _ _ _ _ Hst) as [_ Hln]. cbn [app] in Hln. destruct (stk_length _ _ _ _ _ Hst') as [_ Hln'].
        unfold drain in H. destruct (Nat.leb_spec (length bd) (length st)) as [_|Hbad]; [|lia]. cbn [bind] in H.
        assert (top (skipn (length bd) st) = 0) as E0 by (eapply (path_fun g c Hc); [exact Hp'|constructor]).
        destruct (skipn (length bd) st) as [|[nd k] rest] eqn:Es; [cbn in Hln'; lia|]. cbn [hd_error of_option bind snd top] in H, E0. subst k.
        destruct (tb_goto tb) as [|row rows] eqn:Eg.
        * split; [reflexivity|]. cbn [app] in Hl |- *. split; [exact Hl|]. exists t, ts, t'. auto.
        * exfalso. cbn [nth_error of_option bind] in H. destruct (mget (g_start g) row) as [d|] eqn:Em; [|discriminate].
          assert (Hd : mget (g_start g) (nth 0 (tb_goto tb) []) = Some d) by (rewrite Eg; exact Em).
          apply (row_goto teq g c Hc fs tb Htb [] 0) in Hd; [|constructor]. apply (path_lr0 g Hgood c Hc) in Hd. destruct Hd as (d0 & Hd).
          apply lr0_last in Hd. destruct Hd as (h' & a & r & Hl'). eapply Hno. eapply move_reduce; [exact Hl|exact Hfo|apply tsym; exact Ek|exact Hlen|exact Hl'].
      + exfalso. eapply Hno. eapply move_reduce; [exact Hl|exact Hfo|apply tsym; exact Ek|exact Hlen|exact Hl'].
  Qed.

  Lemma ploop_panic fuel : forall w xs rem st, stk w xs st -> ploop teq tb fuel rem st = Panic ->
    exists m, moves (w, xs, rem) m /\ panics_at m.
  Proof.
    induction fuel as [|fuel IH]; intros w xs rem st Hst H; [discriminate|].
    destruct rem as [|t ts].
    - destruct fuel as [|fuel]; [discriminate|]. exists (w, xs, []). split; [constructor|]. left. exists (top st).
      split; [eapply stk_path; eassumption|eapply eof_panic; eassumption].
    - destruct (step_cases teq Hteq g Hgood Heps c Hc fs Hf tb Htb w xs t ts st Hst) as [([[w' xs'] rem'] & Hm)|Hs].
      + destruct (move_sim teq Hteq g Heps c Hc fs Hf tb Htb _ _ _ _ _ _ _ Hst Hm) as (st' & Hst' & E). rewrite E in H.
        destruct (IH _ _ _ _ Hst' H) as (m & H1 & H2). exists m. split; [|assumption]. eapply moves_step; eassumption.
      + exists (w, xs, t :: ts). split; [constructor|]. eapply token_panic; [exact Hst| |exact H].
        intros [[w' xs'] rem'] Hm. destruct (move_sim teq Hteq g Heps c Hc fs Hf tb Htb _ _ _ _ _ _ _ Hst Hm) as (st' & Hst' & E).
        destruct Hs as [Hs|[Hs _]].
        * rewrite Hs in H. discriminate.
        * pose proof (E 0) as E0. rewrite Hs in E0. discriminate.
  Qed.

  Lemma panics_at_ploop w xs rem st fuel : stk w xs st -> panics_at (w, xs, rem) -> ploop teq tb (S (S fuel)) rem st = Panic.
  Proof.
    intros Hst [(i & Hp & E)|(Eg & Hl & t & ts & t' & -> & Hfo & Ht)]; pose proof (stk_path _ _ _ _ _ Hst) as Hp0.
    - assert (i = top st) as -> by (eapply (path_fun g c Hc); eassumption).
      destruct rem as [|t ts]; cbn [ploop eof_loop]; unfold handle_token; rewrite E; reflexivity.
    - assert (Hin : In (Some t', Reduce (g_start g) (length w)) (nth (top st) (tb_action tb) [])).
      { apply (row_action teq g c Hc fs Hf tb Htb w); [assumption|]. exists w. auto. }
      destruct (action_get teq Hteq g c Hc fs tb Htb w (top st) (Some t) (Some t') _ Hp0 Hin) as [E1 E2]; [exact Ht|].
      cbn [ploop]. unfold handle_token. rewrite E1. cbn [of_option bind]. rewrite E2.
      pose proof (stk_length _ _ _ _ _ Hst) as [_ Hln]. unfold drain. destruct (Nat.leb_spec (length w) (length st)) as [_|Hbad]; [|lia]. cbn [bind].
      destruct (skipn (length w) st) as [|[nd k] rest]; [reflexivity|]. cbn [hd_error of_option bind snd]. rewrite Eg. destruct k; reflexivity.
  Qed.

  Lemma panic_exact ts : (exists fuel, parse teq fuel tb ts = Panic) <-> crashing teq g entry c ts.
  Proof.
    split.
    - intros (fuel & H). rewrite parse_ploop in H. apply (ploop_panic fuel [] [] ts) in H; [|constructor].
      destruct H as ([[w xs] rem] & Hm & Hpa). apply moves_read in Hm.
      destruct Hpa as [(i & Hp & E)|(Eg & Hl & t & ts' & t' & -> & Hfo & Ht)].
      + left. exists w, xs, rem. split; [assumption|]. exists i. split; [assumption|]. apply (no_row_none w i Hp). exact E.
      + right. split; [apply no_gotos_none; exact Eg|]. exists w, xs, t, ts', t'. split; [|split; [assumption|split; [apply follow_steps; assumption|assumption]]].
        apply (lr0_rule g) in Hl. rewrite app_nil_r in Hl. exact Hl.
    - intros H. assert (Hx : exists m, moves ([], [], ts) m /\ panics_at m).
      { destruct H as [(w & xs & rest & Hr & i & Hp & Hn)|(Hn & bd & xs & t & rest & t' & Hru & Hr & Hfo & Ht)].
        - destruct (path_lr0 g Hgood c Hc _ _ Hp) as (d & Hl). exists (w, xs, rest). split; [eapply read_moves; eassumption|].
          left. exists i. split; [assumption|]. apply (no_row_none w i Hp). exact Hn.
        - pose proof (lr0_adv_all g Heps bd [] (g_start g) [] []) as Hl. rewrite app_nil_r in Hl. specialize (Hl (lr0_begin g Heps _ Hru)).
          cbn [app] in Hl. exists (bd, xs, t :: rest). split; [eapply read_moves; eassumption|].
          right. split; [apply no_gotos_none; assumption|]. split; [assumption|]. exists t, rest, t'. split; [reflexivity|].
          split; [apply follow_steps; assumption|assumption]. }
      destruct Hx as ([[w xs] rem] & Hm & Hpa).
      destruct (moves_sim teq Hteq g Heps c Hc fs Hf tb Htb [] [] ts w xs rem _ (stk_nil c tb) Hm) as (n & st & Hst & E).
      exists (n + 2). rewrite parse_ploop, E. apply (panics_at_ploop w xs rem st 0 Hst Hpa).
  Qed.
  (** ** Endless parses *)

  Lemma turn_adv w t v u : turn teq g w t v u -> lr0 g (w ++ [Var v]) (u, [Var v], []).
  Proof. intros [Hl _]. apply (lr0_adv g Heps) in Hl. exact Hl. Qed.

  Lemma cycle_step (R : V -> V -> Prop) v : clos_trans V R v v -> exists u u', R v u /\ R u u' /\ clos_trans V R u u.
  Proof.
    intros H. apply clos_trans_t1n in H. inversion H as [y Hr|y z Hr Ht]; subst.
    - exists v, v. split; [assumption|]. split; [assumption|]. apply t_step. assumption.
    - apply clos_t1n_trans in Ht. assert (Hc' : clos_trans V R y y) by (eapply t_trans; [exact Ht|apply t_step; exact Hr]).
      pose proof (clos_trans_t1n _ _ _ _ Ht) as Ht'. inversion Ht' as [y' Hr'|y' z' Hr' Ht'']; subst; eauto.
  Qed.

  Lemma spin_diverge w t rest fuel : forall v xs st, stk (w ++ [Var v]) xs st -> clos_trans V (turn teq g w t) v v ->
    ploop teq tb fuel (t :: rest) st = Diverge.
  Proof.
    induction fuel as [|fuel IH]; intros v xs st Hst Hcy; [reflexivity|].
    destruct (cycle_step _ _ Hcy) as (u & u' & H1 & H2 & Hcu).
    destruct (stk_split _ _ [Var v] _ _ _ Hst) as (xs0 & ys & -> & Hlen & _ & _).
    pose proof (turn_adv _ _ _ _ H1) as Hl. destruct H1 as [_ (t' & Hfo & Ht)]. destruct H2 as [Hl2 _].
    assert (Hm : move (w ++ [Var v], xs0 ++ ys, t :: rest) (w ++ [Var u], xs0 ++ [Branch u ys], t :: rest)).
    { eapply move_reduce; [exact Hl|apply follow_steps; exact Hfo|apply tsym; exact Ht|exact Hlen|exact Hl2]. }
    destruct (move_sim teq Hteq g Heps c Hc fs Hf tb Htb _ _ _ _ _ _ _ Hst Hm) as (st' & Hst' & E). rewrite E. eapply IH; eassumption.
  Qed.

  Lemma spinning_diverges ts : spinning teq g ts -> forall fuel, parse teq fuel tb ts = Diverge.
  Proof.
    intros (w & v & xs & t & rest & Hr & Hcy) fuel.
    destruct (cycle_step _ _ Hcy) as (u & u' & H1 & _ & _). pose proof (turn_adv _ _ _ _ H1) as Hl.
    pose proof (read_moves _ _ _ _ _ Hr Hl) as Hm.
    destruct (moves_sim teq Hteq g Heps c Hc fs Hf tb Htb [] [] ts _ _ _ _ (stk_nil c tb) Hm) as (n & st & Hst & E).
    destruct (parse teq fuel tb ts) as [o| |] eqn:Ep; [exfalso|exfalso|reflexivity];
      (apply (parse_stable teq tb fuel ts) with (fuel := n + fuel) in Ep; [|discriminate|lia];
       rewrite parse_ploop, E, (spin_diverge w t rest fuel v xs st Hst Hcy) in Ep; discriminate).
  Qed.

  Lemma word_app (p st : stack V T) : word (p ++ st) = word st ++ word p.
  Proof. unfold word. rewrite map_app, rev_app_distr. reflexivity. Qed.

  Lemma word_length (st : stack V T) : length (word st) = length st.
  Proof. unfold word. rewrite rev_length, map_length. reflexivity. Qed.

  Lemma mmove_move st rem m' xs : mmove teq g (st, rem) m' -> map snd st = map to_node (rev xs) ->
    exists xs', move (word st, xs, rem) (word (fst m'), xs', snd m') /\ map snd (fst m') = map to_node (rev xs').
  Proof.
    intros H Hn. inversion H as [st0 t ts t' h a r H1 H2|popped st0 t ts t' h bd h' a r H1 H2 H3 H4 H5]; subst; cbn [fst snd].
    - exists (xs ++ [Leaf t]). split.
      + change (word ((Ter t', Node (Ter t) []) :: st)) with (word st ++ [Ter t']). eapply move_shift; [exact H1|apply tsym; exact H2].
      + rewrite rev_app_distr. cbn. rewrite Hn. reflexivity.
    - rewrite word_app in *. destruct (lr0_back g Heps _ _ _ _ H1) as (w0 & E & _).
      apply app_inj_len in E; [|rewrite word_length; exact H4]. destruct E as [<- E].
      assert (Hlen : length popped + length st0 = length xs).
      { apply (f_equal (@length _)) in Hn. rewrite !map_length, rev_length, app_length in Hn. exact Hn. }
      pose proof (firstn_skipn (length st0) xs) as Hx. set (xs1 := firstn (length st0) xs) in *. set (ys := skipn (length st0) xs) in *.
      assert (Hys : length ys = length bd) by (unfold ys; rewrite skipn_length; lia).
      rewrite <- Hx, rev_app_distr, !map_app in Hn. apply app_inj_len in Hn.
      2:{ rewrite !map_length, rev_length. unfold xs1. rewrite firstn_length. lia. }
      destruct Hn as [N1 N2]. exists (xs1 ++ [Branch h ys]). split.
      + rewrite <- Hx. change (word ((Var h, Node (Var h) (map snd popped)) :: st0)) with (word st0 ++ [Var h]).
        rewrite E. eapply move_reduce; [rewrite E in H1; exact H1|apply follow_steps; exact H2|apply tsym; exact H3|exact Hys|exact H5].
      + rewrite rev_app_distr. cbn. rewrite N1, N2, map_rev. reflexivity.
  Qed.

  Lemma mmoves_moves k : forall st rem m' xs, mmoves teq g k (st, rem) m' -> map snd st = map to_node (rev xs) ->
    exists xs', moves (word st, xs, rem) (word (fst m'), xs', snd m').
  Proof.
    induction k as [|k IH]; intros st rem m' xs H Hn; inversion H as [|? ? [st1 rem1] ? H1 H2]; subst.
    - exists xs. constructor.
    - destruct (mmove_move _ _ _ _ H1 Hn) as (xs1 & Hm & Hn1). cbn [fst snd] in *.
      destruct (IH _ _ _ _ H2 Hn1) as (xs2 & Hm2). exists xs2. eapply moves_step; eassumption.
  Qed.

  Lemma still k : forall st rem st' rem', mmoves teq g k (st, rem) (st', rem') ->
    length rem' <= length rem /\ (length rem' = length rem -> length st' <= length st /\
      (length st' = length st -> 0 < k -> exists s n0 u n1 st0 t r, st = (s, n0) :: st0 /\ st' = (Var u, n1) :: st0 /\ rem = t :: r /\
         forall v, s = Var v -> clos_trans V (turn teq g (word st0) t) v u)).
  Proof.
    induction k as [|k IH]; intros st rem st' rem' H; inversion H as [|? ? [st1 rem1] ? H1 H2]; subst.
    - split; [lia|]. intros _. split; [lia|]. lia.
    - destruct (IH _ _ _ _ H2) as [I1 I2].
      inversion H1 as [st0 t ts t' h a r L1 L2|popped st0 t ts t' h bd h' a r L1 L2 L3 L4 L5]; subst.
      + cbn [length] in *. split; [lia|]. lia.
      + split; [exact I1|]. intros E. destruct (I2 E) as [I3 I4]. pose proof (body_nonempty g Hgood _ _ _ L1) as Hne.
        assert (0 < length popped) by (rewrite L4; destruct bd; [congruence|cbn; lia]). cbn [length] in I3. rewrite app_length. split; [lia|].
        intros E2 _. destruct popped as [|[s n0] [|]]; cbn [length] in *; try lia. cbn [app] in *.
        rewrite (word_cons s n0 st0) in L1. destruct bd as [|x [|]]; cbn in L4; try lia.
        destruct (lr0_back g Heps _ _ _ _ L1) as (w0 & Ew & Hl0). apply app_inj_tail in Ew. destruct Ew as [<- <-]. cbn [app] in Hl0.
        assert (Ht : forall v, s = Var v -> turn teq g (word st0) t v h).
        { intros v ->. split; [exact Hl0|]. exists t'. auto. }
        destruct k as [|k].
        * inversion H2; subst. exists s, n0, h. do 4 eexists. split; [reflexivity|]. split; [reflexivity|]. split; [reflexivity|].
          intros v Hv. apply t_step. auto.
        * destruct I4 as (s1 & n2 & u & n1 & st2 & t1 & r1 & J1 & J2 & J3 & J4); [lia|lia|]. injection J1 as <- <- <-. injection J3 as <- <-.
          exists s, n0, u, n1, st0, t, ts. split; [reflexivity|]. split; [assumption|]. split; [reflexivity|].
          intros v Hv. eapply t_trans; [apply t_step; apply Ht; exact Hv|]. apply J4. reflexivity.
  Qed.

  Lemma circles_spinning ts : circles teq g (initial ts) -> spinning teq g ts.
  Proof.
    intros (i & [st1 rem1] & j & [st2 rem2] & Hi & Hj & E). unfold shape in E. cbn [fst snd] in E. injection E as E1 E2.
    destruct (still _ _ _ _ _ Hj) as [_ H]. assert (El : length st2 = length st1) by (apply (f_equal (@length _)) in E1; rewrite !map_length in E1; exact E1).
    destruct (H (f_equal _ E2)) as [_ H']. destruct (H' El) as (s & n0 & u & n1 & st0 & t & r & -> & -> & -> & Hcy); [lia|].
    cbn [map fst] in E1. injection E1 as <-. specialize (Hcy u eq_refl).
    destruct (mmoves_moves _ _ _ _ [] Hi eq_refl) as (xs & Hm). cbn [fst snd] in Hm. rewrite word_cons in Hm. apply moves_read in Hm.
    exists (word st0), u, xs, t, r. split; assumption.
  Qed.
End Outcome.

Section Final.
  Context {V T : Type} {dv : DecEq V} {dt : DecEq T} {ho : HashOrder}.
  Variable teq : T -> T -> bool.
  Hypothesis Hteq : lawful teq.
  Variable g : grammar V T.
  Hypothesis Hb : built g.

  Lemma outcomes fuel p tb : epsilon_free g -> slr_new teq fuel p g = Val tb ->
    exists c (e : Prop), from_grammar fuel (0 :: p) g = Val c /\
      (entry_sure g (g_start g) -> e) /\ (e -> entry_possible g (g_start g)) /\
      forall ts,
        (forall n, (exists fuel', parse teq fuel' tb ts = Val (Some n)) <-> e /\ exists x, accepted teq g ts x /\ n = to_node x) /\
        ((exists fuel', parse teq fuel' tb ts = Panic) <-> crashing teq g e c ts) /\
        ((forall fuel', parse teq fuel' tb ts = Diverge) <-> spinning teq g ts) /\
        ((exists fuel', parse teq fuel' tb ts = Val None) <->
           ~ (e /\ exists x, accepted teq g ts x) /\ ~ crashing teq g e c ts /\ ~ spinning teq g ts).
  Proof.
    intros Heps H. pose proof (built_good g Hb) as Hgood. destruct (slr_new_parts teq Hteq g Hb _ _ _ H) as (c & fs & E & Hc & Hf & Ht).
    exists c, (has_entry g fs). split; [exact E|]. split; [intros He; eapply entry_sure_has; eassumption|].
    split; [intros He; eapply has_entry_possible; eassumption|]. intros ts.
    assert (A1 : forall n, (exists fuel', parse teq fuel' tb ts = Val (Some n)) <-> has_entry g fs /\ exists x, accepted teq g ts x /\ n = to_node x).
    { intros n. split.
      - intros (f & Hp). destruct (parse_accepted teq Hteq g Hgood Heps c Hc fs Hf tb Ht _ _ _ Hp) as (He & Hx). split; assumption.
      - intros (He & x & Ha & ->). destruct (accepted_parse teq Hteq g Hgood Heps c Hc fs Hf tb Ht ts x Ha He) as (k & Hk). exists k. apply Hk. lia. }
    pose proof (panic_exact teq Hteq g Hgood Heps c Hc fs Hf tb Ht ts) as A2.
    assert (A3 : (forall fuel', parse teq fuel' tb ts = Diverge) <-> spinning teq g ts).
    { split.
      - intros Hd. eapply (circles_spinning teq Hteq g Hgood Heps). apply (parse_circle teq Hteq g Hb fuel p tb ts H). exact Hd.
      - apply (spinning_diverges teq Hteq g Hgood Heps c Hc fs Hf tb Ht). }
    split; [exact A1|]. split; [exact A2|]. split; [exact A3|]. split.
    - intros (f & Hp). split; [|split].
      + intros (He & x & Ha). destruct (proj2 (A1 (to_node x))) as (f' & Hp'); [eauto|].
        pose proof (parse_one teq tb f f' ts _ _ Hp Hp'). discriminate H0; discriminate.
      + intros Hcr. apply A2 in Hcr. destruct Hcr as (f' & Hp'). pose proof (parse_one teq tb f f' ts _ _ Hp Hp'). discriminate H0; discriminate.
      + intros Hs. rewrite (proj2 A3 Hs) in Hp. discriminate.
    - intros (N1 & N2 & N3). set (B := (2 * length ts + 1) * (length (g_rules g) + 1) + 1).
      exists B. destruct (parse teq B tb ts) as [[n|]| |] eqn:Ep; [exfalso|reflexivity|exfalso|exfalso].
      + destruct (proj1 (A1 n)) as (He & x & Ha & _); [eauto|]. apply N1. eauto.
      + apply N2. apply A2. eauto.
      + apply N3. apply A3. intros f. destruct (Nat.le_gt_cases B f) as [Hle|Hlt].
        * rewrite (parse_linear teq Hteq g Hb fuel p tb ts f H Hle). exact Ep.
        * destruct (parse teq f tb ts) as [o| |] eqn:Ef; [exfalso|exfalso|reflexivity];
            (apply (parse_stable teq tb f ts) with (fuel := B) in Ef; [|discriminate|lia]; congruence).
  Qed.
End Final.

(** ** Some input *)
Section Some.
  Context {V T : Type} {dv : DecEq V} {dt : DecEq T}.
  Notation sym := (symbol V T).
  Notation tr := (tree V T).
  Variable teq : T -> T -> bool.
  Hypothesis Hteq : lawful teq.
  Variable g : grammar V T.
  Hypothesis Hgood : good g.
  Hypothesis Heps : epsilon_free g.
  Variable c : cfsm V T.
  Hypothesis Hc : cfsm_ok g c.
  Variable e : Prop.

  Lemma tree_steps (x : tr) : derivation g teq x -> forall s, sat teq s x -> exists ws, steps g [s] (map Ter ws).
  Proof.
    induction x as [t|v cs IH] using tree_ind2; intros Hd s Hs.
    - destruct s as [t'|?|]; cbn in Hs; try tauto. exists [t']. constructor.
    - destruct s as [?|v'|]; cbn in Hs; try tauto. subst v'. inversion Hd as [|? bd ? Hr H2 H3]; subst.
      assert (Hx : exists ws, steps g bd (map Ter ws)).
      { clear Hd Hr. revert cs IH H2 H3. induction bd as [|s bd IHb]; intros cs IH H2 H3; [exists []; constructor|].
        cbn [filter] in H2. assert (Hcase : s = Eps \/ not_eps s = true) by (destruct s; cbn; auto).
        destruct Hcase as [->|Hne].
        - cbn in H2. destruct (IHb cs IH H2 H3) as (ws & Hw). exists ws.
          eapply steps_trans; [|exact Hw]. eapply steps_next; [constructor|]. exact (step_eps g [] bd).
        - rewrite Hne in H2. inversion H2 as [|? x ? cs' Hx Hcs]; subst. inversion IH as [|? ? I1 I2]; subst. inversion H3 as [|? ? D1 D2]; subst.
          destruct (I1 D1 s Hx) as (ws1 & W1). destruct (IHb cs' I2 Hcs D2) as (ws2 & W2). exists (ws1 ++ ws2). rewrite map_app.
          eapply steps_trans; [exact (steps_ctx g [] bd _ _ W1)|]. cbn [app]. pose proof (steps_ctx g (map Ter ws1) [] _ _ W2) as W3. rewrite !app_nil_r in W3. exact W3. }
      destruct Hx as (ws & Hw). exists ws. eapply steps_trans; [|exact Hw]. eapply steps_next; [constructor|].
      pose proof (step_rule g [] v bd [] Hr) as Hst. cbn [app] in Hst. rewrite app_nil_r in Hst. exact Hst.
  Qed.

  Lemma read_productive ts w xs rest : read_to teq g ts w xs rest -> all_productive g w.
  Proof.
    intros (H1 & H2 & _) v Hin. clear ts rest. induction H1 as [|s x w xs Hs H1 IH]; [destruct Hin|]. inversion H2 as [|? ? D1 D2]; subst.
    destruct Hin as [->|Hin]; [|auto]. exact (tree_steps x D1 _ Hs).
  Qed.

  Lemma productive_read w : all_productive g w -> ~ In Eps w -> exists xs, Forall2 (sat teq) w xs /\ Forall (derivation g teq) xs.
  Proof.
    induction w as [|s w IH]; intros Hp Hn; [exists []; split; constructor|].
    destruct IH as (xs & H1 & H2); [intros v Hv; apply Hp; right; exact Hv|intros Hi; apply Hn; right; exact Hi|].
    destruct s as [t|v|].
    - exists (Leaf t :: xs). split; constructor; auto; [apply (proj1 Hteq)|constructor].
    - destruct (productive_tree teq Hteq g v) as (x & D & Hs); [apply Hp; left; reflexivity|]. exists (x :: xs). split; constructor; auto.
    - exfalso. apply Hn. left. reflexivity.
  Qed.

  Lemma viable_noeps w d : lr0 g w d -> ~ In Eps w.
  Proof.
    revert d. induction w as [|s w IH] using rev_ind; intros d Hl; [intros []|].
    destruct (lr0_last g _ _ _ Hl) as (h & a & r & Hl'). rewrite in_app_iff. intros [Hi|[->|[]]]; [exact (IH _ Hl' Hi)|].
    apply (lr0_noeps g Heps _ _ _ _ Hl'). apply in_app_iff. right. left. reflexivity.
  Qed.

  Lemma some_crash : (exists ts, crashing teq g e c ts) <-> can_crash g e c.
  Proof.
    split.
    - intros (ts & [(w & xs & rest & Hr & Hn)|(Hn & bd & xs & t & rest & t' & _ & _ & Hfo & _)]); [left|right; eauto].
      exists w. split; [exact (read_productive _ _ _ _ Hr)|]. split; [|assumption]. destruct Hr as (_ & _ & _ & Hd).
      intros w' v E. destruct (Hd w' v E) as (t & ts' & t' & _ & Hfo & _). eauto.
    - intros [(w & Hp & Hfo & Hn)|(Hn & t & Hfo)].
      + pose proof Hn as (i & Hpa & _). destruct (path_lr0 g Hgood c Hc _ _ Hpa) as (d & Hl).
        destruct (productive_read w Hp (viable_noeps _ _ Hl)) as (xs & H1 & H2).
        destruct (last_or_nil w) as [->|(w0 & s & ->)].
        * exists (flat_map leaves xs ++ []). left. exists [], xs, []. split; [|assumption]. split; [assumption|]. split; [assumption|]. split; [reflexivity|].
          intros w' v E. destruct w'; discriminate.
        * destruct s as [t|v|].
          -- exists (flat_map leaves xs ++ []). left. exists (w0 ++ [Ter t]), xs, []. split; [|assumption]. split; [assumption|]. split; [assumption|]. split; [reflexivity|].
             intros w' v E. apply app_inj_tail in E. destruct E as [_ E]. discriminate.
          -- destruct (Hfo w0 v eq_refl) as (t & Ht). exists (flat_map leaves xs ++ [t]). left. exists (w0 ++ [Var v]), xs, [t].
             split; [|assumption]. split; [assumption|]. split; [assumption|]. split; [reflexivity|].
             intros w' v' E. apply app_inj_tail in E. destruct E as [_ [= <-]]. exists t, [], t. split; [reflexivity|]. split; [assumption|]. apply (proj1 Hteq).
          -- exfalso. apply (viable_noeps _ _ Hl). apply in_app_iff. right. left. reflexivity.
      + destruct (good_start g Hgood) as (bd & Hr). pose proof (start_noeps g Heps _ Hr) as Hne.
        assert (Hnov : forall v, ~ In (Var v) bd).
        { intros v Hin. apply in_split in Hin. destruct Hin as (l & r & ->). pose proof (lr0_begin g Heps _ Hr) as Hl.
          apply (lr0_adv_all g Heps l [] (g_start g) []) in Hl. eapply Hn. do 4 eexists. exact Hl. }
        destruct (productive_read bd) as (xs & H1 & H2); [intros v Hv; destruct (Hnov v Hv)|exact Hne|].
        exists (flat_map leaves xs ++ [t]). right. split; [assumption|]. exists bd, xs, t, [], t. split; [assumption|]. split.
        * split; [assumption|]. split; [assumption|]. split; [reflexivity|]. intros w' v ->. exfalso. apply (Hnov v). apply in_app_iff. right. left. reflexivity.
        * split; [assumption|apply (proj1 Hteq)].
  Qed.

  Lemma some_spin : (exists ts, spinning teq g ts) <-> can_spin teq g.
  Proof.
    split.
    - intros (ts & w & v & xs & t & rest & Hr & Hcy). exists w, v, t. split; [exact (read_productive _ _ _ _ Hr)|assumption].
    - intros (w & v & t & Hp & Hcy). assert (Hin : exists y, turn teq g w t v y) by (apply clos_trans_t1n in Hcy; inversion Hcy; eauto).
      destruct Hin as (y & Hty). assert (Hout : exists y, turn teq g w t y v) by (apply clos_trans_tn1 in Hcy; inversion Hcy; eauto).
      destruct Hout as (z & _ & t' & Hfo & Ht).
      destruct (productive_read (w ++ [Var v]) Hp) as (xs & H1 & H2); [apply (viable_noeps _ (y, [Var v], [])); destruct Hty as [Hl _]; exact (lr0_adv g Heps _ _ _ _ _ Hl)|].
      exists (flat_map leaves xs ++ [t]), w, v, xs, t, []. split; [|assumption]. split; [assumption|]. split; [assumption|]. split; [reflexivity|].
      intros w' v' E. apply app_inj_tail in E. destruct E as [_ [= <-]]. exists t, [], t'. auto.
  Qed.
End Some.

Section FinalSome.
  Context {V T : Type} {dv : DecEq V} {dt : DecEq T} {ho : HashOrder}.
  Variable teq : T -> T -> bool.
  Hypothesis Hteq : lawful teq.
  Variable g : grammar V T.
  Hypothesis Hb : built g.

  Lemma some_input fuel p tb : epsilon_free g -> slr_new teq fuel p g = Val tb ->
    exists c (e : Prop), from_grammar fuel (0 :: p) g = Val c /\
      (entry_sure g (g_start g) -> e) /\ (e -> entry_possible g (g_start g)) /\
      ((exists ts fuel', parse teq fuel' tb ts = Panic) <-> can_crash g e c) /\
      ((exists ts, forall fuel', parse teq fuel' tb ts = Diverge) <-> can_spin teq g).
  Proof.
    intros Heps H. destruct (outcomes teq Hteq g Hb fuel p tb Heps H) as (c & e & E & He1 & He2 & Ho). exists c, e.
    split; [exact E|]. split; [exact He1|]. split; [exact He2|]. pose proof (built_good g Hb) as Hgood.
    pose proof (from_grammar_answer g Hb _ _ _ E) as Hc. split.
    - rewrite <- (some_crash teq Hteq g Hgood Heps c Hc e). split; intros (ts & Hx); exists ts; apply (Ho ts); exact Hx.
    - rewrite <- (some_spin teq Hteq g Heps). split; intros (ts & Hx); exists ts; apply (Ho ts); exact Hx.
  Qed.
End FinalSome.
