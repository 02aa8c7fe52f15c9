(** The parser follows the moves; soundness, completeness, uniqueness,
    termination and panics for grammars without epsilon. *)
From Verif Require Import Base GrammarModel CfsmModel SlrModel SpecCfg GrammarProofs FirstProofs FollowProofs GrammarTotal
  ItemProofs CfsmProofs CfsmCorrect TableProofs SlrTable SlrNew SlrRun SlrMoves.

Section Sim.
  Context {V T : Type} {dv : DecEq V} {dt : DecEq T}.
  Notation sym := (symbol V T).
  Notation tr := (tree V T).
  Variable teq : T -> T -> bool.
  Hypothesis Hteq : lawful teq.
  Variable g : grammar V T.
  Hypothesis Hgood : good g.
  Hypothesis Heps : epsilon_free g.
  Variable c : cfsm V T.
  Hypothesis Hc : cfsm_ok g c.
  Variable fs : list (V * list sym).
  Hypothesis Hf : exact_follow g fs.
  Variable tb : table V T.
  Hypothesis Htb : table_ok teq g c fs tb.

  Notation move := (move teq g).
  Notation moves := (moves teq g).
  Notation entry := (has_entry g fs).

  Lemma teq_sym x y : teq x y = true -> teq y x = true.
  Proof. apply Hteq. Qed.

  Lemma lr0_path w d : lr0 g w d -> exists i, path c 0 w i.
  Proof. intros H. apply lr0_li in H. destruct H as (it & H & _). eapply li_path; eauto. Qed.

  Lemma path_lr0 w i : path c 0 w i -> exists d, lr0 g w d.
  Proof. intros H. destruct (path_nonempty g Hgood c Hc w i H) as (it & Hi). exists (dotted_of it). apply li_lr0; auto. Qed.

  (** ** Stacks *)

  Inductive stk : list sym -> list tr -> list (parse_node V T) -> Prop :=
  | stk_nil : stk [] [] (stack0 tb)
  | stk_snoc : forall w xs st s x k, stk w xs st -> path c 0 (w ++ [s]) k ->
      stk (w ++ [s]) (xs ++ [x]) ((to_node x, k) :: st).

  Lemma stk_path w xs st : stk w xs st -> path c 0 w (top st).
  Proof. destruct 1; [constructor|auto]. Qed.

  Lemma stk_length w xs st : stk w xs st -> length xs = length w /\ length st = S (length w).
  Proof.
    induction 1 as [|w xs st s x k H [IH1 IH2] Hp]; [auto|]. rewrite !app_length. cbn. lia.
  Qed.

  Lemma stk_split bd : forall w zs st, stk (w ++ bd) zs st ->
    exists xs ys, zs = xs ++ ys /\ length ys = length bd /\ stk w xs (skipn (length bd) st) /\
      map fst (firstn (length bd) st) = rev (map to_node ys).
  Proof.
    induction bd as [|s bd IH] using rev_ind; intros w zs st H.
    - exists zs, []. rewrite !app_nil_r in *. cbn. auto.
    - rewrite app_assoc in H. remember ((w ++ bd) ++ [s]) as z eqn:E. destruct H as [|w' xs st s' x k H Hp].
      + destruct (w ++ bd); discriminate.
      + apply app_inj_tail in E. destruct E as [-> ->]. destruct (IH _ _ _ H) as (xs1 & ys & -> & Hl & Hst & Hm).
        exists xs1, (ys ++ [x]). rewrite <- app_assoc, !app_length. cbn [length]. rewrite Nat.add_comm, Nat.add_1_r. cbn [plus skipn firstn map fst].
        split; auto. split; [f_equal; auto|]. split; auto. rewrite map_app, rev_app_distr. cbn. f_equal. auto.
  Qed.

  Lemma row_at w i (row : list (key T * action V)) : path c 0 w i -> nth_error (tb_action tb) i = Some row ->
    row = nth i (tb_action tb) [].
  Proof. intros _ H. symmetry. apply nth_error_nth. auto. Qed.

  (** A move is what the parser does. *)
  Lemma move_sim w xs rem w' xs' rem' st : stk w xs st -> move (w, xs, rem) (w', xs', rem') ->
    exists st', stk w' xs' st' /\ forall fuel, ploop teq tb (S fuel) rem st = ploop teq tb fuel rem' st'.
  Proof.
    intros Hst Hm. pose proof (stk_path _ _ _ Hst) as Hp.
    remember (w, xs, rem) as m eqn:Em. remember (w', xs', rem') as m' eqn:Em'.
    destruct Hm as [w0 xs0 t ts t' h a r H1 H2|w0 bd xs0 ys t ts t' h h' a r H1 H2 H3 H4 H5];
      injection Em as <- <- <-; injection Em' as <- <- <-.
    - destruct (lr0_path _ _ (lr0_adv g Heps _ _ _ _ _ H1)) as (d & Hd).
      assert (Hin : In (Some t', Shift d) (nth (top st) (tb_action tb) [])).
      { apply (row_action teq g c Hc fs Hf tb Htb w0); auto. split; eauto. }
      destruct (action_get teq Hteq g c Hc fs tb Htb w0 (top st) (Some t) (Some t') (Shift d) Hp Hin) as [E1 E2].
      { cbn. apply teq_sym; auto. }
      exists ((to_node (Leaf t), d) :: st). split; [constructor; auto|].
      intros fuel. cbn [ploop]. unfold handle_token. rewrite E1. cbn [of_option bind]. rewrite E2. reflexivity.
    - assert (Hin : In (Some t', Reduce h (length bd)) (nth (top st) (tb_action tb) [])).
      { apply (row_action teq g c Hc fs Hf tb Htb (w0 ++ bd)); auto. exists bd. auto. }
      destruct (action_get teq Hteq g c Hc fs tb Htb (w0 ++ bd) (top st) (Some t) (Some t') _ Hp Hin) as [E1 E2].
      { cbn. apply teq_sym; auto. }
      destruct (stk_split _ _ _ _ Hst) as (xs1 & ys1 & E & Hl & Hst' & Hm).
      assert (xs1 = xs0 /\ ys1 = ys) as [-> ->].
      { assert (Hlen : length (xs0 ++ ys) = length (xs1 ++ ys1)) by congruence. rewrite !app_length in Hlen.
        assert (Hx : length xs0 = length xs1) by lia. clear - E Hx. revert xs1 E Hx.
        induction xs0 as [|z xs0 IH]; intros [|z' xs1] E Hx; cbn in *; try lia; auto.
        injection E as <- E. destruct (IH xs1 E) as [<- <-]; auto. }
      destruct (lr0_path _ _ (lr0_adv g Heps _ _ _ _ _ H5)) as (d & Hd).
      exists ((to_node (Branch h ys), d) :: skipn (length bd) st). split; [constructor; auto|].
      pose proof (stk_path _ _ _ Hst') as Hp'. pose proof (stk_length _ _ _ Hst) as [_ Hlen]. rewrite app_length in Hlen.
      intros fuel. cbn [ploop]. unfold handle_token. rewrite E1. cbn [of_option bind]. rewrite E2.
      unfold drain. destruct (Nat.leb_spec (length bd) (length st)) as [_|Hbad]; [|lia]. cbn [bind].
      destruct (stk_length _ _ _ Hst') as [_ Hlen'].
      pose proof (proj2 (row_goto teq g c Hc fs tb Htb w0 _ h d Hp') Hd) as Hg.
      destruct (skipn (length bd) st) as [|[nd k] rest] eqn:Es; [cbn in Hlen'; lia|].
      cbn [hd_error of_option bind snd top] in *.
      destruct (goto_lookup teq g c fs tb Htb k) as [Eg|(_ & Eg & _)]; [|rewrite Eg in Hg; discriminate].
      rewrite Eg. cbn [of_option bind]. rewrite Hg. rewrite Hm. reflexivity.
  Qed.

  Lemma moves_sim w xs rem w' xs' rem' st : stk w xs st -> moves (w, xs, rem) (w', xs', rem') ->
    exists n st', stk w' xs' st' /\ forall fuel, ploop teq tb (n + fuel) rem st = ploop teq tb fuel rem' st'.
  Proof.
    intros Hst Hm. remember (w, xs, rem) as m eqn:Em. remember (w', xs', rem') as m' eqn:Em'.
    revert w xs rem st Em Hst. induction Hm as [m|m [[w1 xs1] rem1] m2 H H' IH]; intros w xs rem st -> Hst.
    - injection Em' as -> -> ->. exists 0, st. auto.
    - destruct (move_sim _ _ _ _ _ _ _ Hst H) as (st1 & Hst1 & E).
      destruct (IH Em' _ _ _ _ eq_refl Hst1) as (n & st2 & Hst2 & E2). exists (S n), st2. split; auto.
      intros fuel. cbn [plus]. rewrite E. auto.
  Qed.

  (** Why the parser may panic: a viable prefix without any request, or a
      reduction to the start variable when no state has a goto. *)
  Definition no_requests (w : list sym) : Prop := (exists d, lr0 g w d) /\ forall d k, ~ wants g entry w d k.
  Definition no_gotos : Prop := forall w h a v r, ~ lr0 g w (h, a, Var v :: r).
  Definition panic_reason : Prop :=
    (exists w, no_requests w) \/ (no_gotos /\ exists t, followb g (g_start g) t).

  Lemma empty_row w i : path c 0 w i -> (forall st, In st (cf_states c) -> i <= cs_id st -> state_acts g fs st = []) -> no_requests w.
  Proof.
    intros Hp He. split; [eapply path_lr0; eauto|]. intros d k Hw.
    destruct (path_state g c Hc _ _ Hp) as (st & H1 & H2 & _).
    destruct (wants_item g c Hc fs Hf w i st d k Hp H1 H2 Hw) as (it & a & Hin & _).
    assert (Hin' : In (k, a) (state_acts g fs st)).
    { rewrite <- labelled_acts. change (k, a) with (snd (it, (k, a))). apply in_map; auto. }
    rewrite He in Hin'; auto. lia.
  Qed.

  (** Every configuration with a token moves, or the parser stops. *)
  Lemma step_cases w xs t ts st : stk w xs st ->
    (exists m', move (w, xs, t :: ts) m') \/
    (forall fuel, ploop teq tb (S fuel) (t :: ts) st = Val None) \/
    ((forall fuel, ploop teq tb (S fuel) (t :: ts) st = Panic) /\ panic_reason).
  Proof.
    intros Hst. pose proof (stk_path _ _ _ Hst) as Hp.
    destruct (row_lookup teq g c fs tb Htb (top st)) as [E1|(E1 & E2 & E3)].
    2:{ right. right. split.
        - intros fuel. cbn [ploop]. unfold handle_token. rewrite E1. reflexivity.
        - left. exists w. eapply empty_row; eauto. }
    destruct (row_get teq (Some t) (nth (top st) (tb_action tb) [])) as [a|] eqn:E2.
    2:{ right. left. intros fuel. cbn [ploop]. unfold handle_token. rewrite E1. cbn [of_option bind]. rewrite E2. reflexivity. }
    apply row_get_in in E2 as Hin. destruct Hin as (k & Ek & Hin).
    apply (row_action teq g c Hc fs Hf tb Htb w) in Hin; auto. destruct k as [t'|]; [|discriminate]. cbn in Ek.
    destruct a as [d|h n|h n]; [| |destruct Hin].
    - destruct Hin as [(h & a & r & Hl) Hd]. left. eexists. eapply move_shift; eauto. apply teq_sym; auto.
    - destruct Hin as (bd & Hl & <- & Hfo). destruct (lr0_back g Heps _ _ _ _ Hl) as (w0 & -> & Hl0). rewrite app_nil_r in Hl0.
      destruct (stk_split _ _ _ _ Hst) as (xs1 & ys1 & -> & Hlen & Hst' & Hm).
      pose proof (stk_path _ _ _ Hst') as Hp'.
      assert (Heq : forall fuel, ploop teq tb (S fuel) (t :: ts) st =
        match nth_error (tb_goto tb) (top (skipn (length bd) st)) with
        | None => Panic
        | Some grow =>
          match mget h grow with
          | None => Val None
          | Some d => ploop teq tb fuel (t :: ts) ((Node (Var h) (map fst (firstn (length bd) st)), d) :: skipn (length bd) st)
          end
        end).
      { intros fuel. cbn [ploop]. unfold handle_token. rewrite E1. cbn [of_option bind]. rewrite E2.
        pose proof (stk_length _ _ _ Hst) as [_ Hln]. rewrite app_length in Hln.
        unfold drain. destruct (Nat.leb_spec (length bd) (length st)) as [_|Hbad]; [|lia]. cbn [bind].
        destruct (stk_length _ _ _ Hst') as [_ Hln'].
        destruct (skipn (length bd) st) as [|[nd k] rest] eqn:Es; [cbn in Hln'; lia|]. cbn [hd_error of_option bind snd top].
        destruct (nth_error (tb_goto tb) k) as [grow|]; cbn [of_option bind]; auto. destruct (mget h grow); auto. }
      destruct (goto_lookup teq g c fs tb Htb (top (skipn (length bd) st))) as [Eg|(Eg & _ & E3)].
      + rewrite Eg in Heq. destruct (mget h (nth (top (skipn (length bd) st)) (tb_goto tb) [])) as [d|] eqn:Em; [|auto].
        apply (row_goto teq g c Hc fs tb Htb w0) in Em; auto. apply path_lr0 in Em. destruct Em as (d0 & Em). apply lr0_last in Em.
        destruct Em as (h' & a & r & Hl'). left. eexists. eapply move_reduce; eauto. apply teq_sym; auto.
      + rewrite Eg in Heq. destruct (lr0_init g Heps _ _ _ Hl0) as [[-> ->]|(h' & a & r & Hl')].
        * right. right. split; auto. right. split; [|eauto]. intros w h a v r Hl'.
          assert (top (skipn (length bd) st) = 0) as E0 by (eapply (path_fun g c Hc); [exact Hp'|constructor]).
          rewrite E0 in E3. assert (E4 : forall st0 v0 d0, In st0 (cf_states c) -> ~ In (Var v0, d0) (cs_trans st0)) by (intros; apply E3; auto; lia).
          destruct (lr0_path _ _ (lr0_adv g Heps _ _ _ _ _ Hl')) as (i & Hi).
          remember (w ++ [Var v]) as z eqn:Ez. destruct Hi as [|? ? j s k s0 Hi1 Hi2 Hi3 Hi4]; [destruct w; discriminate|].
          apply app_inj_tail in Ez. destruct Ez as [_ ->]. apply (E4 s0 v k Hi2); auto.
        * exfalso. destruct (lr0_path _ _ (lr0_adv g Heps _ _ _ _ _ Hl')) as (i & Hi).
          apply (row_goto teq g c Hc fs tb Htb w0 _ h i Hp') in Hi.
          apply nth_error_None in Eg. rewrite nth_overflow in Hi by auto. discriminate.
  Qed.

  (** The end of the input. *)
  Lemma eof_cases w xs st : stk w xs st ->
    (exists x, accepting g (w, xs, []) x /\ entry /\ forall fuel, ploop teq tb (S (S fuel)) [] st = Val (Some (to_node x))) \/
    (forall fuel, ploop teq tb (S (S fuel)) [] st = Val None) \/
    ((forall fuel, ploop teq tb (S (S fuel)) [] st = Panic) /\ panic_reason).
  Proof.
    intros Hst. pose proof (stk_path _ _ _ Hst) as Hp. cbn [ploop eof_loop].
    destruct (row_lookup teq g c fs tb Htb (top st)) as [E1|(E1 & E2 & E3)].
    2:{ right. right. split.
        - intros fuel. unfold handle_token. rewrite E1. reflexivity.
        - left. exists w. eapply empty_row; eauto. }
    unfold handle_token. rewrite E1. cbn [of_option bind].
    destruct (row_get teq None (nth (top st) (tb_action tb) [])) as [a|] eqn:E2; [|auto].
    apply row_get_in in E2 as Hin. destruct Hin as (k & Ek & Hin).
    apply (row_action teq g c Hc fs Hf tb Htb w) in Hin; auto. destruct k as [t'|]; [discriminate|].
    destruct a as [d|h n|h n]; [destruct Hin|destruct Hin|]. destruct Hin as (-> & (bd & Hl & <-) & He).
    destruct (lr0_back g Heps _ _ _ _ Hl) as (w0 & -> & Hl0).
    destruct (stk_split _ _ _ _ Hst) as (xs1 & ys1 & -> & Hlen & Hst' & Hm).
    left. exists (Branch (g_start g) ys1). split; [|split].
    - exists w0, bd, xs1, ys1. auto.
    - exact He.
    - intros fuel. pose proof (stk_length _ _ _ Hst) as [_ Hln]. rewrite app_length in Hln.
      unfold drain. destruct (Nat.leb_spec (length bd) (length st)) as [_|Hbad]; [|lia]. cbn [bind fst]. rewrite Hm. reflexivity.
  Qed.

  Lemma app_inj_len {A} (a b c0 d : list A) : length b = length d -> a ++ b = c0 ++ d -> a = c0 /\ b = d.
  Proof.
    intros Hl E. assert (Hlen : length (a ++ b) = length (c0 ++ d)) by congruence. rewrite !app_length in Hlen.
    assert (Hx : length a = length c0) by lia. clear - E Hx. revert c0 E Hx.
    induction a as [|z a IH]; intros [|z' c0] E Hx; cbn in *; try lia; auto.
    injection E as <- E. destruct (IH c0 E) as [<- <-]; auto.
  Qed.

  Lemma eof_accept w xs st x : stk w xs st -> accepting g (w, xs, []) x -> entry ->
    forall fuel, ploop teq tb (S (S fuel)) [] st = Val (Some (to_node x)).
  Proof.
    intros Hst (w0 & bd & xs0 & ys & E & Hlen & Hl & ->) He fuel. injection E as -> ->. pose proof (stk_path _ _ _ Hst) as Hp.
    assert (Hin : In (None, Accept (g_start g) (length bd)) (nth (top st) (tb_action tb) [])).
    { apply (row_action teq g c Hc fs Hf tb Htb (w0 ++ bd)); auto. split; auto. split; [eauto|exact He]. }
    destruct (action_get teq Hteq g c Hc fs tb Htb (w0 ++ bd) (top st) None None _ Hp Hin) as [E1 E2]; [reflexivity|].
    destruct (stk_split _ _ _ _ Hst) as (xs1 & ys1 & E & Hl' & Hst' & Hm).
    apply app_inj_len in E; [|congruence]. destruct E as [<- <-].
    cbn [ploop eof_loop]. unfold handle_token. rewrite E1. cbn [of_option bind]. rewrite E2.
    pose proof (stk_length _ _ _ Hst) as [_ Hln]. rewrite app_length in Hln.
    unfold drain. destruct (Nat.leb_spec (length bd) (length st)) as [_|Hbad]; [|lia]. cbn [bind fst]. rewrite Hm. reflexivity.
  Qed.

  (** ** Soundness and completeness *)

  Lemma ploop_sound fuel : forall w xs rem st n, stk w xs st -> ploop teq tb fuel rem st = Val (Some n) ->
    exists m x, moves (w, xs, rem) m /\ accepting g m x /\ entry /\ n = to_node x.
  Proof.
    induction fuel as [|fuel IH]; intros w xs rem st n Hst H; [discriminate|].
    destruct rem as [|t ts].
    - destruct fuel as [|fuel]; [discriminate|].
      destruct (eof_cases w xs st Hst) as [(x & H1 & H2 & H3)|[H3|(H3 & _)]]; rewrite H3 in H; try discriminate.
      injection H as <-. exists (w, xs, []), x. split; [constructor|auto].
    - destruct (step_cases w xs t ts st Hst) as [([[w' xs'] rem'] & Hm)|[H3|(H3 & _)]]; [|rewrite H3 in H; discriminate..].
      destruct (move_sim _ _ _ _ _ _ _ Hst Hm) as (st' & Hst' & E). rewrite E in H.
      destruct (IH _ _ _ _ _ Hst' H) as (m & x & H1 & H2). exists m, x. split; auto. eapply moves_step; eauto.
  Qed.

  Theorem parse_accepted fuel ts n : parse teq fuel tb ts = Val (Some n) -> entry /\ exists x, accepted teq g ts x /\ n = to_node x.
  Proof.
    rewrite parse_ploop. intros H. apply (ploop_sound fuel [] [] ts) in H; [|constructor].
    destruct H as (m & x & H1 & H2 & H3 & ->). split; auto. exists x. split; auto. eapply moves_accepted; eauto.
  Qed.

  Theorem accepted_parse ts x : accepted teq g ts x -> entry ->
    exists n, forall fuel, n <= fuel -> parse teq fuel tb ts = Val (Some (to_node x)).
  Proof.
    intros H He. apply (accepted_moves teq g Hgood Heps) in H. destruct H as ([[w xs] rem] & Hm & Ha).
    assert (rem = []) as -> by (destruct Ha as (? & ? & ? & ? & E & _); injection E; auto).
    destruct (moves_sim [] [] ts w xs [] _ stk_nil Hm) as (n & st & Hst & E).
    exists (n + 2). intros fuel Hfu. rewrite parse_ploop. replace fuel with (n + (S (S (fuel - n - 2)))) by lia.
    rewrite E. eapply eof_accept; eauto.
  Qed.

  (** ** Determinism *)

  Lemma move_det m m1 m2 : (exists xs st, stk (fst (fst m)) xs st) \/ (exists i, path c 0 (fst (fst m)) i) -> move m m1 -> move m m2 -> m1 = m2.
  Proof.
    intros Hp0 H1 H2.
    assert (Hp : exists i, path c 0 (fst (fst m)) i).
    { destruct Hp0 as [(xs & st & Hst)|?]; auto. exists (top st). eapply stk_path; eauto. }
    destruct Hp as (i & Hp). clear Hp0.
    pose proof (row_distinct teq g c Hc fs tb Htb _ _ Hp) as Hd.
    assert (Hact : forall m', move m m' -> exists k t' a,
      In (Some t', a) (nth i (tb_action tb) []) /\ teq t' k = true /\ hd_error (snd m) = Some k /\
      match a with
      | Shift d => m' = (fst (fst m) ++ [Ter t'], snd (fst m) ++ [Leaf k], tl (snd m))
      | Reduce h n => exists w bd xs ys, m = (w ++ bd, xs ++ ys, snd m) /\ length bd = n /\ length ys = n /\
          m' = (w ++ [Var h], xs ++ [Branch h ys], snd m)
      | Accept _ _ => False
      end).
    { intros m' Hm. destruct Hm as [w0 xs0 t ts t' h a r L1 L2|w0 bd xs0 ys t ts t' h h' a r L1 L2 L3 L4 L5]; cbn [fst snd] in *.
      - destruct (lr0_path _ _ (lr0_adv g Heps _ _ _ _ _ L1)) as (d & Hd').
        exists t, t', (Shift d). split; [|auto].
        apply (row_action teq g c Hc fs Hf tb Htb w0); auto. split; eauto.
      - exists t, t', (Reduce h (length bd)). split; [|split; [auto|split; [auto|]]].
        + apply (row_action teq g c Hc fs Hf tb Htb (w0 ++ bd)); auto. exists bd. auto.
        + exists w0, bd, xs0, ys. auto. }
    destruct (Hact _ H1) as (k & t1 & a1 & I1 & E1 & K1 & M1). destruct (Hact _ H2) as (k' & t2 & a2 & I2 & E2 & K2 & M2).
    assert (k' = k) as -> by congruence.
    assert (E : (Some t1, a1) = (Some t2, a2)).
    { eapply (distinct_same teq Hteq); eauto. cbn. destruct Hteq as (_ & _ & Ht). eapply Ht; eauto. apply teq_sym; auto. }
    injection E as -> ->. destruct a2 as [d|h n|h n]; [congruence| |tauto].
    destruct M1 as (w & bd & xs & ys & Em & B1 & Y1 & ->). destruct M2 as (w' & bd' & xs' & ys' & Em' & B2 & Y2 & ->).
    rewrite Em in Em'. injection Em' as W X. apply app_inj_len in W; [|congruence]. apply app_inj_len in X; [|congruence].
    destruct W as [-> ->], X as [-> ->]. reflexivity.
  Qed.

  Lemma move_path w xs rem w' xs' rem' i : path c 0 w i -> move (w, xs, rem) (w', xs', rem') -> exists j, path c 0 w' j.
  Proof.
    intros Hp Hm. remember (w, xs, rem) as m eqn:Em. remember (w', xs', rem') as m' eqn:Em'.
    destruct Hm as [w0 xs0 t ts t' h a r H1 H2|w0 bd xs0 ys t ts t' h h' a r H1 H2 H3 H4 H5];
      injection Em as <- <- <-; injection Em' as <- <- <-; eapply lr0_path; eapply (lr0_adv g Heps); eauto.
  Qed.

  (** Two runs from one configuration: one continues the other. *)
  Lemma moves_fork m m1 m2 : (exists i, path c 0 (fst (fst m)) i) -> moves m m1 -> moves m m2 -> moves m1 m2 \/ moves m2 m1.
  Proof.
    intros Hp H. revert m2 Hp. induction H as [m|m m1 m3 H H' IH]; intros m2 Hp H2; [auto|].
    destruct H2 as [m|m m1' m2 H2 H2']; [right; eapply moves_step; eauto|].
    assert (m1' = m1) as -> by (eapply move_det; eauto). apply IH; auto.
    destruct m as [[w xs] rem], m1 as [[w1 xs1] rem1]. destruct Hp as (i & Hp). eapply move_path; eauto.
  Qed.

  Lemma moves_end m m' : moves m m' -> snd m = [] -> m = m'.
  Proof. intros H. destruct H as [m|m m1 m2 H]; auto. destruct H; discriminate. Qed.

  (** A tree of the start variable ending in a terminal is determined by its
      leaves. *)
  Lemma derivation_body v cs : reachable g v -> derivation g teq (Branch v cs) ->
    exists bd, rule g v bd /\ ~ In Eps bd /\ Forall2 (sat teq) bd cs /\ Forall (derivation g teq) cs.
  Proof.
    intros Hrc H. inversion H as [|? bd ? Hr H2 H3]; subst. exists bd.
    pose proof (Heps v bd Hrc Hr) as Hn. rewrite filter_noeps in H2 by auto. auto.
  Qed.

  Lemma start_reachable : reachable g (g_start g).
  Proof. exists [], []. constructor. Qed.

  Lemma parses_accepted ts x : parses g teq ts x -> ends_in_leaf x -> accepted teq g ts x.
  Proof.
    intros (Hd & Hl & cs & ->) (v & cs' & t & [= <- ->]).
    destruct (derivation_body _ _ start_reachable Hd) as (bd & Hr & Hn & H2 & H3).
    destruct bd as [|s0 bd0] eqn:Eb; [inversion H2; destruct cs'; discriminate|]. rewrite <- Eb in *.
    assert (Hne : bd <> []) by congruence. destruct (exists_last Hne) as (b & s & E). rewrite E in *.
    apply Forall2_app_inv_r in H2 as H4. destruct H4 as (b1 & b2 & H4 & H5 & E2).
    inversion H5 as [|s' ? ? ? Hs H6]; subst. inversion H6; subst. apply app_inj_tail in E2. destruct E2 as [-> ->].
    destruct s' as [t'|?|]; cbn in Hs; try tauto.
    exists [], [], (b1 ++ [Ter t']), b1, t', (cs' ++ [Leaf t]). split; [apply lr0_begin; auto|].
    split; [auto|]. split; [constructor|]. split; [constructor|]. split; [auto|]. split; [auto|]. split; [reflexivity|auto].
  Qed.

  Lemma root_tree_unique ts x x' : parses g teq ts x -> parses g teq ts x' -> ends_in_leaf x -> ends_in_leaf x' -> x = x'.
  Proof.
    intros H1 H2 E1 E2. pose proof (parses_accepted _ _ H1 E1) as A1. pose proof (parses_accepted _ _ H2 E2) as A2.
    destruct H1 as (D1 & L1 & cs1 & ->), H2 as (D2 & L2 & cs2 & ->).
    assert (Hrun : forall cs, derivation g teq (Branch (g_start g) cs) -> ends_in_leaf (Branch (g_start g) cs) ->
      leaves (Branch (g_start g) cs) = ts -> exists bd, moves ([], [], ts) (bd, cs, [])).
    { clear - Hteq Hgood Heps. intros cs Hd (v & cs' & t & [= <- ->]) Hl.
      destruct (derivation_body _ _ start_reachable Hd) as (bd & Hr & Hn & H2 & H3).
      apply Forall2_app_inv_r in H2 as H4. destruct H4 as (b1 & b2 & H4 & H5 & ->).
      inversion H5 as [|s' ? ? ? Hs H6]; subst. inversion H6; subst.
      destruct s' as [t'|?|]; cbn in Hs; try tauto. apply Forall_app in H3. destruct H3 as [H3 H7].
      pose proof (lr0_adv_all g Heps b1 [] (g_start g) [] [Ter t'] (lr0_begin g Heps _ Hr)) as Hl2. cbn [app] in Hl2.
      exists (b1 ++ [Ter t']). cbn [leaves]. rewrite flat_map_app. cbn [flat_map leaves app].
      eapply moves_trans.
      - eapply (prefix_moves teq g Hgood Heps b1 cs' t []); eauto.
        intros w' u E. destruct u as [?|u|]; cbn; auto. exists t'. split; auto. rewrite E in Hl2.
        eapply (lr0_follow g Heps); eauto. constructor.
      - apply moves_one. eapply move_shift; eauto. }
    destruct (Hrun _ D1 E1 L1) as (b1 & M1). destruct (Hrun _ D2 E2 L2) as (b2 & M2).
    assert (Hp : exists i, path c 0 (fst (fst ([] : list sym, [] : list tr, ts))) i) by (exists 0; constructor).
    destruct (moves_fork _ _ _ Hp M1 M2) as [M|M]; apply moves_end in M; auto; injection M as _ ->; reflexivity.
  Qed.
End Sim.
