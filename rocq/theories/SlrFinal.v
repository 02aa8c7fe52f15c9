(** From [Slr::new] to the properties of the parser. *)
From Verif Require Import Base RegexModel SpecRegex NfaModel SpecNfa LexerModel SpecLexer LexerWitness
  GrammarModel CfsmModel SlrModel PangoModel SpecCfg GrammarProofs FirstProofs FollowProofs GrammarTotal
  ItemProofs CfsmProofs CfsmCorrect TableProofs SlrTable SlrNew SlrRun SlrMoves SlrSim SlrTerm SlrAll.

Section Final.
  Context {V T : Type} {dv : DecEq V} {dt : DecEq T} {ho : HashOrder}.
  Notation sym := (symbol V T).
  Variable teq : T -> T -> bool.
  Hypothesis Hteq : lawful teq.
  Variable g : grammar V T.
  Hypothesis Hb : built g.
  Let Hgood : good g := built_good g Hb.

  Lemma slr_new_parts fuel p tb : slr_new teq fuel p g = Val tb ->
    exists c fs, from_grammar fuel (0 :: p) g = Val c /\ cfsm_ok g c /\ exact_follow g fs /\ table_ok teq g c fs tb.
  Proof.
    intros H. pose proof H as H'. unfold slr_new in H'. apply bind_val in H'. destruct H' as (c & E1 & H'). apply bind_val in H'.
    destruct H' as (o & E2 & H'). destruct o as [tb'|]; [|discriminate]. injection H' as ->.
    pose proof (from_grammar_answer g Hb _ _ _ E1) as Hc.
    pose proof E2 as E3. unfold new_slr in E3. apply bind_val in E3. destruct E3 as (fs & E3 & _). rewrite (ok_grammar _ _ Hc) in E3.
    pose proof (follow_set_answer g Hb _ _ _ E3) as Hf.
    destruct (new_slr_spec teq Hteq g c fuel (1 :: p) fs Hc E3 Hf) as (o & E4 & H0). rewrite E2 in E4. injection E4 as <-.
    exists c, fs. auto.
  Qed.

  (** ** C35 *)

  Lemma clash_conflict (e : Prop) : (forall t t', teq t t' = true -> t = t') -> clash g teq e ->
    slr_conflict g \/ exists w h a r h' a' r' t, (h, a, r) <> (h', a', r') /\ lr0 g w (h, a, Ter t :: r) /\ lr0 g w (h', a', Ter t :: r').
  Proof.
    intros Hst (w & [[h a] b] & k & [[h' a'] b'] & k' & [H1 W1] & [H2 W2] & Hne & Hk).
    assert (k' = k) as ->.
    { destruct k as [t|], k' as [t'|]; cbn in Hk; try tauto. f_equal. symmetry. auto. }
    destruct k as [t|].
    - destruct b as [|[t1|v1|] r]; destruct b' as [|[t2|v2|] r']; try tauto.
      + left. exists w. right. exists h, a, h', a', (Some t). split; [congruence|]. auto.
      + subst t2. left. exists w. left. exists h', a', t, r', h, a. auto.
      + subst t1. left. exists w. left. exists h, a, t, r, h', a'. auto.
      + subst t1 t2. right. exists w, h, a, r, h', a', r', t. split; [congruence|auto].
    - destruct b as [|[t1|v1|] r]; destruct b' as [|[t2|v2|] r']; try tauto.
      destruct W1 as [-> _], W2 as [-> _]. left. exists w. right. exists (g_start g), a, (g_start g), a', None. split; [congruence|].
      repeat split; auto; exists []; constructor.
  Qed.

  Lemma new_succeeds p : (forall t t', teq t t' = true -> t = t') -> ~ slr_conflict g ->
    (forall w h a r h' a' r' t, lr0 g w (h, a, Ter t :: r) -> lr0 g w (h', a', Ter t :: r') -> (h, a, r) = (h', a', r')) ->
    exists n tb, forall fuel, n <= fuel -> slr_new teq fuel p g = Val tb.
  Proof.
    intros Hst Hnc Hns. destruct (slr_new_total teq Hteq g Hb p) as (n & r & E & [[-> Hcl]|(tb & -> & _)]); [|eauto].
    exfalso. apply clash_conflict in Hcl; auto. destruct Hcl as [Hcl|(w & h & a & r & h' & a' & r' & t & Hne & H1 & H2)]; auto.
    apply Hne. eapply Hns; eauto.
  Qed.

  Lemma new_no_clash fuel p tb : slr_new teq fuel p g = Val tb -> ~ clash g teq (entry_sure g (g_start g)).
  Proof.
    intros H Hcl. destruct (slr_new_parts _ _ _ H) as (c & fs & _ & Hc & Hf & Ht).
    apply (no_clash teq Hteq g c Hc fs Hf tb Ht). eapply clash_mono; [|exact Hcl]. intros He. eapply entry_sure_has; eauto.
  Qed.

  Lemma new_finds_conflicts fuel p tb : slr_new teq fuel p g = Val tb -> forall w t,
    (forall h a r h' a', lr0 g w (h, a, Ter t :: r) -> lr0 g w (h', a', []) -> ~ followed_by g h' t) /\
    (forall h a h' a', lr0 g w (h, a, []) -> lr0 g w (h', a', []) -> followed_by g h t -> followed_by g h' t -> (h, a) = (h', a')).
  Proof.
    intros H w t. pose proof (new_no_clash _ _ _ H) as Hn. split.
    - intros h a r h' a' H1 H2 H3. apply Hn. exists w, (h, a, Ter t :: r), (Some t), (h', a', []), (Some t).
      split; [split; auto|]. split; [split; auto|]. split; [discriminate|]. cbn. apply (proj1 Hteq).
    - intros h a h' a' H1 H2 H3 H4.
      destruct (eqb_spec h h') as [<-|Hh]; [destruct (eqb_spec a a') as [<-|Ha]; [auto|]|]; exfalso; apply Hn;
        [exists w, (h, a, []), (Some t), (h, a', []), (Some t)|exists w, (h, a, []), (Some t), (h', a', []), (Some t)];
        (split; [split; auto|]; split; [split; auto|]; split; [congruence|]; cbn; apply (proj1 Hteq)).
  Qed.

  (** ** C36 *)

  Lemma new_table fuel p tb : slr_new teq fuel p g = Val tb ->
    exists c (e : Prop), from_grammar fuel (0 :: p) g = Val c /\
      (entry_sure g (g_start g) -> e) /\ (e -> entry_possible g (g_start g)) /\
      forall w i, path c 0 w i ->
        let row := nth i (tb_action tb) [] in
        (forall t d, In (Some t, Shift d) row <-> (exists h a r, lr0 g w (h, a, Ter t :: r)) /\ path c 0 (w ++ [Ter t]) d) /\
        (forall t h n, In (Some t, Reduce h n) row <-> exists bd, lr0 g w (h, bd, []) /\ length bd = n /\ followed_by g h t) /\
        (forall h n, In (None, Accept h n) row <-> h = g_start g /\ (exists bd, lr0 g w (h, bd, []) /\ length bd = n) /\ e) /\
        (forall t h n, ~ In (Some t, Accept h n) row) /\
        (forall d, ~ In (None, Shift d) row) /\ (forall h n, ~ In (None, Reduce h n) row) /\
        (forall v d, mget v (nth i (tb_goto tb) []) = Some d <-> path c 0 (w ++ [Var v]) d) /\
        (forall k a k' a', In (k, a) row -> In (k', a') row -> same_key teq k k' -> (k, a) = (k', a')).
  Proof.
    intros H. destruct (slr_new_parts _ _ _ H) as (c & fs & E & Hc & Hf & Ht). exists c, (has_entry g fs).
    split; auto. split; [intros He; eapply entry_sure_has; eauto|]. split; [intros He; eapply has_entry_possible; eauto|].
    intros w i Hp. cbv zeta. pose proof (fun k a => row_action teq g c Hc fs Hf tb Ht w i k a Hp) as Hr.
    split; [intros t d; apply (Hr (Some t) (Shift d))|].
    split.
    { intros t h n. rewrite (Hr (Some t) (Reduce h n)). split; intros (bd & H1 & H2 & H3); exists bd; (split; [auto|]; split; [auto|]; apply follow_steps; auto). }
    split; [intros h n; rewrite (Hr None (Accept h n)); unfold has_entry; split; intros (-> & H1 & H2); auto|].
    split; [intros t h n Hi; apply (Hr (Some t) (Accept h n)) in Hi; exact Hi|].
    split; [intros d Hi; apply (Hr None (Shift d)) in Hi; exact Hi|].
    split; [intros h n Hi; apply (Hr None (Reduce h n)) in Hi; exact Hi|].
    split; [intros v d; apply (row_goto teq g c Hc fs tb Ht w); auto|].
    intros k a k' a' H1 H2 Hk. eapply (distinct_same teq Hteq); eauto; [eapply row_distinct; eauto|]. apply same_key_eq; auto.
  Qed.

  (** ** C37 *)

  Lemma parse_in_order fuel p tb fuel' ts n : slr_new teq fuel p g = Val tb -> parse teq fuel' tb ts = Val (Some n) ->
    root n = Var (g_start g) /\ exists pre, ts = pre ++ spelled n.
  Proof.
    intros H H'. destruct (slr_new_parts _ _ _ H) as (c & fs & _ & Hc & Hf & Ht). eapply parse_tokens; eauto.
  Qed.

  Lemma parse_derivation fuel p tb fuel' ts n : epsilon_free g -> start_at_front g -> slr_new teq fuel p g = Val tb ->
    parse teq fuel' tb ts = Val (Some n) -> exists x, parses g teq ts x /\ n = to_node x.
  Proof.
    intros Heps Hfront H H'. destruct (slr_new_parts _ _ _ H) as (c & fs & _ & Hc & Hf & Ht).
    destruct (parse_accepted teq Hteq g Hgood Heps c Hc fs Hf tb Ht _ _ _ H') as (_ & x & Ha & ->). exists x. split; auto.
    destruct Ha as (w & xs & bd & b & t & ys & Hl & -> & H1 & H2 & H3 & H4 & -> & ->).
    pose proof (lr0_rule g _ _ _ _ Hl) as Hr. pose proof (start_noeps g Heps _ Hr) as Hn.
    destruct (lr0_sentential g Heps _ _ _ _ Hl) as (w' & r & -> & Hs). rewrite app_nil_r in *. apply Hfront in Hs. subst w'.
    inversion H1; subst. split; [|split; [reflexivity|eauto]]. econstructor; eauto. rewrite filter_noeps; auto.
  Qed.

  (** ** C38 and C47 *)

  Lemma parse_exact fuel p tb ts x : epsilon_free g -> slr_new teq fuel p g = Val tb -> entry_sure g (g_start g) ->
    accepted teq g ts x <-> exists n, forall fuel', n <= fuel' -> parse teq fuel' tb ts = Val (Some (to_node x)).
  Proof.
    intros Heps H He. destruct (slr_new_parts _ _ _ H) as (c & fs & _ & Hc & Hf & Ht). split.
    - intros Ha. eapply accepted_parse; eauto. eapply entry_sure_has; eauto.
    - intros (n & Hn). destruct (parse_accepted teq Hteq g Hgood Heps c Hc fs Hf tb Ht _ _ _ (Hn n (le_n _))) as (_ & x' & Ha & E).
      assert (x = x') as ->; [|exact Ha]. clear - E. revert x' E. induction x as [t|v cs IH] using tree_ind2; intros [t'|v' cs'] E; cbn in E.
      + injection E as ->. reflexivity.
      + discriminate.
      + discriminate.
      + injection E as -> E. f_equal. apply (f_equal (@rev _)) in E. rewrite !rev_involutive in E.
        revert cs' E. induction IH as [|x cs Hx Hcs IH']; intros [|x' cs'] E; cbn in E; try discriminate; auto.
        injection E as E1 E2. f_equal; auto.
  Qed.

  Lemma parse_accepts_only fuel p tb fuel' ts n : epsilon_free g -> slr_new teq fuel p g = Val tb ->
    parse teq fuel' tb ts = Val (Some n) -> entry_possible g (g_start g) /\ exists x, accepted teq g ts x /\ n = to_node x.
  Proof.
    intros Heps H H'. destruct (slr_new_parts _ _ _ H) as (c & fs & _ & Hc & Hf & Ht).
    destruct (parse_accepted teq Hteq g Hgood Heps c Hc fs Hf tb Ht _ _ _ H') as (He & Hx). split; auto. eapply has_entry_possible; eauto.
  Qed.

  Lemma parse_complete fuel p tb ts x : epsilon_free g -> slr_new teq fuel p g = Val tb -> entry_sure g (g_start g) ->
    parses g teq ts x -> ends_in_leaf x -> exists n, forall fuel', n <= fuel' -> parse teq fuel' tb ts = Val (Some (to_node x)).
  Proof. intros Heps H He Hp Hl. eapply parse_exact; eauto. apply parses_accepted; auto. Qed.

  (** ** C39 *)

  Lemma parse_panic_reason fuel p tb fuel' ts : epsilon_free g -> slr_new teq fuel p g = Val tb -> parse teq fuel' tb ts = Panic ->
    (exists w, (exists d, lr0 g w d) /\ forall d k, ~ wants g (entry_sure g (g_start g)) w d k) \/
    ((forall w h a v r, ~ lr0 g w (h, a, Var v :: r)) /\ exists t, followed_by g (g_start g) t).
  Proof.
    intros Heps H H'. destruct (slr_new_parts _ _ _ H) as (c & fs & _ & Hc & Hf & Ht).
    destruct (parse_panics teq Hteq g Hgood Heps c Hc fs Hf tb Ht _ _ H') as [(w & Hd & Hw)|(Hn & t & Hfo)].
    - left. exists w. split; auto. intros d k Hwa. apply (Hw d k). eapply wants_mono; [|exact Hwa]. intros He. eapply entry_sure_has; eauto.
    - right. split; auto. exists t. apply follow_steps; auto.
  Qed.

  Lemma parse_no_panic fuel p tb fuel' ts : epsilon_free g -> all_reachable g -> (forall v bd, rule g v bd -> productive g v) ->
    (forall v bd, rule g v bd -> v = g_start g \/ exists t, followed_by g v t) -> entry_sure g (g_start g) ->
    slr_new teq fuel p g = Val tb -> parse teq fuel' tb ts <> Panic.
  Proof.
    intros Heps Hall Hp Hfo He H H'. destruct (slr_new_parts _ _ _ H) as (c & fs & _ & Hc & Hf & Ht).
    apply (no_panic_reason g Hgood Heps fs Hf Hall Hp Hfo He). eapply parse_panics; eauto.
  Qed.

  (** ** C40 *)

  Lemma parse_terminates fuel p tb ts : epsilon_free g -> all_reachable g \/ no_unit_cycle g -> slr_new teq fuel p g = Val tb ->
    exists n r, r <> Diverge /\ forall fuel', n <= fuel' -> parse teq fuel' tb ts = r.
  Proof.
    intros Heps Hor H. destruct (slr_new_parts _ _ _ H) as (c & fs & _ & Hc & Hf & Ht).
    eapply (parse_stops teq Hteq g Hgood Heps c Hc fs Hf tb Ht). destruct Hor as [Hall|Hn]; [|intros; apply Hn].
    intros v t. eapply no_followed_cycle; eauto.
  Qed.

  (** ** C41 *)

  Lemma trees_unique fuel p tb v t x x' : epsilon_free g -> all_reachable g -> slr_new teq fuel p g = Val tb -> followed_by g v t ->
    derivation g teq x -> derivation g teq x' -> sat teq (Var v) x -> sat teq (Var v) x' -> leaves x = leaves x' -> x = x'.
  Proof.
    intros Heps Hall H Hv. destruct (slr_new_parts _ _ _ H) as (c & fs & _ & Hc & Hf & Ht).
    eapply (tree_unique teq Hteq g Hgood Heps c Hc fs Hf tb Ht v t); auto. apply follow_steps; auto.
  Qed.

  Lemma sentences_unique fuel p tb t ts x x' : epsilon_free g -> all_reachable g -> slr_new teq fuel p g = Val tb ->
    followed_by g (g_start g) t -> parses g teq ts x -> parses g teq ts x' -> x = x'.
  Proof.
    intros Heps Hall H Hv (D & L & cs & ->) (D' & L' & cs' & ->).
    eapply trees_unique; eauto; try reflexivity. congruence.
  Qed.

  Lemma ended_sentences_unique fuel p tb ts x x' : epsilon_free g -> slr_new teq fuel p g = Val tb ->
    parses g teq ts x -> parses g teq ts x' -> ends_in_leaf x -> ends_in_leaf x' -> x = x'.
  Proof.
    intros Heps H. destruct (slr_new_parts _ _ _ H) as (c & fs & _ & Hc & Hf & Ht). eapply (root_tree_unique teq Hteq); eauto.
  Qed.

  (** ** C44 *)

  Lemma payloads_free fuel p tb fuel' ts ts' : slr_new teq fuel p g = Val tb -> Forall2 (fun t t' => teq t t' = true) ts ts' ->
    match parse teq fuel' tb ts, parse teq fuel' tb ts' with
    | Val (Some n), Val (Some n') => alike teq n n' /\ (exists pre, ts = pre ++ spelled n) /\ exists pre', ts' = pre' ++ spelled n'
    | Val None, Val None => True
    | Panic, Panic => True
    | Diverge, Diverge => True
    | _, _ => False
    end.
  Proof.
    intros H H2. pose proof (parse_alike teq Hteq tb fuel' ts ts' H2) as Ha. unfold alike_res in Ha.
    destruct (parse teq fuel' tb ts) as [[n|]| |] eqn:E1; destruct (parse teq fuel' tb ts') as [[n'|]| |] eqn:E2; auto.
    split; auto. split; eapply parse_in_order; eauto.
  Qed.
End Final.

(** ** C42 *)
Section OrderFree.
  Context {V T : Type} {dv : DecEq V} {dt : DecEq T}.
  Variable teq : T -> T -> bool.
  Hypothesis Hteq : lawful teq.
  Variable g : grammar V T.
  Hypothesis Hb : built g.

  Lemma orders_agree (ho1 ho2 : HashOrder) p1 p2 : (entry_possible g (g_start g) -> entry_sure g (g_start g)) ->
    exists n, forall fuel, n <= fuel ->
      (slr_new teq (ho := ho1) fuel p1 g = Panic /\ slr_new teq (ho := ho2) fuel p2 g = Panic) \/
      exists tb1 tb2, slr_new teq (ho := ho1) fuel p1 g = Val tb1 /\ slr_new teq (ho := ho2) fuel p2 g = Val tb2 /\
        forall fuel' ts, agree (parse teq fuel' tb1 ts) (parse teq fuel' tb2 ts).
  Proof.
    intros He. destruct (slr_new_total (ho := ho1) teq Hteq g Hb p1) as (n1 & r1 & E1 & H1).
    destruct (slr_new_total (ho := ho2) teq Hteq g Hb p2) as (n2 & r2 & E2 & H2).
    exists (Nat.max n1 n2). intros fuel Hfu. rewrite E1, E2 by lia.
    destruct H1 as [[-> C1]|(tb1 & -> & C1)], H2 as [[-> C2]|(tb2 & -> & C2)]; auto.
    - destruct C2. eapply clash_mono; eauto.
    - destruct C1. eapply clash_mono; eauto.
    - right. exists tb1, tb2. split; auto. split; auto.
      destruct (slr_new_parts (ho := ho1) teq Hteq g Hb _ _ _ (E1 n1 (le_n _))) as (c1 & fs1 & _ & Hc1 & Hf1 & Ht1).
      destruct (slr_new_parts (ho := ho2) teq Hteq g Hb _ _ _ (E2 n2 (le_n _))) as (c2 & fs2 & _ & Hc2 & Hf2 & Ht2).
      intros fuel' ts. eapply (parse_same teq Hteq g (built_good g Hb) c1 c2 Hc1 Hc2 fs1 fs2 Hf1 Hf2 tb1 tb2 Ht1 Ht2).
      split; intros Hh; eapply entry_sure_has; eauto; apply He; eapply has_entry_possible; [|exact Hh| |exact Hh]; auto.
  Qed.

  (** Without epsilon and useless variables the order never matters. *)
  Lemma entry_possible_sure v : epsilon_free g -> all_reachable g -> (forall v bd, rule g v bd -> productive g v) ->
    entry_possible g v -> entry_sure g v.
  Proof.
    intros Heps Hall Hprod. pose proof (built_good g Hb) as Hgood.
    assert (Hnull : forall h l r, rule g h (l ++ r) -> nullb g r -> r = []).
    { intros h l r Hr Hn. apply (null_empty g Hgood Heps); auto.
      - intros Hi. apply (Heps h _ (Hall _ _ Hr) Hr). apply in_app_iff. auto.
      - intros u Hu. eapply (reachable_rule g Hgood Heps h); eauto. apply in_app_iff. auto. }
    intros H. cut ((exists h l r, rule g h (l ++ Var v :: r) /\ r <> []) \/ exists t, followed_by g v t); [unfold entry_sure; tauto|].
    induction H as [h l v r Hr Hne|h l v r Hr Hn He IH].
    - left. exists h, l, r. auto.
    - right. apply null_steps in Hn. assert (Hup : forall t, followed_by g h t -> exists t, followed_by g v t).
      { intros t Ht. exists t. apply follow_steps. eapply follow_up; eauto. apply follow_steps; auto. }
      destruct IH as [(h' & l' & r' & Hr' & Hne)|(t & Ht)]; eauto.
      assert (Hst : exists t, startb g r' t).
      { destruct r' as [|s r']; [congruence|]. destruct s as [t|u|].
        - exists t. constructor.
        - destruct (good_closed _ Hgood h' _ u Hr') as (bd & Hu); [apply in_app_iff; right; right; left; auto|].
          destruct (Hprod u bd Hu) as ([|t ws] & Hw).
          + exfalso. assert (Hn' : nullb g [Var u]) by (apply null_steps; exact Hw).
            apply (null_empty g Hgood Heps) in Hn'; [discriminate|intros [?|[]]; discriminate|].
            intros x [[= <-]|[]]. eapply Hall; eauto.
          + exists t. change (Var u :: r') with ([Var u] ++ r'). apply start_app. left. apply start_steps. exists (map Ter ws). exact Hw.
        - destruct (Heps h' _ (Hall _ _ Hr') Hr'). apply in_app_iff. right; right; left; auto. }
      destruct Hst as (t & Hst). apply (Hup t). apply follow_steps. eapply follow_direct; eauto.
  Qed.
End OrderFree.

(** ** C43 *)
Section Text.
  Context {env : Env} {ho : HashOrder} {V K : Type} {dv : DecEq V} {dt : DecEq K}.
  Variable teq : K -> K -> bool.
  Hypothesis Hteq : lawful teq.
  Variable g : grammar V K.
  Hypothesis Hb : built g.

  Lemma delivers_calls fuel (lx : lexer K) (ks : list K) : delivers (next_kind fuel) lx ks ->
    exists (tks : list (ltoken K)) lx', lex_calls fuel (S (length tks)) lx = Val (map Some tks ++ [None], lx') /\ map lt_kind tks = ks.
  Proof.
    induction 1 as [lx lx' H|lx k lx' ks H Hd (tks & lx2 & IH & E)].
    - unfold next_kind in H. apply bind_val in H. destruct H as ([o lx1] & E & H). destruct o as [t|]; [discriminate|]. injection H as <-.
      exists [], lx1. cbn [lex_calls length map app]. rewrite E. cbn [bind]. auto.
    - unfold next_kind in H. apply bind_val in H. destruct H as ([o lx1] & E1 & H). destruct o as [t|]; [|discriminate]. injection H as <- <-.
      exists (t :: tks), lx2. split; [|cbn; congruence]. cbn [length]. remember (S (length tks)) as m. cbn [lex_calls]. rewrite E1. cbn [bind].
      rewrite IH. reflexivity.
  Qed.

  Lemma parse_lexer_tokens fuel p tb fuel' lx n : slr_new teq fuel p g = Val tb -> parse_lexer teq fuel' tb lx = Val (Some n) ->
    exists (tks : list (ltoken K)) lx', lex_calls fuel' (S (length tks)) lx = Val (map Some tks ++ [None], lx') /\
      root n = Var (g_start g) /\ exists pre, map lt_kind tks = pre ++ spelled n.
  Proof.
    intros H H'. destruct (slr_new_parts teq Hteq g Hb _ _ _ H) as (c & fs & _ & Hc & Hf & Ht).
    apply (parse_from_tokens teq g c Hc fs Hf tb Ht) in H'. destruct H' as (ks & pre & Hd & Hr & E).
    apply delivers_calls in Hd. destruct Hd as (tks & lx' & Hl & <-). exists tks, lx'. split; auto. split; auto. exists pre. auto.
  Qed.

  Lemma parse_lexer_text fuel p tb fuel' ts input lx es L n :
    build_lexer ts input = Val (inl lx) -> parsed ts es -> agreed L es -> steady es ->
    slr_new teq fuel p g = Val tb -> parse_lexer teq fuel' tb lx = Val (Some n) ->
    exists tks, tiles input 0 tks /\ (exists pre, map lt_kind tks = pre ++ spelled n) /\
      forall x y, skipn (consumed tks) input = x ++ y -> x <> [] -> ~ matched L es x.
  Proof.
    intros H1 H2 H3 H4 H5 H6. destruct (parse_lexer_tokens _ _ _ _ _ _ H5 H6) as (tks & lx' & Hl & _ & Hp). exists tks.
    split; [|split; auto].
    - pose proof (lexer_tiles ts input lx es H1 H2 ho fuel' _ _ _ (steady_resumable es H4) Hl) as Ht.
      assert (E : before_none (map Some tks ++ [None]) = tks); [|rewrite E in Ht; exact Ht].
      clear. induction tks; cbn; f_equal; auto.
    - exact (lexer_steady_none ts input lx es H1 H2 ho fuel' _ tks [] lx' L H3 H4 Hl).
  Qed.
End Text.
