(** The example expr.rs on every text. *)
From Verif Require Import Base RegexModel SpecRegex NfaModel SpecNfa LexerModel SpecLexer SpecMunch NfaLangProofs LexerWitness LexerMunch
  GrammarModel CfsmModel SlrModel PangoModel SpecCfg GrammarTotal SlrNew SlrFinal PipeProofs ExprModel SpecExpr.

(** ** The grammar *)

Definition expr_grammar : grammar nat terminals :=
  match build expr_builder with Val g => g | _ => {| g_start := 0; g_rules := [] |} end.
Lemma expr_build : build expr_builder = Val expr_grammar.
Proof. reflexivity. Qed.
Lemma expr_built : built expr_grammar.
Proof. exists (CallStart 0 :: map (CallRule 0) expr_rules). reflexivity. Qed.

Lemma expr_rule v bd : rule expr_grammar v bd <-> v = 0 /\ In bd expr_rules.
Proof.
  split.
  - intros (bds & H1 & H2). vm_compute in H1. destruct H1 as [[= <- <-]|[]]. split; [reflexivity|]. vm_compute in H2 |- *. tauto.
  - intros (-> & H). exists (rev (rev expr_rules)). split; [vm_compute; tauto|]. rewrite rev_involutive. exact H.
Qed.

Lemma terminal_lawful : lawful terminal_eq.
Proof. repeat split; intros []; try intros []; try intros []; try reflexivity; try discriminate; auto. Qed.

Ltac each_rule H := apply expr_rule in H; destruct H as [-> H]; cbn in H; destruct H as [<-|[<-|[<-|[]]]].

Lemma expr_free : epsilon_free expr_grammar.
Proof. intros v bd _ H. each_rule H; cbn; intuition discriminate. Qed.
Lemma expr_reachable : all_reachable expr_grammar.
Proof. intros v bd H. each_rule H; exists [], []; constructor. Qed.
Lemma expr_productive v bd : rule expr_grammar v bd -> productive expr_grammar v.
Proof.
  intros H. assert (v = 0) as -> by (each_rule H; reflexivity). exists [Num 0]. eapply steps_next; [constructor|].
  apply (step_rule expr_grammar [] 0 [Ter (Num 0)] []). apply expr_rule. cbn. tauto.
Qed.
Lemma expr_followed v bd : rule expr_grammar v bd -> v = g_start expr_grammar \/ exists t, followed_by expr_grammar v t.
Proof. intros H. left. each_rule H; reflexivity. Qed.
Lemma expr_entry : entry_sure expr_grammar (g_start expr_grammar).
Proof. left. exists 0, [], [Ter Mul; Ter (Num 0)]. split; [apply expr_rule; cbn; tauto|discriminate]. Qed.
Lemma expr_front : start_at_front expr_grammar.
Proof.
  assert (Hinv : forall x, steps expr_grammar [Var 0] x -> ~ In (Var 0) (tl x)).
  { intros x H. remember [Var 0] as x0. induction H as [x|x y z H IH Hs]; [subst; cbn; tauto|]. specialize (IH Heqx0).
    destruct Hs as [l v bd r Hr|l r].
    - destruct l as [|s l]; cbn [app tl] in *.
      + each_rule Hr; cbn; intuition discriminate.
      + rewrite in_app_iff in *. cbn [In] in IH. each_rule Hr; exfalso; tauto.
    - destruct l as [|s l]; cbn [app tl] in *; [destruct r; cbn in *; tauto|]. rewrite in_app_iff in *. cbn [In] in IH. tauto. }
  intros l r H. apply Hinv in H. destruct l as [|s l]; auto. cbn in H. destruct H. apply in_app_iff. right. left. reflexivity.
Qed.

Definition expr_table : table nat terminals :=
  match slr_new (ho := id_order) terminal_eq 60 [] expr_grammar with Val tb => tb | _ => {| tb_grammar := expr_grammar; tb_action := []; tb_goto := [] |} end.
Lemma expr_new : slr_new (ho := id_order) terminal_eq 60 [] expr_grammar = Val expr_table.
Proof. vm_compute. reflexivity. Qed.

Lemma expr_new_all (ho : HashOrder) p : exists n tb, forall fuel, n <= fuel -> slr_new terminal_eq fuel p expr_grammar = Val tb.
Proof.
  destruct (slr_new_total (ho := ho) terminal_eq terminal_lawful expr_grammar expr_built p) as (n & r & Hr & [[-> Hc]|(tb & -> & _)]).
  - exfalso. apply (new_no_clash (ho := id_order) terminal_eq terminal_lawful expr_grammar expr_built _ _ _ expr_new).
    eapply clash_mono; [|exact Hc]. intros _. exact expr_entry.
  - exists n, tb. exact Hr.
Qed.

(** ** Sentences *)

Lemma calc_tree : forall x, derivation expr_grammar terminal_eq x -> forall v cs, x = Branch v cs -> forall r,
  calc (leaves x ++ r) = calc_rest (to_node x) r.
Proof.
  fix IH 2. intros x Hx v cs -> r. inversion Hx as [|v' bd cs' Hr Hs Hd]; subst. each_rule Hr; cbn in Hs.
  - inversion Hs as [|? a ? cs1 S1 Hs1]; subst. inversion Hs1 as [|? b ? cs2 S2 Hs2]; subst. inversion Hs2 as [|? c ? cs3 S3 Hs3]; subst.
    inversion Hs3; subst. destruct a as [|va ca]; [destruct S1|]. destruct b as [tb|]; [|destruct S2]. destruct c as [tc|]; [|destruct S3].
    destruct tb; try discriminate. destruct tc; try discriminate. inversion Hd as [|? ? Ha _]; subst.
    cbn [leaves flat_map app]. fold (@leaves nat terminals). rewrite <- app_assoc. rewrite (IH _ Ha va ca eq_refl). reflexivity.
  - inversion Hs as [|? a ? cs1 S1 Hs1]; subst. inversion Hs1 as [|? b ? cs2 S2 Hs2]; subst. inversion Hs2 as [|? c ? cs3 S3 Hs3]; subst.
    inversion Hs3; subst. destruct a as [|va ca]; [destruct S1|]. destruct b as [tb|]; [|destruct S2]. destruct c as [tc|]; [|destruct S3].
    destruct tb; try discriminate. destruct tc; try discriminate. inversion Hd as [|? ? Ha _]; subst.
    cbn [leaves flat_map app]. fold (@leaves nat terminals). rewrite <- app_assoc. rewrite (IH _ Ha va ca eq_refl). reflexivity.
  - inversion Hs as [|? a ? cs1 S1 Hs1]; subst. inversion Hs1; subst. destruct a as [ta|]; [|destruct S1]. destruct ta; try discriminate. reflexivity.
Qed.

Lemma rest_tree : forall k r x n, length r <= k -> derivation expr_grammar terminal_eq x -> (exists cs t, x = Branch 0 (cs ++ [Leaf t])) ->
  calc_rest (to_node x) r = Some n ->
  exists x', derivation expr_grammar terminal_eq x' /\ (exists cs t, x' = Branch 0 (cs ++ [Leaf t])) /\ leaves x' = leaves x ++ r /\ to_node x' = n.
Proof.
  assert (Hstep : forall o m r x n, o = Plus \/ o = Mul -> derivation expr_grammar terminal_eq x -> (exists cs t, x = Branch 0 (cs ++ [Leaf t])) ->
    (forall x n, derivation expr_grammar terminal_eq x -> (exists cs t, x = Branch 0 (cs ++ [Leaf t])) -> calc_rest (to_node x) r = Some n ->
      exists x', derivation expr_grammar terminal_eq x' /\ (exists cs t, x' = Branch 0 (cs ++ [Leaf t])) /\ leaves x' = leaves x ++ r /\ to_node x' = n) ->
    calc_rest (joined (to_node x) o m) r = Some n ->
    exists x', derivation expr_grammar terminal_eq x' /\ (exists cs t, x' = Branch 0 (cs ++ [Leaf t])) /\ leaves x' = leaves x ++ o :: Num m :: r /\ to_node x' = n).
  { intros o m r x n Ho Hx (cs & t & ->) IH H. destruct (IH (Branch 0 [Branch 0 (cs ++ [Leaf t]); Leaf o; Leaf (Num m)]) n) as (x' & H1 & H2 & H3 & H4).
    - apply derivation_branch with (bd := [Var 0; Ter o; Ter (Num 0)]).
      + apply expr_rule. destruct Ho as [-> | ->]; cbn; tauto.
      + cbn. repeat constructor. destruct Ho as [-> | ->]; reflexivity.
      + repeat constructor. exact Hx.
    - exists [Branch 0 (cs ++ [Leaf t]); Leaf o], (Num m). reflexivity.
    - exact H.
    - exists x'. repeat split; auto. rewrite H3. cbn [leaves flat_map app]. fold (@leaves nat terminals). rewrite <- app_assoc. reflexivity. }
  induction k as [|k IH]; intros r x n Hk Hx He H.
  - destruct r; [|cbn in Hk; lia]. injection H as <-. exists x. rewrite app_nil_r. auto.
  - destruct r as [|o r]; [injection H as <-; exists x; rewrite app_nil_r; auto|].
    assert (Hr : exists m r', r = Num m :: r' /\ (o = Plus \/ o = Mul) /\ calc_rest (joined (to_node x) o m) r' = Some n).
    { destruct o; try discriminate; destruct r as [|[| |m] r]; try discriminate; exists m, r; auto. }
    destruct Hr as (m & r' & -> & Ho & H'). apply (Hstep o m r' x n Ho Hx He); [|exact H'].
    intros x1 n1 H1 H2 H3. apply (IH r' x1 n1); auto. cbn in Hk. lia.
Qed.

Lemma calc_parses ts n : calc ts = Some n -> exists x, parses expr_grammar terminal_eq ts x /\ ends_in_leaf x /\ n = to_node x.
Proof.
  intros H. destruct ts as [|[| |m] ts]; try discriminate.
  destruct (rest_tree (length ts) ts (Branch 0 [Leaf (Num m)]) n) as (x & H1 & (cs & t & ->) & H3 & H4); auto.
  - apply derivation_branch with (bd := [Ter (Num 0)]); [apply expr_rule; cbn; tauto|repeat constructor|repeat constructor].
  - exists [], (Num m). reflexivity.
  - exists (Branch 0 (cs ++ [Leaf t])). split; [|split; [exists 0, cs, t; reflexivity|auto]].
    split; [exact H1|]. split; [exact H3|]. exists (cs ++ [Leaf t]). reflexivity.
Qed.

Lemma parses_calc ts x : parses expr_grammar terminal_eq ts x -> calc ts = Some (to_node x).
Proof.
  intros (Hx & <- & cs & E). rewrite <- (app_nil_r (leaves x)). rewrite (calc_tree x Hx _ cs E). reflexivity.
Qed.

(** ** The lexer *)

Section Text.
  Context {env : Env}.

  Definition expr_es : list expr := [ELit (LClass CDigit) None; ELit (LMatch 43%N) None; ELit (LMatch 42%N) None].
  Lemma expr_parsed : parsed expr_tokens expr_es.
  Proof. repeat constructor. Qed.
  Lemma expr_agreed : agreed lang expr_es.
  Proof. right. split; [reflexivity|]. intros e [<-|[<-|[<-|[]]]]; reflexivity. Qed.
  Lemma expr_loops e : In e expr_es -> loops_ok e = true.
  Proof. intros [<-|[<-|[<-|[]]]]; reflexivity. Qed.
  Lemma expr_steady : steady expr_es.
  Proof.
    intros u c Hu _ [H|(e & He & H)]; exfalso.
    - apply app_eq_nil in H. destruct H. discriminate.
    - assert (Hl : length (u ++ [c]) <= 1).
      { destruct He as [<-|[<-|[<-|[]]]]; destruct H as [H|(d & H & _)]; rewrite H; cbn; lia. }
      rewrite app_length in Hl. cbn in Hl. destruct u; [congruence|]. cbn in Hl. lia.
  Qed.

  Lemma expr_char c i : first_match lang expr_es [c] i -> exists g, nth_error (map snd expr_tokens) i = Some g /\ calc_token c = Some (gen_run g [c]).
  Proof.
    intros ((e & He & Hl) & _). unfold calc_token.
    destruct i as [|[|[|i]]]; [| | |destruct i; discriminate]; injection He as <-; destruct Hl as (d & Hd & Hl);
      injection Hd as <-; cbv beta iota delta [lit_set class_set digit_char] in Hl; eexists; (split; [reflexivity|]).
    - destruct Hl as [H1 H2]. apply N.leb_le in H1, H2. rewrite H1, H2. reflexivity.
    - subst c. reflexivity.
    - subst c. reflexivity.
  Qed.
  Lemma expr_single x : matched lang expr_es x -> exists c, x = [c].
  Proof. intros (e & He & H). destruct He as [<-|[<-|[<-|[]]]]; destruct H as (c & -> & _); eauto. Qed.
  Lemma calc_matched c t : calc_token c = Some t -> matched lang expr_es [c].
  Proof.
    unfold calc_token. destruct ((48 <=? c) && (c <=? 57))%N eqn:E1.
    - intros _. apply andb_true_iff in E1. rewrite !N.leb_le in E1. exists (ELit (LClass CDigit) None). split; [cbn; tauto|]. exists c. auto.
    - destruct (c =? 43)%N eqn:E2; [apply N.eqb_eq in E2; subst; intros _; exists (ELit (LMatch 43%N) None); split; [cbn; tauto|]; exists 43%N; split; reflexivity|].
      destruct (c =? 42)%N eqn:E3; [apply N.eqb_eq in E3; subst; intros _; exists (ELit (LMatch 42%N) None); split; [cbn; tauto|]; exists 42%N; split; reflexivity|].
      discriminate.
  Qed.

  Lemma skipn_later {A} (l : list A) : forall p n, skipn (p + n) l = skipn n (skipn p l).
  Proof. induction l as [|a l IH]; intros [|p] n; cbn; auto. rewrite !skipn_nil. reflexivity. Qed.
  Lemma expr_munches input p tks : munches lang expr_es (map snd expr_tokens) input p tks -> map lt_kind tks = calc_tokens (skipn p input).
  Proof.
    induction 1 as [p He|p x y i g ts Hx Hne Hf Hg Hl Hm IH].
    - destruct (skipn p input) as [|c w]; [reflexivity|]. cbn. destruct (calc_token c) eqn:E; [|reflexivity]. exfalso.
      apply (He [c] w eq_refl); [discriminate|]. eapply calc_matched. exact E.
    - destruct (expr_single x (first_match_matched _ _ _ _ Hf)) as (c & ->). destruct (expr_char c i Hf) as (g' & Hg' & E).
      rewrite Hg in Hg'. injection Hg' as <-. rewrite Hx. cbn. rewrite E. f_equal. rewrite IH. f_equal. cbn.
      rewrite (skipn_later input p 1), Hx. reflexivity.
  Qed.

  Lemma expr_run (ho : HashOrder) p w : exists N, forall fuel, N <= fuel -> run_expr fuel p w = Val (calc (calc_tokens w)).
  Proof.
    destruct (expr_new_all ho p) as (N1 & tb & HN1).
    assert (Hb : exists lx, build_lexer expr_tokens w = Val (inl lx)) by (eexists; vm_compute; reflexivity).
    destruct Hb as (lx & Hb).
    destruct (parse_text terminal_eq N1 p tb expr_grammar expr_tokens w lx expr_es lang terminal_lawful expr_built expr_free expr_front
      expr_reachable expr_productive expr_followed expr_entry (HN1 N1 (le_n _)) Hb expr_parsed expr_agreed expr_steady expr_loops)
      as (tks & Hm & N2 & r & HN2 & Hr).
    apply expr_munches in Hm. cbn in Hm. rewrite Hm in Hr.
    assert (r = calc (calc_tokens w)) as <-.
    { destruct r as [n|].
      - destruct Hr as (x & Hx & ->). symmetry. apply parses_calc. exact Hx.
      - destruct (calc (calc_tokens w)) as [n|] eqn:E; [|reflexivity]. apply calc_parses in E. destruct E as (x & H1 & H2 & _). destruct (Hr x H1 H2). }
    exists (Nat.max N1 N2). intros fuel Hf. unfold run_expr. rewrite expr_build. cbn [bind]. rewrite HN1 by lia. cbn [bind].
    rewrite Hb. cbn [bind]. apply HN2. lia.
  Qed.
End Text.
