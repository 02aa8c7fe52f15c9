(** The number of states and arrows of compiled patterns. *)
From Verif Require Import Base RegexModel SpecRegex SpecPattern SpecErrors SpecTokens SpecPanic NfaModel LexerModel
  RegexTokens RegexPanicProofs NfaCompileProofs SpecExtent.

Notation states m := (length (nfa_states m)).

Lemma update_size i f l l' : update_state i f l = Some l' -> length l' = length l.
Proof.
  revert l'. induction l as [|s r IH]; intros l'; cbn; [discriminate|]. destruct (st_id s =? i); [intros [= <-]; reflexivity|].
  destruct (update_state i f r) as [r'|]; [|discriminate]. intros [= <-]. cbn. f_equal. auto.
Qed.

Notation weigh tr := (list_sum (map (fun x : input * list nat => length (snd x)) tr)).

Lemma insert_weight i t tr : weigh (trans_insert i t tr) <= S (weigh tr).
Proof.
  unfold list_sum. induction tr as [|[j ts] r IH]; cbn [trans_insert]; [cbn; lia|].
  destruct (input_eq_dec i j); cbn [map fold_right snd] in *; [|lia].
  unfold set_insert. destruct (memb t ts); rewrite ?app_length; cbn; lia.
Qed.

Lemma update_weight i j t l l' : update_state i (trans_insert j t) l = Some l' ->
  list_sum (map (fun s => weigh (st_trans s)) l') <= S (list_sum (map (fun s => weigh (st_trans s)) l)).
Proof.
  revert l'. induction l as [|s r IH]; intros l'; cbn [update_state]; [discriminate|]. destruct (st_id s =? i).
  - intros [= <-]. cbn [map st_trans]. change (forall x l, list_sum (x :: l) = x + list_sum l) with (forall x l, x + list_sum l = x + list_sum l).
    cbn [list_sum fold_right]. pose proof (insert_weight j t (st_trans s)). unfold list_sum in *. lia.
  - destruct (update_state i (trans_insert j t) r) as [r'|]; [|discriminate]. intros [= <-]. specialize (IH r' eq_refl).
    unfold list_sum in *. cbn [map fold_right]. lia.
Qed.

Lemma transition_size b s t i b' : add_transition b s t i = Val b' -> states b' = states b /\ arrows b' <= S (arrows b).
Proof.
  unfold add_transition. destruct (update_state s (trans_insert i t) (nfa_states b)) as [l|] eqn:E; [|discriminate].
  intros [= <-]. split; [exact (update_size _ _ _ _ E)|exact (update_weight _ _ _ _ _ E)].
Qed.

Lemma state_size b f b' i : add_state b f = (b', i) -> states b' = S (states b) /\ arrows b' = arrows b.
Proof.
  intros [= <- _]. unfold arrows. cbn [nfa_states]. rewrite app_length, map_app, list_sum_app. cbn. split; lia.
Qed.

Lemma quantifier_size b q s t b' i : insert_quantifier_state b q s t = Val (b', i) ->
  states b' = S (states b) /\ arrows b' <= 2 + arrows b.
Proof.
  unfold insert_quantifier_state, add_quantified_state. destruct (add_state b false) as [b1 j] eqn:E1. apply state_size in E1.
  destruct (add_transition b1 j t (IQuant q)) as [b2| |] eqn:E2; try discriminate. apply transition_size in E2. cbn [bind].
  destruct (add_transition b2 s j IEps) as [b3| |] eqn:E3; try discriminate. apply transition_size in E3. cbn [bind]. intros [= <- _]. lia.
Qed.

Lemma compile_size : forall e b s t b', compile_expr e b s t = Val b' ->
  states b' = states b + marks e + joints e /\ arrows b' <= arrows b + leaves e + 2 * marks e.
Proof.
  induction e as [|e IH|e e2 es IH1 IH2| |l r IHl IHr|l q|e q IH] using expr_seq_ind; intros b s t b'.
  - discriminate.
  - cbn [compile_expr]. intros H. apply IH in H. cbn. lia.
  - cbn [compile_expr]. destruct (add_state b false) as [b1 n] eqn:E1. apply state_size in E1.
    destruct (compile_expr e b1 s n) as [b2| |] eqn:E2; try discriminate. apply IH1 in E2. cbn [bind]. intros H.
    specialize (IH2 b2 n t b' H). cbn [marks joints leaves map list_sum fold_right length] in *. unfold list_sum in *. cbn [map fold_right] in *. lia.
  - cbn [compile_expr]. intros H. apply transition_size in H. cbn. lia.
  - cbn [compile_expr]. destruct (compile_expr l b s t) as [b1| |] eqn:E; try discriminate. apply IHl in E. cbn [bind]. intros H.
    apply IHr in H. cbn [marks joints leaves]. lia.
  - destruct q as [q|]; cbn [compile_expr].
    + destruct (insert_quantifier_state b q s t) as [[b1 i]| |] eqn:E; try discriminate. apply quantifier_size in E. cbn [bind].
      intros H. apply transition_size in H. cbn. lia.
    + intros H. apply transition_size in H. cbn. lia.
  - destruct q as [q|]; cbn [compile_expr].
    + destruct (insert_quantifier_state b q s t) as [[b1 i]| |] eqn:E; try discriminate. apply quantifier_size in E. cbn [bind].
      intros H. apply IH in H. cbn [marks joints leaves]. lia.
    + intros H. apply IH in H. cbn [marks joints leaves]. lia.
Qed.

(** ** Against the pattern *)

Lemma lit_tokens_some l : 1 <= length (lit_tokens l).
Proof. destruct l; cbn; lia. Qed.

Scheme loose_expr_rec' := Minimality for loose_expr Sort Prop
  with loose_sub_rec' := Minimality for loose_sub Sort Prop
  with loose_items_rec' := Minimality for loose_items Sort Prop
  with loose_item_rec' := Minimality for loose_item Sort Prop.
Combined Scheme loose_rec from loose_expr_rec', loose_sub_rec', loose_items_rec', loose_item_rec'.

Definition fits (e : expr) : Prop := ~ gapped e ->
  marks e + joints e + 1 <= length (expr_tokens e) /\ leaves e + 2 * marks e + 1 <= 2 * length (expr_tokens e).

Lemma loose_fits : (forall e, loose_expr e -> fits e) /\ (forall e, loose_sub e -> fits e) /\
  (forall es, loose_items es -> Forall fits es) /\ (forall e, loose_item e -> fits e).
Proof.
  apply loose_rec.
  - auto.
  - intros l r _ IHl _ IHr Hg. destruct IHl as [A B]; [intros H; apply Hg; constructor; assumption|].
    destruct IHr as [C D]; [intros H; apply Hg; apply gapped_right; assumption|].
    cbn [expr_tokens marks joints leaves]. rewrite !app_length. cbn [length]. lia.
  - intros Hg. destruct Hg. constructor.
  - auto.
  - intros e1 e2 es _ I1 _ I2 _ I3 Hg.
    assert (F : Forall fits (e1 :: e2 :: es)) by auto. assert (G : forall e, In e (e1 :: e2 :: es) -> ~ gapped e).
    { intros e Hi He. apply Hg. econstructor; eassumption. }
    clear I1 I2 I3 Hg. cbn [expr_tokens marks joints leaves].
    assert (H : 0 < length (e1 :: e2 :: es)) by (cbn; lia). revert F G H. generalize (e1 :: e2 :: es). clear. intros es F G H.
    enough (E : list_sum (map marks es) + length es + list_sum (map joints es) <= length (flat_map expr_tokens es) /\
      list_sum (map leaves es) + 2 * list_sum (map marks es) + length es <= 2 * length (flat_map expr_tokens es)) by lia.
    clear H. induction F as [|e es Fe Fs IH]; [cbn; lia|].
    destruct (Fe (G e (or_introl eq_refl))) as [A B]. destruct IH as [C D]; [intros e' He; apply G; right; assumption|].
    cbn [flat_map length]. rewrite app_length. unfold list_sum in *. cbn [map fold_right]. lia.
  - constructor.
  - constructor; assumption.
  - intros l q _. unfold fits. cbn [expr_tokens marks joints leaves]. rewrite app_length. pose proof (lit_tokens_some l). destruct q; cbn; lia.
  - intros e q _ IH Hg. destruct IH as [A B]; [intros H; apply Hg; constructor; assumption|].
    cbn [expr_tokens marks joints leaves]. rewrite !app_length. destruct q; cbn [length oquant_tokens]; lia.
Qed.

Section Text.
  Context {env : Env}.

  Lemma tokenizes_length p w l : tokenizes p w l -> length (filter (fun x => match x with Tok _ => true | TokPanic => false end) l) <= length w.
  Proof.
    induction 1 as [p|p w Hc|p w k r cut l Ht H IH]; cbn [filter length]; [lia|lia|].
    apply takes_shorter in Ht. lia.
  Qed.

  Lemma toks_filter ts : filter (fun x => match x with Tok _ => true | TokPanic => false end) (map Tok ts) = map Tok ts.
  Proof. induction ts as [|t ts IH]; cbn; [reflexivity|]. f_equal. assumption. Qed.

  Lemma text_size w e : regex_parse w = Val (ParseOk e) -> ~ gapped e ->
    marks e + joints e + 1 <= extent w /\ leaves e + 2 * marks e + 1 <= 2 * extent w.
  Proof.
    intros Hp Hg. apply pattern_of_ok in Hp. unfold extent.
    assert (Hf : forall ks : list token_kind, loose_expr e -> length (expr_tokens e) <= length ks -> length ks <= length w ->
      marks e + joints e + 1 <= Nat.max 1 (length w) /\ leaves e + 2 * marks e + 1 <= 2 * Nat.max 1 (length w)).
    { intros ks Hl Hk Hw. destruct (proj1 loose_fits e Hl Hg). lia. }
    destruct Hp as [(ts & Ht & Hr)|(ts & Ht & Hr)]; apply tokenizes_length in Ht.
    - rewrite toks_filter, map_length in Ht. rewrite <- (map_length tk_kind) in Ht. inversion Hr as [E E'|e' Hl _ E E'|e' rest Hl E E']; subst.
      + unfold marks, joints, leaves. lia.
      + eapply Hf; [assumption| |exact Ht]. rewrite <- E. lia.
      + eapply Hf; [assumption| |exact Ht]. rewrite <- E, app_length. lia.
    - rewrite filter_app, toks_filter, app_length, map_length in Ht. cbn [filter length] in Ht.
      assert (Ht' : length (map tk_kind ts) <= length w) by (rewrite map_length; lia).
      destruct Hr as (Hl & rest & E). eapply Hf; [assumption| |exact Ht']. rewrite E, app_length. lia.
  Qed.
End Text.

(** ** Whole automata *)

Lemma new_size c : compiler_new = Val c -> states (co_nfa c) = 2 /\ arrows (co_nfa c) = 0.
Proof. intros H. vm_compute in H. injection H as <-. split; reflexivity. Qed.

Lemma build_same b m : nfa_build b = Val m -> m = b.
Proof. unfold nfa_build. repeat match goal with |- context [if ?x then _ else _] => destruct x end; congruence. Qed.

Lemma expression_size c e c' : add_expression c e = Val c' ->
  states (co_nfa c') = states (co_nfa c) + marks e + joints e /\ arrows (co_nfa c') <= arrows (co_nfa c) + leaves e + 2 * marks e.
Proof.
  unfold add_expression. destruct (compile_expr e _ _ _) as [b| |] eqn:E; try discriminate. cbn [bind]. intros [= <-].
  exact (compile_size _ _ _ _ _ E).
Qed.

Lemma from_size e m : nfa_from e = Val m -> states m = 2 + marks e + joints e /\ arrows m <= leaves e + 2 * marks e.
Proof.
  unfold nfa_from. destruct compiler_new as [c| |] eqn:Ec; try discriminate. apply new_size in Ec. cbn [bind].
  destruct (add_expression c e) as [c1| |] eqn:E; try discriminate. apply expression_size in E. cbn [bind].
  unfold compiler_compile. intros H. apply build_same in H as ->. lia.
Qed.

Lemma vec_size es m : nfa_from_vec es = Val m -> states m = 2 + list_sum (map (fun e => marks e + joints e) es) /\
  arrows m <= list_sum (map (fun e => leaves e + 2 * marks e) es).
Proof.
  unfold nfa_from_vec. destruct compiler_new as [c| |] eqn:Ec; try discriminate. apply new_size in Ec. cbn [bind].
  destruct (add_expressions c es) as [c1| |] eqn:E; try discriminate. cbn [bind].
  unfold compiler_compile. intros H. apply build_same in H as ->.
  enough (states (co_nfa c1) = states (co_nfa c) + list_sum (map (fun e => marks e + joints e) es) /\
    arrows (co_nfa c1) <= arrows (co_nfa c) + list_sum (map (fun e => leaves e + 2 * marks e) es)) by lia.
  clear Ec. revert c c1 E. unfold list_sum. induction es as [|e es IH]; intros c c1; cbn [add_expressions map fold_right]; [intros [= <-]; lia|].
  destruct (add_expression c e) as [c2| |] eqn:E; try discriminate. apply expression_size in E. cbn [bind]. intros H. apply IH in H. lia.
Qed.

Section Lex.
  Context {env : Env} {K : Type}.

  Lemma ungapped e b s t b' : compile_expr e b s t = Val b' -> ~ gapped e.
  Proof.
    intros H Hg. revert b s t b' H. induction Hg as [|es e Hi Hg IH|l r Hg IH|l r Hg IH|e q Hg IH]; intros b s t b'.
    - discriminate.
    - cbn [compile_expr]. revert b s. induction es as [|e1 es IHes]; intros b s; [destruct Hi|]. destruct es as [|e2 es].
      + destruct Hi as [<-|[]]. apply IH.
      + destruct (add_state b false) as [b1 n]. destruct (compile_expr e1 b1 s n) as [b2| |] eqn:E; try discriminate. cbn [bind].
        destruct Hi as [<-|Hi]; [destruct (IH _ _ _ _ E)|]. apply IHes. assumption.
    - cbn [compile_expr]. destruct (compile_expr l b s t) as [b1| |] eqn:E; try discriminate. destruct (IH _ _ _ _ E).
    - cbn [compile_expr]. destruct (compile_expr l b s t) as [b1| |] eqn:E; try discriminate. cbn [bind]. apply IH.
    - destruct q as [q|]; cbn [compile_expr]; [|apply IH]. destruct (insert_quantifier_state b q s t) as [[b1 i]| |]; try discriminate. apply IH.
  Qed.

  Lemma token_size (lg lg' : lexgen K) w g : add_token lg w g = Val (inl lg') ->
    exists e, regex_parse w = Val (ParseOk e) /\ ~ gapped e /\
      states (co_nfa (lg_compiler lg')) = states (co_nfa (lg_compiler lg)) + 1 + marks e + joints e /\
      arrows (co_nfa (lg_compiler lg')) <= arrows (co_nfa (lg_compiler lg)) + leaves e + 2 * marks e.
  Proof.
    unfold add_token, new_final. destruct (add_state (co_nfa (lg_compiler lg)) true) as [b i] eqn:Ea. apply state_size in Ea.
    destruct (regex_parse w) as [[e|errs]| |]; try discriminate. cbn [bind].
    destruct (add_expression _ e) as [c| |] eqn:E; try discriminate. cbn [bind]. intros [= <-]. exists e. split; [reflexivity|]. split.
    - unfold add_expression in E. destruct (compile_expr e _ _ _) as [b'| |] eqn:E'; try discriminate. exact (ungapped _ _ _ _ _ E').
    - apply expression_size in E. cbn [co_nfa lg_compiler] in *. lia.
  Qed.

  Lemma tokens_size ts : forall lg lg' : lexgen K, add_tokens lg ts = Val (inl lg') ->
    exists es, Forall2 (fun t e => regex_parse (fst t) = Val (ParseOk e) /\ ~ gapped e) ts es /\
      states (co_nfa (lg_compiler lg')) = states (co_nfa (lg_compiler lg)) + list_sum (map (fun e => 1 + marks e + joints e) es) /\
      arrows (co_nfa (lg_compiler lg')) <= arrows (co_nfa (lg_compiler lg)) + list_sum (map (fun e => leaves e + 2 * marks e) es).
  Proof.
    induction ts as [|[w g] ts IH]; intros lg lg' H; cbn [add_tokens] in H.
    - injection H as <-. exists []. split; [constructor|]. cbn. lia.
    - destruct (add_token lg w g) as [[lg1|errs]| |] eqn:E; try discriminate. cbn [bind] in H.
      apply token_size in E as (e & Hp & Hg & Hs & Ha). apply IH in H as (es & F & Hs' & Ha'). exists (e :: es).
      split; [constructor; [split; assumption|assumption]|]. unfold list_sum in *. cbn [map fold_right]. lia.
  Qed.

  Lemma lexer_size l input (lx : lexer K) : build_lexer l input = Val (inl lx) ->
    exists es, Forall2 (fun t e => regex_parse (fst t) = Val (ParseOk e)) l es /\
      states (lx_nfa lx) = 2 + list_sum (map (fun e => 1 + marks e + joints e) es) /\
      arrows (lx_nfa lx) <= list_sum (map (fun e => leaves e + 2 * marks e) es) /\
      states (lx_nfa lx) <= 2 + list_sum (map (fun t => extent (fst t)) l) /\
      arrows (lx_nfa lx) + length l <= 2 * list_sum (map (fun t => extent (fst t)) l).
  Proof.
    unfold build_lexer, lexgen_new. destruct compiler_new as [c| |] eqn:Ec; try discriminate. apply new_size in Ec. cbn [bind].
    destruct (add_tokens _ l) as [[lg|errs]| |] eqn:E; try discriminate. cbn [bind]. unfold tokenize.
    destruct (compiler_compile (lg_compiler lg)) as [m| |] eqn:Em; try discriminate. cbn [bind]. intros [= <-]. cbn [lx_nfa].
    apply build_same in Em as ->. apply tokens_size in E as (es & F & Hs & Ha). cbn [lg_compiler] in *. exists es.
    assert (F' : Forall2 (fun t e => regex_parse (fst t) = Val (ParseOk e)) l es).
    { clear -F. induction F as [|t e l es [H _]]; constructor; assumption. }
    assert (B : list_sum (map (fun e => 1 + marks e + joints e) es) <= list_sum (map (fun t => extent (fst t)) l) /\
      list_sum (map (fun e => leaves e + 2 * marks e) es) + length l <= 2 * list_sum (map (fun t => extent (fst t)) l)).
    { clear -F. unfold list_sum. induction F as [|t e l es [H Hg] F [IH1 IH2]]; cbn [map fold_right length]; [lia|].
      destruct (text_size _ _ H Hg). lia. }
    split; [assumption|]. lia.
  Qed.

  Lemma from_text w e m : regex_parse w = Val (ParseOk e) -> nfa_from e = Val m -> states m <= 1 + extent w /\ arrows m < 2 * extent w.
  Proof.
    intros Hp Hm. pose proof (from_size e m Hm). assert (Hg : ~ gapped e).
    { unfold nfa_from in Hm. destruct compiler_new as [c| |]; try discriminate. cbn [bind] in Hm. unfold add_expression in Hm.
      destruct (compile_expr e _ _ _) as [b| |] eqn:E; try discriminate. exact (ungapped _ _ _ _ _ E). }
    destruct (text_size w e Hp Hg). lia.
  Qed.
End Lex.
