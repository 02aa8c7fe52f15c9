(** How much room patterns need, from their text. *)
From Verif Require Import Base RegexModel SpecRegex SpecPattern SpecPanic SpecTokens RegexParseProofs RegexProofs RegexAcceptProofs RegexTokens RegexPanicProofs RegexImage.
From Verif Require Import NfaModel LexerModel NfaWitness StackModel SpecStack StackProofs.

(** ** Operators and characters *)

Lemma op_dec (a b : op_kind) : {a = b} + {a <> b}.
Proof. decide equality. Defined.
Definition ops (o : op_kind) (ks : list token_kind) : nat :=
  list_sum (map (fun k => match k with TOp o' => if op_dec o o' then 1 else 0 | _ => 0 end) ks).
Definition kinds (l : list titem) : list token_kind := flat_map (fun t => match t with Tok t => [tk_kind t] | TokPanic => [] end) l.

Lemma ops_app o a b : ops o (a ++ b) = ops o a + ops o b.
Proof. unfold ops. rewrite map_app, list_sum_app. reflexivity. Qed.

Lemma opening_ops l : opening l = ops OLParen (kinds l) + ops OVertical (kinds l).
Proof.
  induction l as [|[[k pos]|] l IH]; [reflexivity| |exact IH].
  assert (Hk : ops OLParen [k] + ops OVertical [k] = if opens k then 1 else 0) by (destruct k as [k|[]|q|c|]; reflexivity).
  change (kinds (Tok _ :: l)) with ([k] ++ kinds l). rewrite !ops_app. unfold opening in *. cbn [filter tk_kind]. destruct (opens k); cbn [length]; lia.
Qed.

Lemma holds_ops o a ks b : holds a ks b -> ops o ks <= ops o (kinds a).
Proof.
  intros (ts & -> & <-). unfold kinds. rewrite flat_map_app, ops_app.
  enough (flat_map (fun t => match t with Tok t => [tk_kind t] | TokPanic => [] end) (map Tok ts) = map tk_kind ts) as -> by lia.
  induction ts as [|t ts IH]; [reflexivity|]. cbn. f_equal. exact IH.
Qed.

Lemma op_char c c' o : In (c, o) op_table -> In (c', o) op_table -> c = c'.
Proof. intros H H'. destruct o; cbn in H, H'; intuition congruence. Qed.

Section Text.
  Context {env : Env}.

  Lemma takes_count w k r cut c : takes w k r cut -> count c r <= count c w.
  Proof. unfold count. destruct 1; repeat (rewrite ?count_occ_app; cbn [count_occ]; repeat destruct (N.eq_dec _ _)); lia. Qed.

  Lemma takes_op_count w k r cut c o : takes w k r cut -> In (c, o) op_table -> ops o [k] + count c r <= count c w.
  Proof.
    intros H Hc. pose proof (takes_count _ _ _ _ c H) as Hle.
    assert (Hk : ops o [k] = 0 \/ (k = TOp o /\ ops o [k] = 1)).
    { destruct k as [|o'| | |]; auto. unfold ops. cbn. destruct (op_dec o o') as [->|]; auto. }
    destruct Hk as [->|[-> ->]]; [lia|].
    assert (Hw : w = c :: r).
    { inversion H; subst; try match goal with X : coded _ (TOp _) |- _ => inversion X end.
      - f_equal. eapply op_char; eassumption.
      - match goal with X : bounded _ ?x = _ |- _ => destruct x; discriminate X end.
      - match goal with X : bounded _ ?x = _ |- _ => destruct x; discriminate X end.
      - match goal with X : ranged ?x ?y = _ |- _ => destruct x, y; discriminate X end. }
    subst w. unfold count. cbn [count_occ]. destruct (N.eq_dec c c); [lia|congruence].
  Qed.

  Lemma tokens_count p w l c o : tokenizes p w l -> In (c, o) op_table -> ops o (kinds l) <= count c w.
  Proof.
    intros H Hc. induction H as [p|p w H|p w k r cut l H1 H2 IH]; [cbn; lia|cbn; lia|].
    pose proof (takes_op_count _ _ _ _ c o H1 Hc) as H. change (kinds (Tok _ :: l)) with ([k] ++ kinds l). rewrite ops_app. lia.
  Qed.

  Lemma text_count w c o : In (c, o) op_table -> ops o (kinds (tokens_of w)) <= count c w.
  Proof. apply (tokens_count 0). apply tokens_ok. reflexivity. Qed.
End Text.

(** ** The height of what is read *)

Lemma loose_height :
  (forall e, loose_expr e -> tree_height e <= 2 + 2 * ops OLParen (expr_tokens e) + ops OVertical (expr_tokens e)) /\
  (forall e, loose_sub e -> tree_height e <= 2 + 2 * ops OLParen (expr_tokens e) + ops OVertical (expr_tokens e)) /\
  (forall es, loose_items es -> maximum (map tree_height es) <= 1 + 2 * ops OLParen (flat_map expr_tokens es) + ops OVertical (flat_map expr_tokens es)) /\
  (forall e, loose_item e -> tree_height e <= 1 + 2 * ops OLParen (expr_tokens e) + ops OVertical (expr_tokens e)).
Proof.
  apply loose_combined.
  - auto.
  - intros l r _ IHl _ IHr. cbn [tree_height expr_tokens]. rewrite !ops_app. change (ops OVertical [TOp OVertical]) with 1. change (ops OLParen [TOp OVertical]) with 0. lia.
  - cbn. lia.
  - intros e _ IH. lia.
  - intros e1 e2 es _ IH1 _ IH2 _ IH. cbn [tree_height expr_tokens flat_map map maximum fold_right]. unfold maximum in IH. rewrite !ops_app. lia.
  - cbn. lia.
  - intros e es _ IH1 _ IH. cbn [flat_map map maximum fold_right]. unfold maximum in IH. rewrite !ops_app. lia.
  - intros l q. cbn [tree_height]. lia.
  - intros e q _ IH. cbn [tree_height expr_tokens]. rewrite !ops_app. change (ops OLParen [TOp OLParen]) with 1. change (ops OVertical [TOp OLParen]) with 0. lia.
Qed.

Section Limits.
  Context {env : Env}.

  Lemma parsed_height w e : regex_parse w = Val (ParseOk e) -> tree_height e <= 2 + 2 * count $"(" w + count $"|" w.
  Proof.
    unfold regex_parse. destruct (p_parse _ _) as [e' s'| | |] eqn:E; try discriminate. intros [= ->].
    destruct (parse_ok _ _ _ _ E) as (Hh & _ & _).
    pose proof (holds_ops OLParen _ _ _ Hh) as H1. pose proof (holds_ops OVertical _ _ _ Hh) as H2.
    pose proof (text_count w $"(" OLParen ltac:(cbn; tauto)) as H3. pose proof (text_count w $"|" OVertical ltac:(cbn; tauto)) as H4.
    assert (Hl : tree_height e <= 2 + 2 * ops OLParen (expr_tokens e) + ops OVertical (expr_tokens e)); [|lia].
    revert E. unfold p_parse, p_peek. cbn [ps_toks]. destruct (tokens_of w) as [|[t|] r]; try discriminate.
    - intros [= <- <-]. cbn. lia.
    - intros E. apply (proj1 loose_height). exact (proj1 (parser_shape _) _ _ _ E).
  Qed.

  (** ** The limited parser *)

  Lemma k_parse_ret d w r : k_parse d w = KRet r -> regex_parse w = r.
  Proof.
    unfold k_parse, regex_parse, p_parse, k_peek, p_peek. cbn [ps_toks]. destruct (tokens_of w) as [|[t|] l] eqn:Et; try (intros [= <-]; reflexivity).
    destruct (k_expression d _) as [x|] eqn:E; [|discriminate].
    rewrite (k_expression_p _ _ _ E) by (cbn [ps_toks]; unfold parse_fuel; lia). destruct x; intros [= <-]; reflexivity.
  Qed.

  Lemma k_parse_room d w : count $"(" w + count $"|" w < d -> k_parse d w <> KOver.
  Proof.
    intros H. unfold k_parse, k_peek. cbn [ps_toks]. destruct (tokens_of w) as [|[t|] l] eqn:Et; try discriminate. rewrite <- Et.
    pose proof (k_expression_room d {| ps_toks := tokens_of w; ps_cur := None |}) as Hr. cbn [ps_toks] in Hr. rewrite opening_ops in Hr.
    pose proof (text_count w $"(" OLParen ltac:(cbn; tauto)) as H3. pose proof (text_count w $"|" OVertical ltac:(cbn; tauto)) as H4.
    destruct (k_expression d _) as [[]|]; try discriminate. destruct Hr; [lia|reflexivity].
  Qed.

  Lemma k_parse_exact d w e : regex_parse w = Val (ParseOk e) ->
    k_parse d w = if parse_depth e <=? d then KRet (Val (ParseOk e)) else KOver.
  Proof.
    intros H. pose (D := S (count $"(" w + count $"|" w)). pose proof (k_parse_room D w (le_n _)) as HD.
    destruct (k_parse D w) as [r|] eqn:E; [|congruence]. pose proof (k_parse_ret _ _ _ E) as Hr. rewrite H in Hr. subst r.
    revert E. unfold k_parse, k_peek. cbn [ps_toks]. destruct (tokens_of w) as [|[t|] l] eqn:Et; try discriminate.
    - intros [= <-]. reflexivity.
    - destruct (k_expression D _) as [x|] eqn:E; [|discriminate]. destruct x as [e' s'| | |]; try discriminate. intros [= ->].
      destruct (k_expression_exact _ _ _ _ E) as [_ Hx]. destruct (Nat.leb_spec (parse_depth e) d) as [Hd|Hd].
      + rewrite (Hx d Hd). reflexivity.
      + destruct (k_expression d _) as [y|] eqn:Ey; [|reflexivity]. exfalso.
        pose proof (k_expression_p _ _ _ E _ (le_n _)) as E1. pose proof (k_expression_p _ _ _ Ey _ (le_n _)) as E2. rewrite E2 in E1. subst y.
        apply k_expression_exact in Ey. lia.
  Qed.

  (** ** [add_token] *)

  Lemma k_add_ret {K} d (lg : lexgen K) w g r : k_add_token d lg w g = KRet r -> add_token lg w g = r.
  Proof.
    unfold k_add_token, add_token, add_expression. destruct (new_final (lg_compiler lg)) as [c1 f].
    destruct (k_parse d w) as [x|] eqn:E; [|discriminate]. rewrite (k_parse_ret _ _ _ E).
    destruct x as [[e|errs]| |]; cbn [cbind bind]; try (intros [= <-]; reflexivity).
    destruct (k_compile d e _ _ _) as [y|] eqn:Ey; [|discriminate]. rewrite (k_compile_ret _ _ _ _ _ _ Ey).
    destruct y; cbn [cbind bind]; intros [= <-]; reflexivity.
  Qed.

  Lemma k_add_either {K} d (lg : lexgen K) w g : k_add_token d lg w g = KOver \/ k_add_token d lg w g = KRet (add_token lg w g).
  Proof. destruct (k_add_token d lg w g) as [r|] eqn:E; [right|left; reflexivity]. rewrite (k_add_ret _ _ _ _ _ E). reflexivity. Qed.

  Lemma k_add_room {K} d (lg : lexgen K) w g : 2 + 2 * count $"(" w + count $"|" w <= d -> k_add_token d lg w g = KRet (add_token lg w g).
  Proof.
    intros H. destruct (k_add_either d lg w g) as [E|E]; [exfalso|exact E]. revert E. unfold k_add_token.
    destruct (new_final (lg_compiler lg)) as [c1 f]. pose proof (k_parse_room d w ltac:(lia)) as Hp.
    destruct (k_parse d w) as [x|] eqn:E; [|congruence]. apply k_parse_ret in E.
    destruct x as [[e|errs]| |]; cbn [cbind]; try discriminate. apply parsed_height in E.
    pose proof (k_compile_room d e (co_nfa c1) (nfa_start (co_nfa c1)) (co_final c1) ltac:(lia)) as Hc.
    destruct (k_compile d e _ _ _) as [y|]; [|congruence]. destruct y; discriminate.
  Qed.

  Lemma k_add_exact {K} d (lg lg' : lexgen K) w g e : add_token lg w g = Val (inl lg') -> regex_parse w = Val (ParseOk e) ->
    k_add_token d lg w g = if (parse_depth e <=? d) && (tree_height e <=? d) then KRet (Val (inl lg')) else KOver.
  Proof.
    intros Ha Hw. destruct (k_add_either d lg w g) as [E|E]; rewrite E; rewrite ?Ha.
    - destruct (Nat.leb_spec (parse_depth e) d) as [H1|H1]; [|reflexivity]. destruct (Nat.leb_spec (tree_height e) d) as [H2|H2]; [|reflexivity]. exfalso.
      revert E. unfold k_add_token. destruct (new_final (lg_compiler lg)) as [c1 f]. rewrite (k_parse_exact d w e Hw).
      destruct (Nat.leb_spec (parse_depth e) d); [|lia]. cbn [cbind].
      pose proof (k_compile_room d e (co_nfa c1) (nfa_start (co_nfa c1)) (co_final c1) H2) as Hc.
      destruct (k_compile d e _ _ _) as [y|]; [|congruence]. destruct y; discriminate.
    - rewrite Ha in E. revert E. unfold k_add_token. destruct (new_final (lg_compiler lg)) as [c1 f]. rewrite (k_parse_exact d w e Hw).
      destruct (Nat.leb_spec (parse_depth e) d) as [H1|H1]; cbn [cbind]; [|discriminate].
      destruct (k_compile d e _ _ _) as [y|] eqn:Ey; [|discriminate]. destruct y as [b| |]; try discriminate.
      apply k_compile_val in Ey. destruct (Nat.leb_spec (tree_height e) d); [reflexivity|lia].
  Qed.

  (** ** No room is enough *)

  Fixpoint nested_expr (n : nat) : expr := match n with 0 => ELit (LMatch $"a") None | S n => EGroup (nested_expr n) None end.
  Fixpoint barred_expr (n : nat) : expr := match n with 0 => ELit (LMatch $"a") None | S n => EAlt (ELit (LMatch $"a") None) (barred_expr n) end.

  Lemma nested_print n : print_expr (nested_expr n) = nested n.
  Proof.
    induction n as [|n IH]; [reflexivity|]. cbn [nested_expr print_expr]. rewrite IH. unfold nested. cbn [print_oquant app repeat].
    f_equal. rewrite <- app_assoc. f_equal. cbn [app]. f_equal. symmetry. exact (repeat_cons n $")").
  Qed.
  Lemma barred_print n : print_expr (barred_expr n) = barred n.
  Proof. induction n as [|n IH]; [reflexivity|]. cbn [barred_expr print_expr barred]. rewrite IH. reflexivity. Qed.
  Lemma nested_pattern n : is_expr (nested_expr n).
  Proof. apply is_expr_sub, is_sub_one. induction n as [|n IH]; constructor; try exact I. apply is_expr_sub, is_sub_one. exact IH. Qed.
  Lemma barred_pattern n : is_expr (barred_expr n).
  Proof. induction n as [|n IH]; [|apply is_expr_alt; [|exact IH]]; repeat constructor. Qed.
  Lemma nested_depth n : parse_depth (nested_expr n) = S n.
  Proof. induction n as [|n IH]; [reflexivity|]. cbn. rewrite IH. reflexivity. Qed.
  Lemma barred_depth n : parse_depth (barred_expr n) = S n.
  Proof. induction n as [|n IH]; [reflexivity|]. cbn. rewrite IH. reflexivity. Qed.
  Lemma nested_height n : tree_height (nested_expr n) = S n.
  Proof. induction n as [|n IH]; [reflexivity|]. cbn. rewrite IH. reflexivity. Qed.
  Lemma barred_height n : tree_height (barred_expr n) = S n.
  Proof. induction n as [|n IH]; [reflexivity|]. cbn. rewrite IH. destruct n; reflexivity. Qed.

  Lemma pattern_over {K} d (lg0 lg : lexgen K) ts g e n : lexgen_new = Val lg0 -> add_tokens lg0 ts = Val (inl lg) ->
    is_expr e -> parse_depth e = S n -> tree_height e = S n ->
    exists lg', add_token lg (print_expr e) g = Val (inl lg') /\
      k_add_token d lg (print_expr e) g = if n <? d then KRet (Val (inl lg')) else KOver.
  Proof.
    intros H0 H He Hp Hh. assert (Hw : regex_parse (print_expr e) = Val (ParseOk e)) by (apply round_trip; right; assumption).
    destruct (add_token_cases K lg0 lg ts (print_expr e) g H0 H) as (_ & [_ Hok] & _). destruct Hok as (lg' & Ha).
    { exists e. split; [apply pattern_of_ok; assumption|]. exact (proj1 is_full e He). }
    exists lg'. split; [exact Ha|]. rewrite (k_add_exact d lg lg' _ g e Ha Hw), Hp, Hh. rewrite Bool.andb_diag. reflexivity.
  Qed.

  Lemma text_over {K} d n (lg0 lg : lexgen K) ts g w : lexgen_new = Val lg0 -> add_tokens lg0 ts = Val (inl lg) ->
    w = nested n \/ w = barred n ->
    exists lg', add_token lg w g = Val (inl lg') /\ k_add_token d lg w g = if n <? d then KRet (Val (inl lg')) else KOver.
  Proof.
    intros H0 H [->| ->].
    - rewrite <- nested_print. exact (pattern_over d lg0 lg ts g _ n H0 H (nested_pattern n) (nested_depth n) (nested_height n)).
    - rewrite <- barred_print. exact (pattern_over d lg0 lg ts g _ n H0 H (barred_pattern n) (barred_depth n) (barred_height n)).
  Qed.
End Limits.
