(** Which regexes the patterns of a lexer are, and writing them again. *)
From Verif Require Import Base RegexModel SpecRegex SpecPattern SpecTokens SpecErrors SpecPanic RegexPrintProofs RegexParseProofs RegexProofs RegexTokens
  RegexAcceptProofs RegexPanicProofs NfaModel NfaCompileProofs LexerModel.

Definition small (k : token_kind) : Prop := match k with TQuant q => quant_ok (Some q) | _ => True end.

Section Image.
  Context {env : Env}.

  Lemma reads_small ds o : reads ds o -> forall n, o = Some n -> u32 n.
  Proof. induction 1; intros m [= <-] || intros m E; try discriminate; auto. Qed.

  Lemma takes_small w k r cut : takes w k r cut -> small k.
  Proof.
    intros H. destruct H; try exact I;
      repeat match goal with
      | H : In (_, _) quant_table |- _ => cbn in H; destruct H as [[= <- <-]|[[= <- <-]|[[= <- <-]|[]]]]; exact I
      | H : coded _ _ |- _ => destruct H; exact I
      end.
    - destruct o as [n|]; [|exact I]. exact (reads_small _ _ H0 n eq_refl).
    - destruct o as [n|]; [|exact I]. exact (reads_small _ _ H0 n eq_refl).
    - destruct o1 as [n|], o2 as [m|]; try exact I. split; [exact (reads_small _ _ H0 n eq_refl)|exact (reads_small _ _ H2 m eq_refl)].
  Qed.

  Lemma tokenizes_small p w l : tokenizes p w l -> forall t, In (Tok t) l -> small (tk_kind t).
  Proof.
    induction 1 as [p|p w Hc|p w k r cut l Ht H IH]; intros t Hin; [destruct Hin|destruct Hin as [E|[]]; discriminate|].
    destruct Hin as [[= <-]|Hin]; [exact (takes_small _ _ _ _ Ht)|auto].
  Qed.

  Lemma parsed_small w e : regex_parse w = Val (ParseOk e) ->
    (e = EEmpty \/ loose_expr e) /\ forall k, In k (expr_tokens e) -> small k.
  Proof.
    intros H. apply pattern_of_ok in H. destruct H as [(ts & Ht & Hr)|(ts & Ht & (Hl & rest & E))].
    - assert (Hs : forall k, In k (map tk_kind ts) -> small k).
      { intros k Hk. apply in_map_iff in Hk. destruct Hk as (t & <- & Hk). apply (tokenizes_small _ _ _ Ht). apply in_map. exact Hk. }
      destruct Hr as [|e Hl _|e rest Hl]; (split; [auto|]); intros k Hk; apply Hs; auto. apply in_app_iff. auto.
    - split; [auto|]. intros k Hk. assert (Hin : In k (map tk_kind ts)) by (rewrite E; apply in_app_iff; auto).
      apply in_map_iff in Hin. destruct Hin as (t & <- & Hin). apply (tokenizes_small _ _ _ Ht). apply in_app_iff. left. apply in_map. exact Hin.
  Qed.

  Lemma oquant_small q : (forall k, In k (oquant_tokens q) -> small k) -> quant_ok q.
  Proof. destruct q as [q|]; [|intros _; exact I]. intros H. apply (H (TQuant q)). left. reflexivity. Qed.

  Scheme loose_expr_mut := Induction for loose_expr Sort Prop
  with loose_sub_mut := Induction for loose_sub Sort Prop
  with loose_items_mut := Induction for loose_items Sort Prop
  with loose_item_mut := Induction for loose_item Sort Prop.
  Combined Scheme loose_combined from loose_expr_mut, loose_sub_mut, loose_items_mut, loose_item_mut.

  Notation tokens_small e := (forall k, In k (expr_tokens e) -> small k).

  Lemma loose_is :
    (forall e, loose_expr e -> ~ gapped e -> tokens_small e -> is_expr e) /\
    (forall e, loose_sub e -> ~ gapped e -> tokens_small e -> is_sub e) /\
    (forall es, loose_items es -> (forall e, In e es -> ~ gapped e) -> (forall k, In k (flat_map expr_tokens es) -> small k) -> is_items es) /\
    (forall e, loose_item e -> ~ gapped e -> tokens_small e -> is_item e).
  Proof.
    apply loose_combined.
    - intros e _ IH Hg Hs. apply is_expr_sub. auto.
    - intros l r _ IHl _ IHr Hg Hs. apply is_expr_alt.
      + apply IHl; [intros X; apply Hg; apply gapped_left; exact X|]. intros k Hk. apply Hs. cbn [expr_tokens]. apply in_app_iff. auto.
      + apply IHr; [intros X; apply Hg; apply gapped_right; exact X|]. intros k Hk. apply Hs. cbn [expr_tokens]. rewrite !in_app_iff. auto.
    - intros Hg. destruct Hg. constructor.
    - intros e _ IH Hg Hs. apply is_sub_one. auto.
    - intros e1 e2 es _ IH1 _ IH2 _ IH Hg Hs.
      assert (Hin : forall e, In e (e1 :: e2 :: es) -> ~ gapped e) by (intros e He X; apply Hg; eapply gapped_item; eassumption).
      apply is_sub_many.
      + apply IH1; [apply Hin; left; reflexivity|]. intros k Hk. apply Hs. cbn. rewrite !in_app_iff. auto.
      + apply IH2; [apply Hin; right; left; reflexivity|]. intros k Hk. apply Hs. cbn. rewrite !in_app_iff. auto.
      + apply IH; [intros e He; apply Hin; right; right; exact He|]. intros k Hk. apply Hs. cbn. rewrite !in_app_iff. auto.
    - intros _ _. constructor.
    - intros e es _ IH1 _ IH2 Hg Hs. constructor.
      + apply IH1; [apply Hg; left; reflexivity|]. intros k Hk. apply Hs. cbn. rewrite !in_app_iff. auto.
      + apply IH2; [intros x Hx; apply Hg; right; exact Hx|]. intros k Hk. apply Hs. cbn. rewrite !in_app_iff. auto.
    - intros l q _ Hs. apply is_item_lit. apply oquant_small. intros k Hk. apply Hs. cbn. apply in_app_iff. auto.
    - intros e q _ IH Hg Hs. apply is_item_group.
      + apply IH; [intros X; apply Hg; apply gapped_group; exact X|]. intros k Hk. apply Hs. cbn. right. rewrite !in_app_iff. auto.
      + apply oquant_small. intros k Hk. apply Hs. cbn. right. rewrite !in_app_iff. cbn. auto.
  Qed.

  Lemma is_full :
    (forall e, is_expr e -> ~ gapped e) /\ (forall e, is_sub e -> ~ gapped e) /\
    (forall es, is_items es -> forall e, In e es -> ~ gapped e) /\ (forall e, is_item e -> ~ gapped e).
  Proof.
    apply is_expr_combined.
    - auto.
    - intros l r _ IHl _ IHr X. inversion X; subst; contradiction.
    - auto.
    - intros e1 e2 es _ IH1 _ IH2 _ IH X. inversion X as [|? e Hin He| | |]; subst. destruct Hin as [<-|[<-|Hin]]; [contradiction|contradiction|].
      exact (IH e Hin He).
    - intros e [].
    - intros e es _ IH1 _ IH2 x [<-|Hx]; auto.
    - intros l q _ X. inversion X.
    - intros e q _ IH _ X. inversion X; subst. contradiction.
  Qed.

  Lemma image e : ((exists w, regex_parse w = Val (ParseOk e)) /\ ~ gapped e) <-> is_pattern e.
  Proof.
    split.
    - intros [(w & H) Hg]. destruct (parsed_small w e H) as [[->|Hl] Hs]; [left; reflexivity|right]. exact (proj1 loose_is e Hl Hg Hs).
    - intros H. split; [exists (print_expr e); exact (round_trip e H)|]. destruct H as [->|H]; [intros X; inversion X|exact (proj1 is_full e H)].
  Qed.

  Lemma printed w e : regex_parse w = Val (ParseOk e) -> ~ gapped e -> regex_parse (print_expr e) = Val (ParseOk e).
  Proof. intros H Hg. apply round_trip. apply image. eauto. Qed.

  Lemma rewritten (K : Type) (lg0 lg lg' : lexgen K) ts w g : lexgen_new = Val lg0 -> add_tokens lg0 ts = Val (inl lg) ->
    add_token lg w g = Val (inl lg') ->
    exists e, is_pattern e /\ regex_parse w = Val (ParseOk e) /\ add_token lg (print_expr e) g = Val (inl lg').
  Proof.
    intros H0 H Ha. destruct (add_token_cases K lg0 lg ts w g H0 H) as (_ & [Hok _] & _). destruct (Hok (ex_intro _ _ Ha)) as (e & He & Hg).
    apply pattern_of_ok in He. exists e. split; [apply image; eauto|]. split; [exact He|].
    unfold add_token in *. rewrite (printed w e He Hg). rewrite He in Ha. exact Ha.
  Qed.

  (** *** Writing any regex that was read *)
  Lemma writes_small : forall e, tokens_small e -> writes (print_expr e) (expr_tokens e).
  Proof.
    induction e as [|e IH|e e2 es IH1 IH2| |l r IHl IHr|l q|e q IH] using expr_seq_ind; intros Hs.
    - apply writes_nil.
    - cbn [print_expr expr_tokens flat_map] in Hs |- *. rewrite app_nil_r in Hs |- *. rewrite app_nil_r. auto.
    - change (print_expr (EConcat (e :: e2 :: es))) with (print_expr e ++ print_expr (EConcat (e2 :: es))).
      change (expr_tokens (EConcat (e :: e2 :: es))) with (expr_tokens e ++ expr_tokens (EConcat (e2 :: es))) in *.
      apply writes_app; [apply IH1|apply IH2]; intros k Hk; apply Hs; apply in_app_iff; auto.
    - apply writes_nil.
    - cbn [print_expr expr_tokens] in *. apply writes_app; [apply IHl; intros k Hk; apply Hs; apply in_app_iff; auto|].
      apply (writes_app [_] [TOp OVertical]); [apply writes_op; reflexivity|]. apply IHr. intros k Hk. apply Hs. rewrite !in_app_iff. auto.
    - cbn [print_expr expr_tokens] in *. apply writes_app; [apply writes_lit|]. apply writes_oquant. apply oquant_small.
      intros k Hk. apply Hs. apply in_app_iff. auto.
    - cbn [print_expr expr_tokens] in *. apply (writes_app [_] [TOp OLParen]); [apply writes_op; reflexivity|].
      apply writes_app; [apply IH; intros k Hk; apply Hs; rewrite !in_app_iff; auto|].
      apply (writes_app [_] [TOp ORParen]); [apply writes_op; reflexivity|]. apply writes_oquant. apply oquant_small.
      intros k Hk. apply Hs. rewrite !in_app_iff. auto.
  Qed.

  Lemma small_kinds e : tokens_small e -> stream_kinds (tokens_of (print_expr e)) = Some (expr_tokens e).
  Proof.
    intros H. pose proof (writes_small e H []) as Hw. rewrite kinds_nil, !app_nil_r in Hw. exact Hw.
  Qed.

  Lemma printed_iff w e : regex_parse w = Val (ParseOk e) ->
    (regex_parse (print_expr e) = Val (ParseOk e) <-> e = EEmpty \/ ~ ends_open (expr_tokens e)).
  Proof.
    intros H. destruct (parsed_small w e H) as [Hl Hs]. rewrite (parse_reads _ _ e (small_kinds e Hs)). split.
    - intros Hr. inversion Hr as [E|e' Hl' Ho E|e' rest Hl' E]; subst; auto.
      exfalso. apply (f_equal (@length _)) in E. rewrite app_length in E. cbn in E. lia.
    - intros [->|Ho]; [constructor|]. destruct Hl as [->|Hl]; [destruct Ho; left; reflexivity|]. apply read_all; assumption.
  Qed.
End Image.
