(** Which token sequences the regex parser takes, and as which regex. *)
From Verif Require Import Base RegexModel SpecRegex SpecPattern RegexParseProofs RegexProofs.

(** ** The result has the loose shape *)

Lemma loose_concat es : loose_items es -> loose_sub (concat_of es).
Proof.
  intros [|e es' He [|e2 es2 He2 Hes]]; cbn; [apply loose_sub_none|apply loose_sub_one; assumption|].
  apply loose_sub_many; assumption.
Qed.

Lemma loose_items_app a b : loose_items a -> loose_items b -> loose_items (a ++ b).
Proof. intros Ha Hb. induction a as [|x a IH]; cbn; [assumption|]. inv Ha. constructor; auto. Qed.

Lemma parser_shape : forall fuel,
  (forall s e s', p_expression fuel s = POk e s' -> loose_expr e) /\
  (forall s es s', p_sub_expression fuel s = POk es s' -> loose_items es) /\
  (forall acc s es s', p_sub_loop fuel acc s = POk es s' -> loose_items acc -> loose_items es) /\
  (forall s e s', p_sub_item fuel s = POk e s' -> loose_item e) /\
  (forall s e s', p_group fuel s = POk e s' -> loose_item e).
Proof.
  induction fuel as [|fuel (IHe & IHs & IHl & IHi & IHg)]; [repeat split; intros; discriminate|].
  split; [|split; [|split; [|split]]].
  - intros s e s'. cbn [p_expression].
    destruct (p_sub_expression fuel s) as [lhs s1| | |] eqn:E1; cbn [pbind]; try discriminate.
    apply IHs, loose_concat in E1.
    assert (Hd : POk (concat_of lhs) s1 = POk e s' -> loose_expr e).
    { intros [= <- _]. apply loose_expr_sub. assumption. }
    unfold p_peek, p_next. destruct (ps_toks s1) as [|[[k pos]|] r]; [exact Hd| |discriminate].
    destruct k as [k|o|q|c|]; try exact Hd. destruct o; try exact Hd.
    destruct (p_expression fuel _) as [rhs s3| | |] eqn:E3; cbn [pbind]; try discriminate.
    intros [= <- _]. apply loose_expr_alt; [assumption|]. eapply IHe. eassumption.
  - intros s es s'. cbn [p_sub_expression]. unfold p_peek.
    destruct (ps_toks s) as [|[t|] r]; kill. intros H. eapply IHl; [eassumption|constructor].
  - intros acc s es s'. cbn [p_sub_loop]. unfold p_peek.
    assert (Hd : POk acc s = POk es s' -> loose_items acc -> loose_items es).
    { intros [= <- _]. auto. }
    destruct (ps_toks s) as [|[[k pos]|] r]; [exact Hd| |discriminate].
    assert (Hrec : pbind (p_sub_item fuel s) (fun e s' => p_sub_loop fuel (acc ++ [e]) s') = POk es s' ->
      loose_items acc -> loose_items es).
    { destruct (p_sub_item fuel s) as [e s1| | |] eqn:Ei; cbn [pbind]; try discriminate.
      intros H Ha. eapply IHl; [eassumption|]. apply loose_items_app; [assumption|].
      constructor; [eapply IHi; eassumption|constructor]. }
    destruct k as [k|o|q|c|]; try exact Hrec. destruct o; try exact Hrec; exact Hd.
  - intros s e s'. cbn [p_sub_item]. unfold p_peek. destruct (ps_toks s) as [|[[k pos]|] r]; kill.
    assert (Hm : p_match fuel s = POk e s' -> loose_item e).
    { intros H. destruct (match_ok _ _ _ _ H) as (l & q & -> & _). constructor. }
    destruct k as [k|o|q|c|]; try exact Hm. destruct o; try exact Hm. apply IHg.
  - intros s e s'. cbn [p_group]. unfold p_next.
    destruct (ps_toks s) as [|[[k pos]|] r]; kill.
    destruct k as [k|o|q|c|]; kill. destruct o; kill.
    destruct (p_expression fuel _) as [e1 s2| | |] eqn:E1; cbn [pbind]; try discriminate.
    destruct (ps_toks s2) as [|[[k2 pos2]|] r2]; kill.
    destruct k2 as [k2|o|q|c|]; kill. destruct o; kill.
    destruct (p_quantifier _) as [q s4| | |]; cbn [pbind]; try discriminate.
    intros [= <- _]. constructor. eapply IHe. eassumption.
Qed.

(** A parsed expression does not end where another alternative is due, unless
    something follows. *)
Lemma snoc_last {A} (u v : list A) x y : u ++ [x] = v ++ [y] -> x = y.
Proof. intros H. apply app_inj_tail in H. apply H. Qed.

Lemma ends_open_app a b : b <> [] -> ends_open (a ++ b) -> ends_open b.
Proof.
  intros Hb [H|(u & H)].
  - apply app_eq_nil in H. destruct H. contradiction.
  - right. destruct (exists_last Hb) as (b' & x & ->). rewrite app_assoc in H.
    rewrite (snoc_last _ _ _ _ H). eauto.
Qed.

Lemma ends_open_app' a b : ends_open b -> b <> [] -> ends_open (a ++ b).
Proof. intros [H|(u & ->)] Hb; [contradiction|]. right. exists (a ++ u). apply app_assoc. Qed.

Lemma lit_ends l q : ~ ends_open (lit_tokens l ++ oquant_tokens q).
Proof.
  assert (Hl : exists u k, lit_tokens l = u ++ [k] /\ k <> TOp OVertical).
  { destruct l as [c|k|neg gs]; cbn [lit_tokens].
    - exists [], (TMatch c). split; [reflexivity|discriminate].
    - exists [], (TClass k). split; [reflexivity|discriminate].
    - eexists ([TOp OLBracket] ++ (if neg then [TOp OCarret] else []) ++ flat_map glit_tokens gs), _.
      rewrite <- !app_assoc. split; [reflexivity|discriminate]. }
  destruct Hl as (u & k & -> & Hk). destruct q as [q|]; cbn [oquant_tokens].
  - intros [H|(v & H)]; [apply app_eq_nil in H; destruct H; discriminate|].
    apply snoc_last in H. discriminate.
  - rewrite app_nil_r. intros [H|(v & H)]; [apply app_eq_nil in H; destruct H; discriminate|].
    apply snoc_last in H. contradiction.
Qed.

Lemma item_ends e : loose_item e -> ~ ends_open (expr_tokens e).
Proof.
  intros [l q|e' q _]; cbn [expr_tokens]; [apply lit_ends|].
  intros [H|(u & H)]; [discriminate|].
  destruct q as [q|]; cbn [oquant_tokens] in H; rewrite ?app_nil_r, ?app_assoc in H; apply snoc_last in H; discriminate.
Qed.

Lemma items_end es : loose_items es -> es <> [] -> ~ ends_open (flat_map expr_tokens es).
Proof.
  intros H. induction H as [|e es He Hes IH]; intros Hn; [contradiction|]. cbn [flat_map].
  destruct es as [|e2 es].
  - cbn. rewrite app_nil_r. apply item_ends. assumption.
  - intros Ho. apply IH; [discriminate|]. eapply ends_open_app; [|exact Ho].
    intros E. cbn [flat_map] in E. apply app_eq_nil in E. destruct E as [E _].
    inversion Hes as [|? ? Hi ?]; subst. apply (item_ends _ Hi). left. assumption.
Qed.

Lemma parser_tail : forall fuel s e s', p_expression fuel s = POk e s' -> ps_toks s' = [] -> ~ ends_open (expr_tokens e).
Proof.
  induction fuel as [|fuel IH]; [discriminate|]. intros s e s'. cbn [p_expression].
  destruct (p_sub_expression fuel s) as [lhs s1| | |] eqn:E1; cbn [pbind]; try discriminate.
  pose proof (proj1 (proj2 (parser_ok fuel)) _ _ _ E1) as (Hh & _ & Hne & _).
  pose proof (proj1 (proj2 (parser_shape fuel)) _ _ _ E1) as Hsh.
  assert (Hd : POk (concat_of lhs) s1 = POk e s' -> ps_toks s' = [] -> ~ ends_open (expr_tokens e)).
  { intros [= <- <-] Hn. rewrite concat_of_tokens. apply items_end; [assumption|]. intros ->.
    cbn in Hh. apply holds_nil_inv in Hh. congruence. }
  unfold p_peek, p_next. destruct (ps_toks s1) as [|[[k pos]|] r]; [exact Hd| |discriminate].
  destruct k as [k|o|q|c|]; try exact Hd. destruct o; try exact Hd.
  destruct (p_expression fuel _) as [rhs s3| | |] eqn:E3; cbn [pbind]; try discriminate.
  intros [= <- <-] Hn. pose proof (IH _ _ _ E3 Hn) as Hr. cbn [expr_tokens]. intros Ho. apply Hr.
  rewrite app_assoc in Ho. eapply ends_open_app; [|exact Ho]. intros E. apply Hr. left. assumption.
Qed.

(** ** Everything of the loose shape is read *)

Lemma loose_item_head e a b : loose_item e -> holds a (expr_tokens e) b ->
  exists k, head_kind a = Some k /\ item_start k.
Proof.
  intros Hi H. destruct Hi as [l q|e q He]; cbn [expr_tokens] in H.
  - destruct l as [c|k|neg gs]; cbn [lit_tokens app] in H; tok H t a'; cbn; unfold item_start; eauto 8.
  - cbn [app] in H. tok H t a'; cbn; unfold item_start; eauto 8.
Qed.

Lemma loose_not_quant es a b : loose_items es -> holds a (flat_map expr_tokens es) b -> at_stop b -> not_quant a.
Proof.
  intros [|e es' He Hes] H Hb; cbn [flat_map] in H.
  - apply holds_nil_inv in H. subst. apply stop_not_quant; assumption.
  - apply holds_split in H. destruct H as (c & H & _). destruct (loose_item_head _ _ _ He H) as (k & Hk & Hs).
    right. exists k. split; [assumption|]. intros q. apply item_start_not_quant; assumption.
Qed.

Lemma loose_tokens_pos e : loose_item e -> 1 <= length (expr_tokens e).
Proof.
  intros [l q|e' q _]; cbn [expr_tokens]; rewrite app_length; [pose proof (lit_tokens_pos l)|cbn [length]]; lia.
Qed.

Lemma loose_sub_items e : loose_sub e -> exists es, loose_items es /\ concat_of es = e.
Proof.
  intros [|e0 Hi|e1 e2 es H1 H2 H3].
  - exists []. split; [constructor|reflexivity].
  - exists [e0]. split; [repeat constructor; assumption|reflexivity].
  - exists (e1 :: e2 :: es). split; [repeat constructor; assumption|reflexivity].
Qed.

Lemma parser_loose : forall fuel,
  (forall e a b cur, loose_expr e -> holds a (expr_tokens e) b -> at_end b ->
     (b = [] -> ~ ends_open (expr_tokens e)) -> 5 * length a + 5 <= fuel ->
     gives (p_expression fuel {| ps_toks := a; ps_cur := cur |}) e b) /\
  (forall es a b cur, loose_items es -> holds a (flat_map expr_tokens es) b -> at_stop b -> (b = [] -> es <> []) ->
     5 * length a + 4 <= fuel ->
     gives (p_sub_expression fuel {| ps_toks := a; ps_cur := cur |}) es b) /\
  (forall es acc a b cur, loose_items es -> holds a (flat_map expr_tokens es) b -> at_stop b ->
     5 * length a + 3 <= fuel ->
     gives (p_sub_loop fuel acc {| ps_toks := a; ps_cur := cur |}) (acc ++ es) b) /\
  (forall e a b cur, loose_item e -> holds a (expr_tokens e) b -> not_quant b -> 5 * length a + 2 <= fuel ->
     gives (p_sub_item fuel {| ps_toks := a; ps_cur := cur |}) e b) /\
  (forall e q a b cur, loose_expr e -> holds a (expr_tokens (EGroup e q)) b -> (q = None -> not_quant b) ->
     5 * length a + 1 <= fuel ->
     gives (p_group fuel {| ps_toks := a; ps_cur := cur |}) (EGroup e q) b).
Proof.
  induction fuel as [|fuel (IHe & IHs & IHl & IHi & IHg)]; [repeat split; intros; lia|].
  split; [|split; [|split; [|split]]].
  - intros e a b cur He H Hb Hopen Hf. cbn [p_expression].
    destruct He as [e He|l r Hl Hr].
    + destruct (loose_sub_items e He) as (es & Hi & <-). rewrite concat_of_tokens in H.
      assert (Hst : at_stop b) by (destruct Hb as [Hb|Hb]; [left|right; left]; assumption).
      destruct (IHs es a b cur Hi H Hst) as (cur2 & E).
      { intros Hn ->. apply (Hopen Hn). left. reflexivity. }
      { lia. }
      rewrite E. cbn [pbind].
      unfold p_peek. cbn [ps_toks]. destruct Hb as [->|Hb]; [eexists; reflexivity|].
      destruct b as [|[[k pos]|] r]; try discriminate. cbn in Hb. injection Hb as ->. eexists; reflexivity.
    + destruct (loose_sub_items l Hl) as (es & Hi & <-). cbn [expr_tokens] in H, Hopen.
      apply holds_split in H. destruct H as (c & H1 & H2). cbn [app] in H2.
      pose proof (holds_length _ _ _ H1) as Hlen1.
      tok H2 t c'.
      rewrite concat_of_tokens in H1.
      destruct (IHs es a _ cur Hi H1) as (cur2 & E).
      { right. right. reflexivity. }
      { discriminate. }
      { lia. }
      rewrite E. cbn [pbind]. unfold p_peek, p_next. cbn [ps_toks].
      cbn [length] in Hlen1.
      destruct (IHe r c' b (Some {| tk_kind := TOp OVertical; tk_pos := pos |}) Hr H2 Hb) as (cur3 & E3).
      { intros Hn Ho. apply (Hopen Hn). destruct (expr_tokens r) as [|k ks] eqn:Er.
        - right. eexists. reflexivity.
        - rewrite app_assoc. apply ends_open_app'; [assumption|discriminate]. }
      { lia. }
      rewrite E3. cbn [pbind]. eexists; reflexivity.
  - intros es a b cur Hi H Hb Hne Hf. cbn [p_sub_expression]. unfold p_peek. cbn [ps_toks].
    assert (Hhd : exists t r, a = Tok t :: r).
    { destruct es as [|e es].
      - cbn in H. apply holds_nil_inv in H. subst. destruct Hb as [->|Hb]; [destruct (Hne eq_refl); reflexivity|].
        destruct b as [|[t|] r]; try (cbn in Hb; destruct Hb; discriminate). eauto.
      - inv Hi. cbn [flat_map] in H. apply holds_split in H. destruct H as (c & H & _).
        destruct (loose_item_head _ _ _ H2 H) as (k & Hk & _). destruct a as [|[t|] r]; try discriminate. eauto. }
    destruct Hhd as (t & r & ->).
    apply (IHl es [] _ b cur Hi H Hb). lia.
  - intros es acc a b cur Hi H Hb Hf. cbn [p_sub_loop]. unfold p_peek. cbn [ps_toks].
    destruct Hi as [|e es He Hes].
    + cbn [flat_map] in H. apply holds_nil_inv in H. subst. rewrite app_nil_r.
      destruct Hb as [->|Hb]; [eexists; reflexivity|].
      destruct b as [|[[k pos]|] r]; try (destruct Hb; discriminate). cbn in Hb.
      destruct Hb as [Hb|Hb]; injection Hb as ->; eexists; reflexivity.
    + cbn [flat_map] in H. apply holds_split in H. destruct H as (c & H1 & H2).
      pose proof (holds_length _ _ _ H1) as Hlen. pose proof (loose_tokens_pos e He).
      destruct (IHi e a c cur He H1) as (cur2 & E).
      { eapply loose_not_quant; eassumption. }
      { lia. }
      destruct (loose_item_head _ _ _ He H1) as (k & Hk & Hs).
      destruct a as [|[[k' pos]|] r]; try discriminate. cbn in Hk. injection Hk as ->.
      assert (Hrec : gives (pbind (p_sub_item fuel {| ps_toks := Tok {| tk_kind := k; tk_pos := pos |} :: r; ps_cur := cur |})
         (fun e s' => p_sub_loop fuel (acc ++ [e]) s')) (acc ++ e :: es) b).
      { rewrite E. cbn [pbind]. replace (acc ++ e :: es) with ((acc ++ [e]) ++ es) by (rewrite <- app_assoc; reflexivity).
        apply IHl; auto. cbn [length] in *. lia. }
      destruct k as [k|o|q|c'|]; try exact Hrec. destruct o; try exact Hrec;
        destruct Hs as [[? ?]|[[? ?]|[?|?]]]; discriminate.
  - intros e a b cur Hi H Hb Hf. cbn [p_sub_item]. unfold p_peek. cbn [ps_toks].
    destruct Hi as [l q|e q He].
    + assert (Hm : gives (p_match fuel {| ps_toks := a; ps_cur := cur |}) (ELit l q) b).
      { unfold p_match. cbn [expr_tokens] in H. apply holds_split in H. destruct H as (c & H1 & H2).
        destruct (match_item_complete l fuel a c cur H1 ltac:(lia)) as (cur2 & ->). cbn [pbind].
        destruct (quantifier_complete q c b cur2 H2 (fun _ => Hb)) as (cur3 & ->). cbn [pbind]. eexists; reflexivity. }
      cbn [expr_tokens] in H. apply holds_split in H. destruct H as (c & H & _).
      assert (exists k pos r, a = Tok {| tk_kind := k; tk_pos := pos |} :: r /\ k <> TOp OLParen) as (k & pos & r & -> & Hk).
      { destruct l; cbn [lit_tokens app] in H; tok H t a'; do 3 eexists; (split; [reflexivity|discriminate]). }
      destruct k as [k|o|q'|c'|]; try exact Hm. destruct o; try exact Hm. congruence.
    + assert (exists pos r, a = Tok {| tk_kind := TOp OLParen; tk_pos := pos |} :: r) as (pos & r & Ea).
      { pose proof H as H0. cbn [expr_tokens app] in H0. apply holds_cons in H0.
        destruct H0 as ([k pos] & a' & -> & Hk & _). cbn in Hk. subst. eauto. }
      subst a. apply IHg; auto. lia.
  - intros e q a b cur He H Hb Hf. cbn [p_group]. unfold p_next. cbn [ps_toks].
    cbn [expr_tokens app] in H. tok H t a'. apply holds_split in H. destruct H as (c & H1 & H2).
    cbn [app] in H2. tok H2 t c'.
    pose proof (holds_length _ _ _ H1) as Hlen1. cbn [length] in *.
    destruct (IHe e a' (Tok {| tk_kind := TOp ORParen; tk_pos := pos0 |} :: c')
                  (Some {| tk_kind := TOp OLParen; tk_pos := pos |}) He H1) as (cur2 & E).
    { right. reflexivity. }
    { discriminate. }
    { lia. }
    rewrite E. cbn [pbind ps_toks].
    destruct (quantifier_complete q c' b (Some {| tk_kind := TOp ORParen; tk_pos := pos0 |}) H2 Hb) as (cur3 & ->).
    cbn [pbind]. eexists; reflexivity.
Qed.

(** ** The two directions together *)

Section Accept.
  Context {env : Env}.

  Lemma read_as_parsed w ks e : stream_kinds (tokens_of w) = Some ks -> read_as ks e ->
    regex_parse w = Val (ParseOk e).
  Proof.
    intros Hk Hr. apply stream_kinds_holds in Hk. unfold regex_parse.
    enough (exists b, gives (p_parse (parse_fuel (tokens_of w)) (tokens_of w)) e b) as (b & cur & ->) by reflexivity.
    destruct Hr as [|e He Ho|e rest He].
    - apply holds_nil_inv in Hk. rewrite Hk. exists [], None. reflexivity.
    - exists []. pose proof (proj1 (parser_loose (parse_fuel (tokens_of w))) e (tokens_of w) [] None He Hk
        (or_introl eq_refl) (fun _ => Ho)) as G.
      unfold p_parse, p_peek. cbn [ps_toks]. destruct (tokens_of w) as [|[t|] r].
      + apply holds_length in Hk. cbn in Hk. destruct (expr_tokens e) eqn:E; [|discriminate].
        destruct Ho. left. reflexivity.
      + apply G. unfold parse_fuel. lia.
      + destruct Hk as (ts & Hk & _). destruct ts; discriminate.
    - apply holds_split in Hk. destruct Hk as (b & H1 & H2). exists b.
      pose proof (proj1 (parser_loose (parse_fuel (tokens_of w))) e (tokens_of w) b None He H1) as G.
      tok H2 t b'. specialize (G (or_intror eq_refl)).
      unfold p_parse, p_peek. cbn [ps_toks]. destruct (tokens_of w) as [|[t|] r].
      + apply holds_length in H1. cbn in H1. lia.
      + apply G; [discriminate|unfold parse_fuel; lia].
      + destruct H1 as (ts & H1 & _). destruct ts; discriminate.
  Qed.

  Lemma parsed_read_as w ks e : stream_kinds (tokens_of w) = Some ks -> regex_parse w = Val (ParseOk e) -> read_as ks e.
  Proof.
    intros Hk. unfold regex_parse. destruct (p_parse _ _) as [e' s| | |] eqn:E; try discriminate. intros [= ->].
    destruct (parse_ok _ _ _ _ E) as (Hh & Hend & _). revert E. unfold p_parse, p_peek. cbn [ps_toks].
    pose proof (holds_kinds _ _ _ Hh) as Hkk. rewrite Hk in Hkk.
    destruct (tokens_of w) as [|[t|] r] eqn:Ew; try discriminate.
    - intros [= <- <-]. cbn in Hk. injection Hk as <-. constructor.
    - intros E. pose proof (proj1 (parser_shape _) _ _ _ E) as Hsh. destruct Hend as [Hn|Hend].
      + rewrite Hn in Hkk. cbn in Hkk. rewrite app_nil_r in Hkk. injection Hkk as ->.
        apply read_all; [assumption|]. eapply parser_tail; eassumption.
      + destruct (ps_toks s) as [|[[k pos]|] r']; try discriminate. cbn in Hend. injection Hend as ->.
        cbn in Hkk. destruct (stream_kinds r') as [l|]; [|discriminate]. injection Hkk as ->.
        apply read_stray. assumption.
  Qed.

  Lemma parse_reads w ks e : stream_kinds (tokens_of w) = Some ks ->
    (regex_parse w = Val (ParseOk e) <-> read_as ks e).
  Proof. intros Hk. split; [eapply parsed_read_as|eapply read_as_parsed]; eassumption. Qed.

  Lemma parse_rejects w ks : stream_kinds (tokens_of w) = Some ks ->
    ((exists errs, regex_parse w = Val (ParseErr errs)) <-> ~ exists e, read_as ks e).
  Proof.
    intros Hk. split.
    - intros (errs & E) (e & Hr). apply (parse_reads w ks e Hk) in Hr. congruence.
    - intros Hn. destruct (regex_parse w) as [[e|errs]| |] eqn:E.
      + destruct Hn. exists e. apply (parse_reads w ks e Hk). assumption.
      + eauto.
      + exfalso. apply regex_parse_panic in E. clear -Hk E. revert ks Hk E.
        induction (tokens_of w) as [|[t|] r IH]; intros ks; cbn; [intros _ []| |discriminate].
        destruct (stream_kinds r) as [l|]; [|discriminate]. intros _ [H|H]; [discriminate|]. eapply IH; eauto.
      + destruct (regex_parse_total w E).
  Qed.

  Lemma read_as_unique w ks e e' : stream_kinds (tokens_of w) = Some ks -> read_as ks e -> read_as ks e' -> e = e'.
  Proof.
    intros Hk H H'. apply (parse_reads w ks e Hk) in H. apply (parse_reads w ks e' Hk) in H'. congruence.
  Qed.
End Accept.
