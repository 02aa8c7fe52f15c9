(** The parser and the compiler with a limited call stack. *)
From Verif Require Import Base RegexModel SpecRegex RegexParseProofs NfaModel StackModel SpecStack.

(** ** The limited parser and the parser *)

Lemma group_items_indep : forall f f' acc s, length (ps_toks s) < f -> length (ps_toks s) < f' -> p_group_items f acc s = p_group_items f' acc s.
Proof.
  induction f as [|f IH]; intros [|f'] acc s H H'; try lia. cbn [p_group_items]. unfold p_peek.
  assert (Hrec : pbind (p_character_group_item s) (fun g s' => p_group_items f (acc ++ [g]) s') = pbind (p_character_group_item s) (fun g s' => p_group_items f' (acc ++ [g]) s')).
  { destruct (p_character_group_item s) as [g s1| | |] eqn:E; cbn [pbind]; try reflexivity.
    apply group_item_ok in E. apply holds_length in E.
    assert (1 <= length (glit_tokens g)) by (destruct g; cbn; lia). apply IH; lia. }
  destruct (ps_toks s) as [|[[k pos]|] r]; try reflexivity. destruct k as [k|[]|q|c|]; try exact Hrec; reflexivity.
Qed.

Lemma match_indep f f' s : length (ps_toks s) < f -> length (ps_toks s) < f' -> p_match f s = p_match f' s.
Proof.
  intros H H'. unfold p_match. replace (p_match_item f' s) with (p_match_item f s); [reflexivity|].
  unfold p_match_item, p_peek. destruct (ps_toks s) as [|[[k pos]|] r] eqn:Es; try reflexivity. destruct k as [k|[]|q|c|]; try reflexivity.
  unfold p_character_group, p_next. rewrite Es. unfold p_peek. cbn [ps_toks].
  assert (Ha : forall b s2, length (ps_toks s2) <= length r -> p_group_after f b s2 = p_group_after f' b s2).
  { intros b s2 Hl. unfold p_group_after, p_peek. cbn [length] in *. rewrite (group_items_indep f f' [] s2) by lia. reflexivity. }
  destruct r as [|[[k2 pos2]|] r2]; try reflexivity.
  destruct k2 as [k2|[]|q|c|]; apply Ha; cbn [ps_toks length]; lia.
Qed.

Section Open.
  Variable call : pstate -> kres (pres expr).
  Hypothesis Hcall : forall s r, call s = KRet r -> forall fuel, 5 * length (ps_toks s) + 5 <= fuel -> p_expression fuel s = r.

  Lemma k_group_p s r : k_group call s = KRet r -> forall fuel, 5 * length (ps_toks s) + 1 <= fuel -> p_group fuel s = r.
  Proof.
    intros H [|fuel] Hf; [lia|]. cbn [p_group]. unfold k_group, k_next in H. unfold p_next.
    destruct (ps_toks s) as [|[[k pos]|] rest] eqn:Es; [injection H as <-; reflexivity| |injection H as <-; reflexivity].
    destruct k as [k|[]|q|c|]; try (injection H as <-; reflexivity). cbn [length] in Hf.
    destruct (call {| ps_toks := rest; ps_cur := Some {| tk_kind := TOp OLParen; tk_pos := pos |} |}) as [r1|] eqn:E1; [|discriminate].
    rewrite (Hcall _ _ E1 fuel) by (cbn [ps_toks]; lia).
    destruct r1 as [e s2| | |]; cbn [kbind pbind] in *; try (injection H as <-; reflexivity).
    destruct (ps_toks s2) as [|[[k2 pos2]|] rest2]; try (injection H as <-; reflexivity).
    destruct k2 as [k2|[]|q|c|]; injection H as <-; reflexivity.
  Qed.

  Lemma k_item_p s r : k_item call s = KRet r -> forall fuel, 5 * length (ps_toks s) + 2 <= fuel -> p_sub_item fuel s = r.
  Proof.
    intros H [|fuel] Hf; [lia|]. cbn [p_sub_item]. unfold k_item, k_peek in H. unfold p_peek.
    destruct (ps_toks s) as [|[[k pos]|] rest] eqn:Es; [injection H as <-; reflexivity| |injection H as <-; reflexivity].
    rewrite <- Es in H.
    assert (Hm : KRet (p_match (S (length (ps_toks s))) s) = KRet r -> p_match fuel s = r).
    { intros H1. injection H1 as <-. apply match_indep; rewrite Es; lia. }
    destruct k as [k|[]|q|c|]; try (exact (Hm H)). apply k_group_p; [assumption|]. rewrite Es. lia.
  Qed.

  Lemma k_loop_p : forall n acc s r, length (ps_toks s) < n -> k_loop call n acc s = KRet r -> forall fuel, 5 * length (ps_toks s) + 3 <= fuel -> p_sub_loop fuel acc s = r.
  Proof.
    induction n as [|n IH]; intros acc s r Hn H [|fuel] Hf; try lia. cbn [p_sub_loop]. cbn [k_loop] in H. unfold k_peek in H. unfold p_peek.
    destruct (ps_toks s) as [|[[k pos]|] rest] eqn:Es; [injection H as <-; reflexivity| |injection H as <-; reflexivity].
    assert (Hrec : kbind (k_item call s) (fun e s' => k_loop call n (acc ++ [e]) s') = KRet r ->
                   pbind (p_sub_item fuel s) (fun e s' => p_sub_loop fuel (acc ++ [e]) s') = r).
    { intros H1. destruct (k_item call s) as [r1|] eqn:E1; [|discriminate].
      assert (E2 : p_sub_item fuel s = r1) by (apply k_item_p; [assumption|rewrite Es; lia]). rewrite E2.
      destruct r1 as [e s1| | |]; cbn [kbind pbind] in *; try (injection H1 as <-; reflexivity).
      apply item_consumes in E2. rewrite Es in E2. apply IH; [lia|assumption|lia]. }
    destruct k as [k|[]|q|c|]; try exact (Hrec H); injection H as <-; reflexivity.
  Qed.

  Lemma k_sub_p s r : k_sub call s = KRet r -> forall fuel, 5 * length (ps_toks s) + 4 <= fuel -> p_sub_expression fuel s = r.
  Proof.
    intros H [|fuel] Hf; [lia|]. cbn [p_sub_expression]. unfold k_sub, k_peek in H. unfold p_peek.
    destruct (ps_toks s) as [|[t|] rest] eqn:Es; [injection H as <-; reflexivity| |injection H as <-; reflexivity].
    rewrite <- Es in H. eapply k_loop_p; [|exact H|rewrite Es; lia]. lia.
  Qed.
End Open.

Lemma k_expression_p : forall d s r, k_expression d s = KRet r -> forall fuel, 5 * length (ps_toks s) + 5 <= fuel -> p_expression fuel s = r.
Proof.
  induction d as [|d IH]; intros s r H [|fuel] Hf; try discriminate; try lia. cbn [p_expression]. cbn [k_expression] in H.
  destruct (k_sub (k_expression d) s) as [r1|] eqn:E1; [|discriminate].
  assert (E2 : p_sub_expression fuel s = r1) by (eapply k_sub_p; [exact IH|exact E1|lia]). rewrite E2.
  destruct r1 as [lhs s1| | |]; cbn [kbind pbind] in *; try (injection H as <-; reflexivity).
  apply (proj1 (proj2 (parser_ok fuel))) in E2. destruct E2 as (Hh & _). apply holds_length in Hh.
  unfold k_peek, k_next in H. unfold p_peek, p_next.
  destruct (ps_toks s1) as [|[[k pos]|] rest] eqn:Es; try (injection H as <-; reflexivity).
  destruct k as [k|[]|q|c|]; try (injection H as <-; reflexivity). cbn [length] in Hh.
  destruct (k_expression d _) as [r2|] eqn:E3; [|discriminate].
  rewrite (IH _ _ E3 fuel) by (cbn [ps_toks]; lia). destruct r2; cbn [kbind pbind] in *; injection H as <-; reflexivity.
Qed.

(** ** Enough room *)

(** Tokens that open a nested call. *)
Definition opens (k : token_kind) : bool := match k with TOp OLParen | TOp OVertical => true | _ => false end.
Definition opening (l : list titem) : nat :=
  length (filter (fun t => match t with Tok t => opens (tk_kind t) | TokPanic => false end) l).
Definition kopening (ks : list token_kind) : nat := length (filter opens ks).

Lemma holds_opening a ks b : holds a ks b -> opening a = kopening ks + opening b.
Proof.
  intros (ts & -> & <-). unfold opening, kopening. rewrite filter_app, app_length. f_equal.
  induction ts as [|t ts IH]; [reflexivity|]. cbn. destruct (opens (tk_kind t)); cbn; congruence.
Qed.

Section Room.
  Variables (call : pstate -> kres (pres expr)) (D : nat).
  Hypothesis Hcall : forall s r, call s = KRet r -> forall fuel, 5 * length (ps_toks s) + 5 <= fuel -> p_expression fuel s = r.
  Hypothesis Hroom : forall s, opening (ps_toks s) < D -> call s <> KOver.

  Lemma k_group_room s : opening (ps_toks s) <= D -> k_group call s <> KOver.
  Proof.
    intros H. unfold k_group, k_next. destruct (ps_toks s) as [|[[k pos]|] rest] eqn:Es; try discriminate.
    destruct k as [k|[]|q|c|]; try discriminate. cbn in H.
    pose proof (Hroom {| ps_toks := rest; ps_cur := Some {| tk_kind := TOp OLParen; tk_pos := pos |} |}) as H1.
    destruct (call _) as [r1|]; [|exfalso; apply H1; [|reflexivity]; cbn [ps_toks]; unfold opening; lia].
    destruct r1 as [e s2| | |]; cbn [kbind]; try discriminate.
    destruct (ps_toks s2) as [|[[k2 pos2]|] rest2]; try discriminate. destruct k2 as [k2|[]|q|c|]; discriminate.
  Qed.
  Lemma k_item_room s : opening (ps_toks s) <= D -> k_item call s <> KOver.
  Proof.
    intros H. unfold k_item, k_peek. destruct (ps_toks s) as [|[[k pos]|] rest] eqn:Es; try discriminate.
    destruct k as [k|[]|q|c|]; try discriminate. apply k_group_room. rewrite Es. assumption.
  Qed.
  Lemma k_loop_room : forall n acc s, opening (ps_toks s) <= D -> k_loop call n acc s <> KOver.
  Proof.
    induction n as [|n IH]; intros acc s H; cbn [k_loop]; [discriminate|]. unfold k_peek.
    destruct (ps_toks s) as [|[[k pos]|] rest] eqn:Es; try discriminate.
    assert (Hrec : kbind (k_item call s) (fun e s' => k_loop call n (acc ++ [e]) s') <> KOver).
    { rewrite <- Es in H. pose proof (k_item_room s H) as H1. destruct (k_item call s) as [r1|] eqn:E1; [|congruence].
      destruct r1 as [e s1| | |]; cbn [kbind]; try discriminate. apply IH.
      pose proof (k_item_p call Hcall s _ E1 _ (le_n _)) as E2. apply parser_ok in E2. destruct E2 as [E2 _]. apply holds_opening in E2. lia. }
    destruct k as [k|[]|q|c|]; try exact Hrec; discriminate.
  Qed.
  Lemma k_sub_room s : opening (ps_toks s) <= D -> k_sub call s <> KOver.
  Proof.
    intros H. unfold k_sub, k_peek. destruct (ps_toks s) as [|[t|] rest] eqn:Es; try discriminate. rewrite <- Es in *. apply k_loop_room. assumption.
  Qed.
End Room.

Lemma k_expression_room : forall d s, opening (ps_toks s) < d -> k_expression d s <> KOver.
Proof.
  induction d as [|d IH]; intros s H; [lia|]. cbn [k_expression].
  pose proof (k_sub_room (k_expression d) d (k_expression_p d) IH s) as H1.
  destruct (k_sub (k_expression d) s) as [r1|] eqn:E1; [|exfalso; apply H1; [lia|reflexivity]].
  destruct r1 as [lhs s1| | |]; cbn [kbind]; try discriminate.
  pose proof (k_sub_p _ (k_expression_p d) s _ E1 _ (le_n _)) as E2. apply parser_ok in E2. destruct E2 as [E2 _]. apply holds_opening in E2.
  unfold k_peek, k_next. destruct (ps_toks s1) as [|[[k pos]|] rest] eqn:Es; try discriminate.
  destruct k as [k|[]|q|c|]; try discriminate.
  pose proof (IH {| ps_toks := rest; ps_cur := Some {| tk_kind := TOp OVertical; tk_pos := pos |} |}) as H2. cbn in E2.
  destruct (k_expression d _) as [r2|]; [|exfalso; apply H2; [|reflexivity]; cbn [ps_toks]; unfold opening in *; lia].
  destruct r2; discriminate.
Qed.

(** ** How much room accepted patterns need *)

Definition itemish (e : expr) : Prop := match e with ELit _ _ | EGroup _ _ => True | _ => False end.

Lemma concat_depth es : Forall itemish es -> parse_depth (concat_of es) = S (maximum (map item_depth es)).
Proof. destruct es as [|e [|e2 es]]; try reflexivity. intros H. inversion H as [|? ? He _]. destruct e; try destruct He; cbn; lia. Qed.
Lemma concat_item_depth es : item_depth (concat_of es) = maximum (map item_depth es).
Proof. destruct es as [|e [|e2 es]]; try reflexivity. cbn. lia. Qed.

Section Exact.
  Variable D : nat.
  Hypothesis Hcall : forall s e s', k_expression D s = KRet (POk e s') ->
    parse_depth e <= D /\ forall d, parse_depth e <= d -> k_expression d s = KRet (POk e s').

  Lemma k_group_exact s e s' : k_group (k_expression D) s = KRet (POk e s') ->
    itemish e /\ item_depth e <= D /\ forall d, item_depth e <= d -> k_group (k_expression d) s = KRet (POk e s').
  Proof.
    unfold k_group, k_next. destruct (ps_toks s) as [|[[k pos]|] rest]; try discriminate; try (intros H; injection H as H; destruct (err_here_not_ok _ _ _ _ H)).
    destruct k as [k|[]|q|c|]; try (intros H; injection H as H; destruct (err_here_not_ok _ _ _ _ H)).
    destruct (k_expression D _) as [r1|] eqn:E1; [|discriminate]. destruct r1 as [e1 s2| | |]; cbn [kbind]; try discriminate.
    destruct (Hcall _ _ _ E1) as [Hd Hk]. intros H.
    assert (He : exists q, e = EGroup e1 q).
    { destruct (ps_toks s2) as [|[[k2 pos2]|] rest2]; try discriminate; try (injection H as H; destruct (err_here_not_ok _ _ _ _ H)).
      destruct k2 as [k2|[]|q|c|]; try (injection H as H; destruct (err_here_not_ok _ _ _ _ H)).
      destruct (p_quantifier _) as [q s4| | |]; try discriminate. injection H as <- <-. eauto. }
    destruct He as (q & ->). split; [exact I|]. split; [exact Hd|]. intros d Hd'. rewrite (Hk d Hd'). exact H.
  Qed.
  Lemma k_item_exact s e s' : k_item (k_expression D) s = KRet (POk e s') ->
    itemish e /\ item_depth e <= D /\ forall d, item_depth e <= d -> k_item (k_expression d) s = KRet (POk e s').
  Proof.
    unfold k_item, k_peek. destruct (ps_toks s) as [|[[k pos]|] rest] eqn:Es; try discriminate; try (intros H; injection H as H; destruct (err_here_not_ok _ _ _ _ H)).
    assert (Hm : forall (x : kres (pres expr)), x = KRet (p_match (S (length (Tok {| tk_kind := k; tk_pos := pos |} :: rest))) s) -> x = KRet (POk e s') ->
       itemish e /\ item_depth e <= D /\ forall d, item_depth e <= d -> x = KRet (POk e s')).
    { intros x -> H. pose proof H as H0. injection H as H. unfold p_match in H. destruct (p_match_item _ s) as [l s1| | |]; cbn [pbind] in H; try discriminate.
      destruct (p_quantifier s1) as [q s2| | |]; cbn [pbind] in H; try discriminate. injection H as <- <-. split; [exact I|]. split; [cbn; lia|]. auto. }
    destruct k as [k|[]|q|c|]; try (apply Hm; reflexivity). apply k_group_exact.
  Qed.
  Lemma k_loop_exact : forall n acc s l s', k_loop (k_expression D) n acc s = KRet (POk l s') ->
    exists new, l = acc ++ new /\ Forall itemish new /\ maximum (map item_depth new) <= D /\
    forall d, maximum (map item_depth new) <= d -> k_loop (k_expression d) n acc s = KRet (POk l s').
  Proof.
    induction n as [|n IH]; intros acc s l s'; cbn [k_loop]; [discriminate|]. unfold k_peek.
    assert (Hend : forall (x : kres (pres (list expr))), x = KRet (POk acc s) -> x = KRet (POk l s') ->
      exists new, l = acc ++ new /\ Forall itemish new /\ maximum (map item_depth new) <= D /\ forall d, maximum (map item_depth new) <= d -> x = KRet (POk l s')).
    { intros x -> H. injection H as <- <-. exists []. rewrite app_nil_r. split; [reflexivity|]. split; [constructor|]. split; [cbn; lia|]. auto. }
    destruct (ps_toks s) as [|[[k pos]|] rest]; try discriminate; try (apply Hend; reflexivity).
    assert (Hrec : kbind (k_item (k_expression D) s) (fun e s' => k_loop (k_expression D) n (acc ++ [e]) s') = KRet (POk l s') ->
      exists new, l = acc ++ new /\ Forall itemish new /\ maximum (map item_depth new) <= D /\ forall d, maximum (map item_depth new) <= d ->
        kbind (k_item (k_expression d) s) (fun e s' => k_loop (k_expression d) n (acc ++ [e]) s') = KRet (POk l s')).
    { destruct (k_item (k_expression D) s) as [r1|] eqn:E1; [|discriminate]. destruct r1 as [e s1| | |]; cbn [kbind]; try discriminate.
      intros H. apply k_item_exact in E1. destruct E1 as (H1 & H2 & H3). apply IH in H. destruct H as (new & -> & H4 & H5 & H6).
      exists (e :: new). rewrite <- app_assoc. split; [reflexivity|]. split; [constructor; assumption|]. cbn [map maximum fold_right] in *. unfold maximum in *.
      split; [lia|]. intros d Hd. rewrite H3 by lia. cbn [kbind]. rewrite H6 by lia. rewrite <- app_assoc. reflexivity. }
    destruct k as [k|[]|q|c|]; try exact Hrec; apply Hend; reflexivity.
  Qed.
  Lemma k_sub_exact s l s' : k_sub (k_expression D) s = KRet (POk l s') ->
    Forall itemish l /\ maximum (map item_depth l) <= D /\ forall d, maximum (map item_depth l) <= d -> k_sub (k_expression d) s = KRet (POk l s').
  Proof.
    unfold k_sub, k_peek. destruct (ps_toks s) as [|[t|] rest]; try discriminate; try (intros H; injection H as H; destruct (err_here_not_ok _ _ _ _ H)).
    intros H. apply k_loop_exact in H. destruct H as (new & -> & H). exact H.
  Qed.
End Exact.

Lemma k_expression_exact : forall D s e s', k_expression D s = KRet (POk e s') ->
  parse_depth e <= D /\ forall d, parse_depth e <= d -> k_expression d s = KRet (POk e s').
Proof.
  induction D as [|D IH]; intros s e s' H; [discriminate|]. cbn [k_expression] in H.
  destruct (k_sub (k_expression D) s) as [r1|] eqn:E1; [|discriminate]. destruct r1 as [lhs s1| | |]; cbn [kbind] in H; try discriminate.
  apply (k_sub_exact D IH) in E1. destruct E1 as (H1 & H2 & H3).
  assert (Hlhs : k_peek s1 (fun o => match o with Some {| tk_kind := TOp OVertical |} => KOver | _ => KRet (POk (concat_of lhs) s1) end) = KRet (POk e s') ->
    parse_depth e <= S D /\ forall d, parse_depth e <= d -> k_expression d s = KRet (POk e s')).
  { intros H'. assert (He : e = concat_of lhs /\ s' = s1).
    { revert H'. unfold k_peek. destruct (ps_toks s1) as [|[[k pos]|] rest]; try discriminate; [|destruct k as [k|[]|q|c|]]; try discriminate; intros [= <- <-]; auto. }
    destruct He as [-> ->]. rewrite concat_depth by assumption. split; [lia|]. intros [|d] Hd; [lia|]. cbn [k_expression]. rewrite H3 by lia. cbn [kbind].
    revert H'. unfold k_peek. destruct (ps_toks s1) as [|[[k pos]|] rest]; try discriminate; [|destruct k as [k|[]|q|c|]]; try discriminate; reflexivity. }
  unfold k_peek, k_next in H. unfold k_peek in Hlhs. destruct (ps_toks s1) as [|[[k pos]|] rest] eqn:Es; try discriminate; try exact (Hlhs H).
  destruct k as [k|[]|q|c|]; try exact (Hlhs H). clear Hlhs.
  destruct (k_expression D _) as [r2|] eqn:E2; [|discriminate]. destruct r2 as [rhs s3| | |]; cbn [kbind] in H; try discriminate. injection H as <- <-.
  apply IH in E2. destruct E2 as [H4 H5]. cbn [parse_depth]. rewrite concat_item_depth. split; [lia|]. intros [|d] Hd; [lia|].
  cbn [k_expression]. rewrite H3 by lia. cbn [kbind]. unfold k_peek, k_next. rewrite Es. rewrite H5 by lia. reflexivity.
Qed.

(** ** The compiler *)

Lemma k_compile_ret : forall d e b s t r, k_compile d e b s t = KRet r -> compile_expr e b s t = r.
Proof.
  induction d as [|d IH]; intros e b s t r H; [discriminate|]. destruct e as [es| |l r'|l [q|]|e [q|]]; cbn [k_compile compile_expr] in *.
  - set (go := fix go (es : list expr) (b : nfa) (cur : nat) {struct es} : kres (res nfa) :=
      match es with [] => KRet Panic | e :: rest => match rest with [] => k_compile d e b cur t | _ :: _ => let '(b1, n) := add_state b false in cbind (k_compile d e b1 cur n) (fun b2 => go rest b2 n) end end) in H.
    set (go' := fix go (es : list expr) (b : nfa) (cur : nat) {struct es} : res nfa :=
      match es with [] => Panic | e :: rest => match rest with [] => compile_expr e b cur t | _ :: _ => let '(b1, n) := add_state b false in let! b2 := compile_expr e b1 cur n in go rest b2 n end end).
    revert b s r H. induction es as [|e es IHes]; intros b s r H; [injection H as <-; reflexivity|]. destruct es as [|e2 es]; [exact (IH _ _ _ _ _ H)|].
    change (go (e :: e2 :: es) b s) with (let '(b1, n) := add_state b false in cbind (k_compile d e b1 s n) (fun b2 => go (e2 :: es) b2 n)) in H.
    change (go' (e :: e2 :: es) b s) with (let '(b1, n) := add_state b false in let! b2 := compile_expr e b1 s n in go' (e2 :: es) b2 n).
    destruct (add_state b false) as [b1 n]. destruct (k_compile d e b1 s n) as [r1|] eqn:E1; [|discriminate]. rewrite (IH _ _ _ _ _ E1).
    destruct r1 as [b2| |]; cbn [cbind bind] in *; [exact (IHes b2 n r H)|injection H as <-; reflexivity|injection H as <-; reflexivity].
  - injection H as <-. reflexivity.
  - destruct (k_compile d l b s t) as [r1|] eqn:E1; [|discriminate]. rewrite (IH _ _ _ _ _ E1).
    destruct r1 as [b1| |]; cbn [cbind bind] in *; [exact (IH _ _ _ _ _ H)|injection H as <-; reflexivity|injection H as <-; reflexivity].
  - destruct (insert_quantifier_state b q s t) as [[b1 i]| |]; cbn [cbind bind fst snd] in *; injection H as <-; reflexivity.
  - injection H as <-. reflexivity.
  - destruct (insert_quantifier_state b q s t) as [[b1 i]| |]; cbn [cbind bind fst snd] in *; [exact (IH _ _ _ _ _ H)|injection H as <-; reflexivity|injection H as <-; reflexivity].
  - exact (IH _ _ _ _ _ H).
Qed.

Lemma maximum_in x l : In x l -> x <= maximum l.
Proof. induction l as [|y l IH]; [intros []|]. cbn. intros [->|H]; [lia|]. specialize (IH H). unfold maximum in IH. lia. Qed.

Lemma k_compile_room : forall d e b s t, tree_height e <= d -> k_compile d e b s t <> KOver.
Proof.
  induction d as [|d IH]; intros e b s t H; [destruct e; cbn in H; lia|]. destruct e as [es| |l r'|l [q|]|e [q|]]; cbn [k_compile tree_height] in *; try discriminate.
  - set (go := fix go (es : list expr) (b : nfa) (cur : nat) {struct es} : kres (res nfa) :=
      match es with [] => KRet Panic | e :: rest => match rest with [] => k_compile d e b cur t | _ :: _ => let '(b1, n) := add_state b false in cbind (k_compile d e b1 cur n) (fun b2 => go rest b2 n) end end).
    assert (Hes : forall e, In e es -> tree_height e <= d).
    { intros e He. apply (in_map tree_height), maximum_in in He. lia. }
    clear H. revert b s Hes. induction es as [|e es IHes]; intros b s Hes; [discriminate|]. destruct es as [|e2 es]; [apply IH, Hes; left; reflexivity|].
    change (go (e :: e2 :: es) b s) with (let '(b1, n) := add_state b false in cbind (k_compile d e b1 s n) (fun b2 => go (e2 :: es) b2 n)).
    destruct (add_state b false) as [b1 n]. pose proof (IH e b1 s n (Hes e (or_introl eq_refl))) as H1.
    destruct (k_compile d e b1 s n) as [r1|]; [|congruence]. destruct r1 as [b2| |]; cbn [cbind]; try discriminate. apply IHes. intros e' He. apply Hes. right. assumption.
  - pose proof (IH l b s t ltac:(lia)) as H1. destruct (k_compile d l b s t) as [r1|]; [|congruence]. destruct r1; cbn [cbind]; try discriminate. apply IH. lia.
  - destruct (insert_quantifier_state b q s t) as [[b1 i]| |]; cbn [cbind]; discriminate.
  - destruct (insert_quantifier_state b q s t) as [[b1 i]| |]; cbn [cbind fst snd]; try discriminate. apply IH. lia.
  - apply IH. lia.
Qed.

Lemma k_compile_val : forall d e b s t b', k_compile d e b s t = KRet (Val b') -> tree_height e <= d.
Proof.
  induction d as [|d IH]; intros e b s t b' H; [discriminate|]. destruct e as [es| |l r'|l [q|]|e [q|]]; cbn [k_compile tree_height] in *; try lia.
  - set (go := fix go (es : list expr) (b : nfa) (cur : nat) {struct es} : kres (res nfa) :=
      match es with [] => KRet Panic | e :: rest => match rest with [] => k_compile d e b cur t | _ :: _ => let '(b1, n) := add_state b false in cbind (k_compile d e b1 cur n) (fun b2 => go rest b2 n) end end) in H.
    apply le_n_S. revert b s H. induction es as [|e es IHes]; intros b s H; [discriminate|]. destruct es as [|e2 es]; [apply IH in H; cbn; lia|].
    change (go (e :: e2 :: es) b s) with (let '(b1, n) := add_state b false in cbind (k_compile d e b1 s n) (fun b2 => go (e2 :: es) b2 n)) in H.
    destruct (add_state b false) as [b1 n]. destruct (k_compile d e b1 s n) as [r1|] eqn:E1; [|discriminate]. destruct r1 as [b2| |]; cbn [cbind] in H; try discriminate.
    apply IH in E1. apply IHes in H. cbn [map maximum fold_right] in *. unfold maximum in *. lia.
  - destruct (k_compile d l b s t) as [r1|] eqn:E1; [|discriminate]. destruct r1 as [b1| |]; cbn [cbind] in H; try discriminate. apply IH in E1, H. lia.
  - destruct (insert_quantifier_state b q s t) as [[b1 i]| |]; cbn [cbind fst snd] in H; try discriminate. apply IH in H. lia.
  - apply IH in H. lia.
Qed.

(** The two depths. *)
Lemma maximum_le l n : (forall x, In x l -> x <= n) -> maximum l <= n.
Proof. induction l as [|y l IH]; intros H; cbn; [lia|]. pose proof (H y (or_introl eq_refl)). assert (maximum l <= n) by (apply IH; intros x Hx; apply H; right; assumption). unfold maximum in *. lia. Qed.
