(** Proofs about the regex parser. *)
From Verif Require Import Base RegexModel SpecRegex.

(** [a] holds the tokens [ks] followed by [b]. *)
Definition holds (a : list titem) (ks : list token_kind) (b : list titem) : Prop :=
  exists ts, a = map Tok ts ++ b /\ map tk_kind ts = ks.

Lemma holds_nil a : holds a [] a.
Proof. exists []. auto. Qed.

Lemma holds_app a k1 b k2 c : holds a k1 b -> holds b k2 c -> holds a (k1 ++ k2) c.
Proof.
  intros (t1 & -> & <-) (t2 & -> & <-). exists (t1 ++ t2).
  rewrite !map_app, app_assoc. auto.
Qed.

Lemma holds_one t b : holds (Tok t :: b) [tk_kind t] b.
Proof. exists [t]. auto. Qed.

Lemma holds_cons a k ks b : holds a (k :: ks) b ->
  exists t a', a = Tok t :: a' /\ tk_kind t = k /\ holds a' ks b.
Proof.
  intros (ts & -> & H). destruct ts as [|t ts]; [discriminate|]. injection H as H1 H2.
  exists t, (map Tok ts ++ b). repeat split; auto. exists ts. auto.
Qed.

Lemma holds_length a ks b : holds a ks b -> length a = length ks + length b.
Proof. intros (ts & -> & <-). rewrite app_length, !map_length. reflexivity. Qed.

Lemma holds_split a k1 k2 c : holds a (k1 ++ k2) c -> exists b, holds a k1 b /\ holds b k2 c.
Proof.
  intros (ts & -> & H). revert k1 H. induction ts as [|t ts IH]; intros k1 H.
  - cbn in H. destruct k1, k2; try discriminate. exists c. split; apply holds_nil.
  - destruct k1 as [|k k1].
    + exists (map Tok (t :: ts) ++ c). split; [apply holds_nil|]. exists (t :: ts). auto.
    + injection H as <- H. destruct (IH k1 H) as (b & H1 & H2). exists b. split; [|assumption].
      apply (holds_app _ [tk_kind t] _ k1 _ (holds_one t (map Tok ts ++ c)) H1).
Qed.

Lemma holds_nil_inv a b : holds a [] b -> a = b.
Proof. intros (ts & -> & H). destruct ts; [reflexivity|discriminate]. Qed.

(** Kind of the first token. *)
Definition head_kind (l : list titem) : option token_kind :=
  match l with Tok t :: _ => Some (tk_kind t) | _ => None end.

Ltac inv H := inversion H; subst; clear H.

(** ** Soundness: what is consumed is the text of the result *)

Lemma err_here_not_ok {A} k s (a : A) s' : p_err_here k s = POk a s' -> False.
Proof. unfold p_err_here, p_peek. destruct (ps_toks s) as [|[t|] r]; discriminate. Qed.
Lemma err_here_not_fuel {A} k s : @p_err_here A k s <> PFuel.
Proof. unfold p_err_here, p_peek. destruct (ps_toks s) as [|[t|] r]; discriminate. Qed.

Ltac kill := try discriminate; try (exfalso; eapply err_here_not_ok; eassumption);
             try (intros; exfalso; eapply err_here_not_ok; eassumption).

Lemma group_item_ok s g s' : p_character_group_item s = POk g s' ->
  holds (ps_toks s) (glit_tokens g) (ps_toks s').
Proof.
  unfold p_character_group_item, p_next.
  destruct (ps_toks s) as [|[[k pos]|] r]; kill. cbn [tk_kind].
  destruct k as [k|o|q|c|]; try discriminate.
  - intros [= <- <-]. cbn. apply (holds_one {| tk_kind := TClass k; tk_pos := pos |}).
  - unfold p_peek; cbn [ps_toks]. destruct r as [|[[k2 pos2]|] r2]; try discriminate.
    + intros [= <- <-]. cbn. apply (holds_one {| tk_kind := TMatch c; tk_pos := pos |}).
    + assert (Hone : POk (GMatch c) {| ps_toks := Tok {| tk_kind := k2; tk_pos := pos2 |} :: r2;
                        ps_cur := Some {| tk_kind := TMatch c; tk_pos := pos |} |} = POk g s' ->
                holds (Tok {| tk_kind := TMatch c; tk_pos := pos |} :: Tok {| tk_kind := k2; tk_pos := pos2 |} :: r2)
                      (glit_tokens g) (ps_toks s')).
      { intros [= <- <-]. cbn. apply (holds_one {| tk_kind := TMatch c; tk_pos := pos |}). }
      destruct k2 as [k2|o|q|c2|]; try exact Hone. destruct o; try exact Hone.
      cbn [ps_toks]. destruct r2 as [|[[k3 pos3]|] r3]; kill.
      destruct k3 as [k3|o|q|c3|]; kill.
      intros [= <- <-]. cbn [ps_toks glit_tokens].
      eexists [_; _; _]. cbn. split; reflexivity.
Qed.

Lemma group_items_ok : forall fuel acc s ls s', p_group_items fuel acc s = POk ls s' ->
  exists gs, ls = acc ++ gs /\ holds (ps_toks s) (flat_map glit_tokens gs) (ps_toks s').
Proof.
  induction fuel as [|fuel IH]; intros acc s ls s'; cbn [p_group_items]; [discriminate|].
  unfold p_peek. destruct (ps_toks s) as [|[[k pos]|] r] eqn:Es; try discriminate.
  - intros [= <- <-]. exists []. rewrite app_nil_r, Es. split; [reflexivity|apply holds_nil].
  - assert (Hrec : pbind (p_character_group_item s) (fun g s' => p_group_items fuel (acc ++ [g]) s') = POk ls s' ->
             exists gs, ls = acc ++ gs /\ holds (Tok {| tk_kind := k; tk_pos := pos |} :: r) (flat_map glit_tokens gs) (ps_toks s')).
    { destruct (p_character_group_item s) as [g s1| | |] eqn:Eg; cbn [pbind]; try discriminate.
      intros H. destruct (IH _ _ _ _ H) as (gs & -> & H2).
      exists (g :: gs). rewrite <- app_assoc. split; [reflexivity|].
      apply group_item_ok in Eg. rewrite Es in Eg. cbn [flat_map]. eapply holds_app; eassumption. }
    destruct k as [k|o|q|c|]; try exact Hrec. destruct o; try exact Hrec.
    intros [= <- <-]. exists []. rewrite app_nil_r, Es. split; [reflexivity|apply holds_nil].
Qed.

Lemma character_group_ok fuel s l s' : p_character_group fuel s = POk l s' ->
  holds (ps_toks s) (lit_tokens l) (ps_toks s').
Proof.
  unfold p_character_group, p_next.
  destruct (ps_toks s) as [|[[k pos]|] r]; kill.
  destruct k as [k|o|q|c|]; kill. destruct o; kill.
  set (after := p_group_after fuel).
  assert (Hafter : forall neg s2, after neg s2 = POk l s' ->
    exists gs, l = LGroup neg gs /\ holds (ps_toks s2) (flat_map glit_tokens gs ++ [TOp ORBracket]) (ps_toks s')).
  { intros neg s2. unfold after, p_group_after, p_peek. destruct (ps_toks s2) as [|[t2|] r2] eqn:E2; kill.
    destruct (p_group_items fuel [] s2) as [ls s3| | |] eqn:Eg; cbn [pbind]; try discriminate.
    unfold p_next. destruct (ps_toks s3) as [|[[k3 pos3]|] r3] eqn:E3; kill.
    destruct k3 as [k3|o|q|c|]; kill. destruct o; kill.
    intros [= <- <-]. destruct (group_items_ok _ _ _ _ _ Eg) as (gs & -> & Hg).
    exists gs. split; [reflexivity|]. rewrite E2, E3 in Hg.
    eapply holds_app; [eassumption|]. apply (holds_one {| tk_kind := TOp ORBracket; tk_pos := pos3 |}). }
  unfold p_peek. cbn [ps_toks].
  assert (Hno : after false {| ps_toks := r; ps_cur := Some {| tk_kind := TOp OLBracket; tk_pos := pos |} |} = POk l s' ->
            holds (Tok {| tk_kind := TOp OLBracket; tk_pos := pos |} :: r) (lit_tokens l) (ps_toks s')).
  { intros H. destruct (Hafter _ _ H) as (gs & -> & H2). cbn [lit_tokens ps_toks] in *.
    apply (holds_app _ [TOp OLBracket] r); [apply (holds_one {| tk_kind := TOp OLBracket; tk_pos := pos |})|].
    exact H2. }
  destruct r as [|[[k1 pos1]|] r1]; [exact Hno| |discriminate].
  destruct k1 as [k1|o|q|c|]; try exact Hno. destruct o; try exact Hno.
  intros H. destruct (Hafter _ _ H) as (gs & -> & H2). cbn [lit_tokens ps_toks] in *.
  apply (holds_app _ [TOp OLBracket] _ _ _ (holds_one {| tk_kind := TOp OLBracket; tk_pos := pos |} _)).
  apply (holds_app _ [TOp OCarret] _ _ _ (holds_one {| tk_kind := TOp OCarret; tk_pos := pos1 |} _)).
  exact H2.
Qed.

Lemma match_item_ok fuel s l s' : p_match_item fuel s = POk l s' ->
  holds (ps_toks s) (lit_tokens l) (ps_toks s').
Proof.
  unfold p_match_item, p_peek, p_next.
  destruct (ps_toks s) as [|[[k pos]|] r] eqn:Es; kill.
  destruct k as [k|o|q|c|]; kill.
  - intros [= <- <-]. apply (holds_one {| tk_kind := TClass k; tk_pos := pos |}).
  - destruct o; kill. intros H. rewrite <- Es. eapply character_group_ok. eassumption.
  - intros [= <- <-]. apply (holds_one {| tk_kind := TMatch c; tk_pos := pos |}).
Qed.

Lemma quantifier_ok s q s' : p_quantifier s = POk q s' ->
  holds (ps_toks s) (oquant_tokens q) (ps_toks s').
Proof.
  unfold p_quantifier, p_peek, p_next.
  destruct (ps_toks s) as [|[[k pos]|] r] eqn:Es; try discriminate.
  - intros [= <- <-]. rewrite Es. apply holds_nil.
  - destruct k as [k|o|q0|c|]; intros [= <- <-]; rewrite ?Es; try apply holds_nil.
    apply (holds_one {| tk_kind := TQuant q0; tk_pos := pos |}).
Qed.

Lemma match_ok fuel s e s' : p_match fuel s = POk e s' ->
  exists l q, e = ELit l q /\ holds (ps_toks s) (expr_tokens e) (ps_toks s').
Proof.
  unfold p_match. destruct (p_match_item fuel s) as [l s1| | |] eqn:E1; cbn [pbind]; try discriminate.
  destruct (p_quantifier s1) as [q s2| | |] eqn:E2; cbn [pbind]; try discriminate.
  intros [= <- <-]. exists l, q. split; [reflexivity|]. cbn [expr_tokens].
  eapply holds_app; [eapply match_item_ok; eassumption|eapply quantifier_ok; eassumption].
Qed.

(** Some concatenation in the regex is empty. *)
Fixpoint has_empty (e : expr) : bool :=
  match e with
  | EConcat [] => true
  | EConcat es => existsb has_empty es
  | EEmpty => false
  | EAlt l r => has_empty l || has_empty r
  | ELit _ _ => false
  | EGroup e _ => has_empty e
  end.

Definition opener (k : token_kind) : Prop := k = TOp OLParen \/ k = TOp OVertical.
Definition closer (k : token_kind) : Prop := k = TOp ORParen \/ k = TOp OVertical.

(** An alternative without content: a closer at the very start, or directly
    after an opener. *)
Definition gap (a : list titem) : Prop :=
  (exists t r, a = Tok t :: r /\ closer (tk_kind t)) \/
  (exists l t1 t2 r, a = l ++ Tok t1 :: Tok t2 :: r /\ opener (tk_kind t1) /\ closer (tk_kind t2)).
Definition inner_gap (a : list titem) : Prop :=
  exists l t1 t2 r, a = l ++ Tok t1 :: Tok t2 :: r /\ opener (tk_kind t1) /\ closer (tk_kind t2).

Lemma inner_gap_app u a : inner_gap a -> inner_gap (u ++ a).
Proof.
  intros (l & t1 & t2 & r & -> & H). exists (u ++ l), t1, t2, r. rewrite <- app_assoc. auto.
Qed.
Lemma gap_open t a : opener (tk_kind t) -> gap a -> inner_gap (Tok t :: a).
Proof.
  intros Ho [(t2 & r & -> & Hc)|H].
  - exists [], t, t2, r. auto.
  - apply (inner_gap_app [Tok t]). exact H.
Qed.
Lemma inner_gap_holds a ks b : holds a ks b -> inner_gap b -> inner_gap a.
Proof. intros (ts & -> & _). apply inner_gap_app. Qed.

Lemma existsb_app_has es e : existsb has_empty (es ++ [e]) = existsb has_empty es || has_empty e.
Proof. rewrite existsb_app. cbn. rewrite orb_false_r. reflexivity. Qed.

(** Where an expression can stop. *)
Definition at_end (a : list titem) : Prop := a = [] \/ head_kind a = Some (TOp ORParen).
Definition at_stop (a : list titem) : Prop :=
  a = [] \/ head_kind a = Some (TOp ORParen) \/ head_kind a = Some (TOp OVertical).

Definition good_result (e : expr) (s s' : pstate) : Prop :=
  holds (ps_toks s) (expr_tokens e) (ps_toks s').

Lemma flat_snoc (es : list expr) e : flat_map expr_tokens (es ++ [e]) = flat_map expr_tokens es ++ expr_tokens e.
Proof. rewrite flat_map_app. cbn. rewrite app_nil_r. reflexivity. Qed.

Lemma concat_of_tokens es : expr_tokens (concat_of es) = flat_map expr_tokens es.
Proof. destruct es as [|e [|e2 es]]; cbn; rewrite ?app_nil_r; reflexivity. Qed.

Lemma concat_of_empty es : has_empty (concat_of es) = true -> es = [] \/ existsb has_empty es = true.
Proof.
  destruct es as [|e [|e2 es]]; cbn; auto. intros H. right. rewrite H. reflexivity.
Qed.

Lemma parser_ok : forall fuel,
  (forall s e s', p_expression fuel s = POk e s' ->
     holds (ps_toks s) (expr_tokens e) (ps_toks s') /\ at_end (ps_toks s') /\
     (has_empty e = true -> gap (ps_toks s))) /\
  (forall s es s', p_sub_expression fuel s = POk es s' ->
     holds (ps_toks s) (flat_map expr_tokens es) (ps_toks s') /\ at_stop (ps_toks s') /\ ps_toks s <> [] /\
     (existsb has_empty es = true -> inner_gap (ps_toks s))) /\
  (forall acc s es s', p_sub_loop fuel acc s = POk es s' ->
     exists new, es = acc ++ new /\
     holds (ps_toks s) (flat_map expr_tokens new) (ps_toks s') /\ at_stop (ps_toks s') /\
     (existsb has_empty new = true -> inner_gap (ps_toks s))) /\
  (forall s e s', p_sub_item fuel s = POk e s' ->
     holds (ps_toks s) (expr_tokens e) (ps_toks s') /\ (has_empty e = true -> inner_gap (ps_toks s))) /\
  (forall s e s', p_group fuel s = POk e s' ->
     holds (ps_toks s) (expr_tokens e) (ps_toks s') /\ (has_empty e = true -> inner_gap (ps_toks s))).
Proof.
  induction fuel as [|fuel (IHe & IHs & IHl & IHi & IHg)];
    [repeat split; intros; discriminate|].
  split; [|split; [|split; [|split]]].
  - (* expression *)
    intros s e s'. cbn [p_expression].
    destruct (p_sub_expression fuel s) as [lhs s1| | |] eqn:E1; cbn [pbind]; try discriminate.
    destruct (IHs _ _ _ E1) as (Hh & Hstop & Hne & Hemp). rewrite <- concat_of_tokens in Hh.
    assert (Hlhs : has_empty (concat_of lhs) = true -> ps_toks s1 <> [] -> gap (ps_toks s)).
    { intros He Hs1. destruct (concat_of_empty _ He) as [->|He2].
      - cbn in Hh. apply holds_nil_inv in Hh. left.
        destruct Hstop as [Hst|Hst]; [congruence|].
        rewrite Hh. destruct (ps_toks s1) as [|[t|] r]; [congruence| |cbn in Hst; destruct Hst; discriminate].
        exists t, r. split; [reflexivity|]. cbn in Hst. unfold closer. destruct Hst as [Hst|Hst]; injection Hst; auto.
      - right. apply Hemp; assumption. }
    assert (Hlhs0 : has_empty (concat_of lhs) = true -> gap (ps_toks s)).
    { intros He. destruct (ps_toks s1) as [|x xs] eqn:Es1; [|apply Hlhs; [assumption|discriminate]].
      destruct (concat_of_empty _ He) as [->|He2]; [|right; apply Hemp; assumption].
      cbn in Hh. apply holds_nil_inv in Hh. congruence. }
    assert (Hdone : at_end (ps_toks s1) -> POk (concat_of lhs) s1 = POk e s' ->
      holds (ps_toks s) (expr_tokens e) (ps_toks s') /\ at_end (ps_toks s') /\
      (has_empty e = true -> gap (ps_toks s))).
    { intros Hend [= <- <-]. auto. }
    unfold p_peek, p_next.
    destruct (ps_toks s1) as [|[[k pos]|] r] eqn:Es1; [apply Hdone; left; reflexivity| |discriminate].
    destruct Hstop as [Hst|[Hst|Hst]]; [discriminate| |]; cbn in Hst; injection Hst as ->.
    { apply Hdone. right. reflexivity. }
    destruct (p_expression fuel _) as [rhs s3| | |] eqn:E3; cbn [pbind]; try discriminate.
    intros [= <- <-]. destruct (IHe _ _ _ E3) as (Hh3 & Hend3 & Hemp3). cbn [ps_toks] in *.
    split; [|split; [assumption|]].
    + cbn [expr_tokens]. eapply holds_app; [exact Hh|].
      eapply (holds_app _ [TOp OVertical]); [|exact Hh3].
      apply (holds_one {| tk_kind := TOp OVertical; tk_pos := pos |}).
    + cbn [has_empty]. intros He. apply orb_true_iff in He. destruct He as [He|He]; [auto|].
      right. eapply inner_gap_holds; [exact Hh|]. apply gap_open; [right; reflexivity|auto].
  - (* sub_expression *)
    intros s es s'. cbn [p_sub_expression]. unfold p_peek.
    destruct (ps_toks s) as [|[t|] r] eqn:Es; kill.
    intros H. destruct (IHl _ _ _ _ H) as (new & -> & H1 & H2 & H3). rewrite Es in *. cbn [app].
    repeat split; auto. discriminate.
  - (* loop *)
    intros acc s es s'. cbn [p_sub_loop]. unfold p_peek.
    destruct (ps_toks s) as [|[[k pos]|] r] eqn:Es; try discriminate.
    { intros [= <- <-]. exists []. rewrite app_nil_r, Es. repeat split; [apply holds_nil|left; reflexivity|discriminate]. }
    assert (Hrec : pbind (p_sub_item fuel s) (fun e s' => p_sub_loop fuel (acc ++ [e]) s') = POk es s' ->
      exists new, es = acc ++ new /\
       holds (Tok {| tk_kind := k; tk_pos := pos |} :: r) (flat_map expr_tokens new) (ps_toks s') /\
       at_stop (ps_toks s') /\
       (existsb has_empty new = true -> inner_gap (Tok {| tk_kind := k; tk_pos := pos |} :: r))).
    { destruct (p_sub_item fuel s) as [e s1| | |] eqn:Ei; cbn [pbind]; try discriminate.
      intros H. destruct (IHi _ _ _ Ei) as [Hi1 Hi2].
      destruct (IHl _ _ _ _ H) as (new & -> & H1 & H2 & H3).
      rewrite Es in Hi1, Hi2.
      exists (e :: new). rewrite <- app_assoc. split; [reflexivity|]. split; [|split; [assumption|]].
      - cbn [flat_map]. eapply holds_app; eassumption.
      - cbn [existsb]. intros He. apply orb_true_iff in He. destruct He as [He|He]; [auto|].
        eapply inner_gap_holds; [exact Hi1|auto]. }
    assert (Hstop : (k = TOp OVertical \/ k = TOp ORParen) -> POk acc s = POk es s' ->
      exists new, es = acc ++ new /\
       holds (Tok {| tk_kind := k; tk_pos := pos |} :: r) (flat_map expr_tokens new) (ps_toks s') /\
       at_stop (ps_toks s') /\
       (existsb has_empty new = true -> inner_gap (Tok {| tk_kind := k; tk_pos := pos |} :: r))).
    { intros Hk [= <- <-]. exists []. rewrite app_nil_r, Es. repeat split; [apply holds_nil| |discriminate].
      right. cbn. destruct Hk as [->| ->]; auto. }
    destruct k as [k|o|q|c|]; try exact Hrec. destruct o; try exact Hrec; apply Hstop; auto.
  - (* item *)
    intros s e s'. cbn [p_sub_item]. unfold p_peek.
    destruct (ps_toks s) as [|[[k pos]|] r] eqn:Es; kill.
    assert (Hm : p_match fuel s = POk e s' ->
      holds (Tok {| tk_kind := k; tk_pos := pos |} :: r) (expr_tokens e) (ps_toks s') /\
      (has_empty e = true -> inner_gap (Tok {| tk_kind := k; tk_pos := pos |} :: r))).
    { intros H. destruct (match_ok _ _ _ _ H) as (l & q & -> & H1). rewrite Es in H1. split; [assumption|discriminate]. }
    destruct k as [k|o|q|c|]; try exact Hm. destruct o; try exact Hm.
    intros H. destruct (IHg _ _ _ H) as [H1 H2]. rewrite Es in *. auto.
  - (* group *)
    intros s e s'. cbn [p_group]. unfold p_next.
    destruct (ps_toks s) as [|[[k pos]|] r] eqn:Es; kill.
    destruct k as [k|o|q|c|]; kill. destruct o; kill.
    destruct (p_expression fuel _) as [e1 s2| | |] eqn:E1; cbn [pbind]; try discriminate.
    destruct (IHe _ _ _ E1) as (He1 & He2 & He3). cbn [ps_toks] in *.
    destruct (ps_toks s2) as [|[[k2 pos2]|] r2] eqn:E2; kill.
    destruct k2 as [k2|o|q|c|]; kill. destruct o; kill.
    destruct (p_quantifier _) as [q s4| | |] eqn:E4; cbn [pbind]; try discriminate.
    intros [= <- <-]. apply quantifier_ok in E4. cbn [ps_toks] in *. split.
    + cbn [expr_tokens].
      apply (holds_app _ [TOp OLParen] _ _ _ (holds_one {| tk_kind := TOp OLParen; tk_pos := pos |} _)).
      eapply holds_app; [exact He1|].
      apply (holds_app _ [TOp ORParen] _ _ _ (holds_one {| tk_kind := TOp ORParen; tk_pos := pos2 |} _)).
      exact E4.
    + cbn [has_empty]. intros He. apply gap_open; [left; reflexivity|auto].
Qed.

Lemma parse_ok fuel toks e s' : p_parse fuel toks = POk e s' ->
  holds toks (expr_tokens e) (ps_toks s') /\ at_end (ps_toks s') /\ (has_empty e = true -> gap toks).
Proof.
  unfold p_parse, p_peek. cbn [ps_toks]. destruct toks as [|[t|] r]; try discriminate.
  - intros [= <- <-]. cbn. repeat split; [apply holds_nil|left; reflexivity|discriminate].
  - intros H. apply (proj1 (parser_ok fuel)) in H. exact H.
Qed.

(** ** Fuel *)

Lemma lit_tokens_pos l : 1 <= length (lit_tokens l).
Proof. destruct l; cbn; lia. Qed.

Lemma item_consumes fuel s e s' : p_sub_item fuel s = POk e s' -> length (ps_toks s') < length (ps_toks s).
Proof.
  destruct fuel as [|fuel]; cbn [p_sub_item]; [discriminate|]. unfold p_peek.
  destruct (ps_toks s) as [|[[k pos]|] r] eqn:Es; kill.
  assert (Hm : p_match fuel s = POk e s' -> length (ps_toks s') < length (Tok {| tk_kind := k; tk_pos := pos |} :: r)).
  { intros H. destruct (match_ok _ _ _ _ H) as (l & q & -> & H1). rewrite Es in H1.
    apply holds_length in H1. rewrite H1. cbn [expr_tokens]. rewrite app_length.
    pose proof (lit_tokens_pos l). lia. }
  destruct k as [k|o|q|c|]; try exact Hm. destruct o; try exact Hm.
  intros H. assert (exists e1 q, e = EGroup e1 q) as (e1 & q & ->).
  { revert H. destruct fuel; cbn [p_group]; [discriminate|]. unfold p_next. rewrite Es.
    destruct (p_expression fuel _); cbn [pbind]; try discriminate.
    destruct (ps_toks s0) as [|[[k2 pos2]|] r2]; kill.
    destruct k2 as [k2|o|q|c|]; kill. destruct o; kill.
    destruct (p_quantifier _); cbn [pbind]; try discriminate. intros [= <- _]. eauto. }
  destruct (proj2 (proj2 (proj2 (proj2 (parser_ok fuel)))) _ _ _ H) as [H1 _].
  rewrite Es in H1. apply holds_length in H1. cbn [expr_tokens app] in H1. rewrite H1. cbn [length]. lia.
Qed.

Lemma group_items_fuel : forall fuel acc s, length (ps_toks s) < fuel -> p_group_items fuel acc s <> PFuel.
Proof.
  induction fuel as [|fuel IH]; intros acc s Hf; [lia|]. cbn [p_group_items]. unfold p_peek.
  destruct (ps_toks s) as [|[[k pos]|] r] eqn:Es; try discriminate.
  assert (Hrec : pbind (p_character_group_item s) (fun g s' => p_group_items fuel (acc ++ [g]) s') <> PFuel).
  { destruct (p_character_group_item s) as [g s1| | |] eqn:Eg; cbn [pbind]; try discriminate.
    - apply IH. apply group_item_ok, holds_length in Eg. rewrite Es in Eg. cbn [length] in *.
      destruct g; cbn [glit_tokens length] in Eg; lia.
    - exfalso. revert Eg. unfold p_character_group_item, p_next. rewrite Es. cbn [tk_kind].
      destruct k; try discriminate. unfold p_peek; cbn [ps_toks].
      destruct r as [|[[k2 pos2]|] r2]; try discriminate.
      destruct k2; try discriminate. destruct o; try discriminate.
      cbn [ps_toks]. destruct r2 as [|[[k3 pos3]|] r3]; try discriminate; try apply err_here_not_fuel.
      destruct k3; try discriminate; apply err_here_not_fuel. }
  destruct k as [k|o|q|c|]; try exact Hrec. destruct o; try exact Hrec. discriminate.
Qed.

Lemma match_fuel fuel s : length (ps_toks s) < fuel -> p_match fuel s <> PFuel.
Proof.
  intros Hf. unfold p_match.
  assert (Hq : forall s, p_quantifier s <> PFuel).
  { intros s0. unfold p_quantifier, p_peek, p_next.
    destruct (ps_toks s0) as [|[[k pos]|] r]; try discriminate. destruct k; discriminate. }
  destruct (p_match_item fuel s) as [l s1| | |] eqn:E1; cbn [pbind]; try discriminate.
  - destruct (p_quantifier s1) eqn:E2; cbn [pbind]; try discriminate. exfalso. eapply Hq; eassumption.
  - exfalso. revert E1. unfold p_match_item, p_peek, p_next.
    destruct (ps_toks s) as [|[[k pos]|] r] eqn:Es; try discriminate; try apply err_here_not_fuel.
    destruct k as [k|o|q|c|]; try discriminate; try apply err_here_not_fuel.
    destruct o; try apply err_here_not_fuel.
    unfold p_character_group, p_next. rewrite Es. unfold p_peek at 1. cbn [ps_toks].
    set (after := p_group_after fuel).
    assert (Ha : forall neg s2, length (ps_toks s2) < fuel -> after neg s2 <> PFuel).
    { intros neg s2 Hl. unfold after, p_group_after, p_peek.
      destruct (ps_toks s2) as [|[t2|] r2] eqn:E2; try discriminate; try apply err_here_not_fuel.
      assert (Hi : p_group_items fuel [] s2 <> PFuel) by (apply group_items_fuel; rewrite E2; assumption).
      destruct (p_group_items fuel [] s2) as [ls s3| | |]; cbn [pbind]; try discriminate; try congruence.
      unfold p_next. destruct (ps_toks s3) as [|[[k3 pos3]|] r3]; try discriminate; try apply err_here_not_fuel.
      destruct k3 as [k3|o|q|c|]; try apply err_here_not_fuel. destruct o; try apply err_here_not_fuel. discriminate. }
    cbn [length] in Hf.
    assert (Hn : after false {| ps_toks := r; ps_cur := Some {| tk_kind := TOp OLBracket; tk_pos := pos |} |} <> PFuel)
      by (apply Ha; cbn [ps_toks]; lia).
    destruct r as [|[[k1 pos1]|] r1]; [exact Hn| |discriminate].
    destruct k1 as [k1|o|q|c|]; try exact Hn. destruct o; try exact Hn.
    apply Ha. cbn [ps_toks length] in *. lia.
Qed.

Lemma parser_fuel : forall fuel,
  (forall s, 5 * length (ps_toks s) + 5 <= fuel -> p_expression fuel s <> PFuel) /\
  (forall s, 5 * length (ps_toks s) + 4 <= fuel -> p_sub_expression fuel s <> PFuel) /\
  (forall acc s, 5 * length (ps_toks s) + 3 <= fuel -> p_sub_loop fuel acc s <> PFuel) /\
  (forall s, 5 * length (ps_toks s) + 2 <= fuel -> p_sub_item fuel s <> PFuel) /\
  (forall s, 5 * length (ps_toks s) + 1 <= fuel -> p_group fuel s <> PFuel).
Proof.
  induction fuel as [|fuel (IHe & IHs & IHl & IHi & IHg)]; [repeat split; intros; lia|].
  split; [|split; [|split; [|split]]].
  - intros s Hf. cbn [p_expression].
    assert (H1 : p_sub_expression fuel s <> PFuel) by (apply IHs; lia).
    destruct (p_sub_expression fuel s) as [lhs s1| | |] eqn:E1; cbn [pbind]; try discriminate; try congruence.
    destruct (proj1 (proj2 (parser_ok fuel)) _ _ _ E1) as (Hh & _ & _).
    apply holds_length in Hh.
    unfold p_peek, p_next. destruct (ps_toks s1) as [|[[k pos]|] r] eqn:Es1; try discriminate.
    destruct k as [k|o|q|c|]; try discriminate. destruct o; try discriminate.
    cbn [length] in Hh.
    assert (H3 : p_expression fuel {| ps_toks := r; ps_cur := Some {| tk_kind := TOp OVertical; tk_pos := pos |} |} <> PFuel)
      by (apply IHe; cbn [ps_toks]; lia).
    destruct (p_expression fuel _); cbn [pbind]; try discriminate; congruence.
  - intros s Hf. cbn [p_sub_expression]. unfold p_peek.
    destruct (ps_toks s) as [|[t|] r] eqn:Es; try discriminate; try apply err_here_not_fuel.
    apply IHl. rewrite Es. lia.
  - intros acc s Hf. cbn [p_sub_loop]. unfold p_peek.
    destruct (ps_toks s) as [|[[k pos]|] r] eqn:Es; try discriminate.
    assert (Hrec : pbind (p_sub_item fuel s) (fun e s' => p_sub_loop fuel (acc ++ [e]) s') <> PFuel).
    { assert (H1 : p_sub_item fuel s <> PFuel) by (apply IHi; rewrite Es; lia).
      destruct (p_sub_item fuel s) as [e s1| | |] eqn:E1; cbn [pbind]; try discriminate; try congruence.
      apply item_consumes in E1. rewrite Es in E1. apply IHl. lia. }
    destruct k as [k|o|q|c|]; try exact Hrec. destruct o; try exact Hrec; discriminate.
  - intros s Hf. cbn [p_sub_item]. unfold p_peek.
    destruct (ps_toks s) as [|[[k pos]|] r] eqn:Es; try discriminate; try apply err_here_not_fuel.
    assert (Hm : p_match fuel s <> PFuel) by (apply match_fuel; rewrite Es; lia).
    destruct k as [k|o|q|c|]; try exact Hm. destruct o; try exact Hm.
    apply IHg. rewrite Es. lia.
  - intros s Hf. cbn [p_group]. unfold p_next.
    destruct (ps_toks s) as [|[[k pos]|] r] eqn:Es; try discriminate; try apply err_here_not_fuel.
    destruct k as [k|o|q|c|]; try apply err_here_not_fuel. destruct o; try apply err_here_not_fuel.
    cbn [length] in Hf.
    assert (H1 : p_expression fuel {| ps_toks := r; ps_cur := Some {| tk_kind := TOp OLParen; tk_pos := pos |} |} <> PFuel)
      by (apply IHe; cbn [ps_toks]; lia).
    destruct (p_expression fuel _) as [e1 s2| | |] eqn:E1; cbn [pbind]; try discriminate; try congruence.
    destruct (ps_toks s2) as [|[[k2 pos2]|] r2]; try discriminate; try apply err_here_not_fuel.
    destruct k2 as [k2|o|q|c|]; try apply err_here_not_fuel. destruct o; try apply err_here_not_fuel.
    unfold p_quantifier, p_peek, p_next. cbn [ps_toks].
    destruct r2 as [|[[k3 pos3]|] r3]; cbn [pbind]; try discriminate.
    destruct k3; cbn [pbind]; discriminate.
Qed.

Lemma regex_parse_fuel toks : p_parse (parse_fuel toks) toks <> PFuel.
Proof.
  unfold p_parse, p_peek. cbn [ps_toks]. destruct toks as [|[t|] r] eqn:E; try discriminate.
  rewrite <- E. apply (proj1 (parser_fuel _)). cbn [ps_toks]. unfold parse_fuel. lia.
Qed.

(** A panic of the parser is a panic of the tokenizer. *)
Lemma err_here_panic {A} k s : @p_err_here A k s = PPanic -> In TokPanic (ps_toks s).
Proof.
  unfold p_err_here, p_peek. destruct (ps_toks s) as [|[t|] r]; try discriminate. intros _. left; reflexivity.
Qed.

Lemma holds_in_panic a ks b : holds a ks b -> In TokPanic b -> In TokPanic a.
Proof. intros (ts & -> & _) H. apply in_or_app. right. assumption. Qed.

Lemma group_item_panic s : p_character_group_item s = PPanic -> In TokPanic (ps_toks s).
Proof.
  unfold p_character_group_item, p_next.
  destruct (ps_toks s) as [|[[k pos]|] r]; try (intros _; left; reflexivity).
  - intros H. apply err_here_panic in H. exact H.
  - cbn [tk_kind]. destruct k; try discriminate. unfold p_peek; cbn [ps_toks].
    destruct r as [|[[k2 pos2]|] r2]; try discriminate; [|intros _; right; left; reflexivity].
    destruct k2; try discriminate. destruct o; try discriminate.
    cbn [ps_toks]. destruct r2 as [|[[k3 pos3]|] r3]; try discriminate;
      try (intros _; right; right; left; reflexivity).
    destruct k3; try discriminate; intros H; apply err_here_panic in H; cbn [ps_toks] in H;
      right; right; right; exact H.
Qed.

Lemma group_items_panic : forall fuel acc s, p_group_items fuel acc s = PPanic -> In TokPanic (ps_toks s).
Proof.
  induction fuel as [|fuel IH]; intros acc s; cbn [p_group_items]; [discriminate|]. unfold p_peek.
  destruct (ps_toks s) as [|[[k pos]|] r] eqn:Es; try discriminate; [|intros _; left; reflexivity].
  assert (Hrec : pbind (p_character_group_item s) (fun g s' => p_group_items fuel (acc ++ [g]) s') = PPanic ->
                 In TokPanic (Tok {| tk_kind := k; tk_pos := pos |} :: r)).
  { rewrite <- Es. destruct (p_character_group_item s) as [g s1| | |] eqn:Eg; cbn [pbind]; try discriminate.
    - intros H. apply IH in H. apply group_item_ok in Eg. eapply holds_in_panic; eassumption.
    - intros _. apply group_item_panic. assumption. }
  destruct k as [k|o|q|c|]; try exact Hrec. destruct o; try exact Hrec. discriminate.
Qed.

Lemma quantifier_panic s : p_quantifier s = PPanic -> In TokPanic (ps_toks s).
Proof.
  unfold p_quantifier, p_peek, p_next.
  destruct (ps_toks s) as [|[[k pos]|] r]; try discriminate; [|intros _; left; reflexivity].
  destruct k; discriminate.
Qed.

Lemma match_panic fuel s : p_match fuel s = PPanic -> In TokPanic (ps_toks s).
Proof.
  unfold p_match.
  destruct (p_match_item fuel s) as [l s1| | |] eqn:E1; cbn [pbind]; try discriminate.
  - destruct (p_quantifier s1) eqn:E2; cbn [pbind]; try discriminate. intros _.
    apply match_item_ok in E1. apply quantifier_panic in E2. eapply holds_in_panic; eassumption.
  - intros _. revert E1. unfold p_match_item, p_peek, p_next.
    destruct (ps_toks s) as [|[[k pos]|] r] eqn:Es; try discriminate; [| |intros _; left; reflexivity].
    { intros H. apply err_here_panic in H. rewrite Es in H. exact H. }
    assert (Herr : p_err_here PMatchCharacterClassLeftBracket s = @PPanic lit ->
      In TokPanic (Tok {| tk_kind := k; tk_pos := pos |} :: r)).
    { intros H. apply err_here_panic in H. rewrite Es in H. exact H. }
    destruct k as [k|o|q|c|]; try exact Herr; try discriminate. destruct o; try exact Herr.
    unfold p_character_group, p_next. rewrite Es. unfold p_peek at 1. cbn [ps_toks].
    set (after := p_group_after fuel).
    assert (Ha : forall neg s2, after neg s2 = PPanic -> In TokPanic (ps_toks s2)).
    { intros neg s2. unfold after, p_group_after, p_peek.
      destruct (ps_toks s2) as [|[t2|] r2] eqn:E2; [| |intros _; left; reflexivity].
      { intros H. apply err_here_panic in H. rewrite E2 in H. exact H. }
      rewrite <- E2. destruct (p_group_items fuel [] s2) as [ls s3| | |] eqn:Ei; cbn [pbind]; try discriminate.
      2: { intros _. eapply group_items_panic. eassumption. }
      destruct (group_items_ok _ _ _ _ _ Ei) as (gs & _ & Hg). intros H.
      eapply holds_in_panic; [exact Hg|]. revert H.
      unfold p_next. destruct (ps_toks s3) as [|[[k3 pos3]|] r3]; [| |intros _; left; reflexivity].
      { intros H. apply err_here_panic in H. exact H. }
      intros H. right. revert H.
      destruct k3 as [k3|o|q|c|]; try (intros H; apply err_here_panic in H; exact H).
      destruct o; try (intros H; apply err_here_panic in H; exact H). discriminate. }
    assert (Hn : after false {| ps_toks := r; ps_cur := Some {| tk_kind := TOp OLBracket; tk_pos := pos |} |} = PPanic ->
                 In TokPanic (Tok {| tk_kind := TOp OLBracket; tk_pos := pos |} :: r)).
    { intros H. apply Ha in H. right. exact H. }
    destruct r as [|[[k1 pos1]|] r1]; [exact Hn| |intros _; right; left; reflexivity].
    destruct k1 as [k1|o|q|c|]; try exact Hn. destruct o; try exact Hn.
    intros H. apply Ha in H. right; right. exact H.
Qed.

Lemma parser_panic : forall fuel,
  (forall s, p_expression fuel s = PPanic -> In TokPanic (ps_toks s)) /\
  (forall s, p_sub_expression fuel s = PPanic -> In TokPanic (ps_toks s)) /\
  (forall acc s, p_sub_loop fuel acc s = PPanic -> In TokPanic (ps_toks s)) /\
  (forall s, p_sub_item fuel s = PPanic -> In TokPanic (ps_toks s)) /\
  (forall s, p_group fuel s = PPanic -> In TokPanic (ps_toks s)).
Proof.
  induction fuel as [|fuel (IHe & IHs & IHl & IHi & IHg)]; [repeat split; intros; discriminate|].
  pose proof (parser_ok fuel) as (Oe & Os & Ol & Oi & Og).
  split; [|split; [|split; [|split]]].
  - intros s. cbn [p_expression].
    destruct (p_sub_expression fuel s) as [lhs s1| | |] eqn:E1; cbn [pbind]; try discriminate; [|auto].
    destruct (Os _ _ _ E1) as (Hh & _). intros H. eapply holds_in_panic; [exact Hh|]. revert H.
    unfold p_peek, p_next. destruct (ps_toks s1) as [|[[k pos]|] r] eqn:Es1; try discriminate; [|intros _; left; reflexivity].
    destruct k as [k|o|q|c|]; try discriminate. destruct o; try discriminate.
    destruct (p_expression fuel _) eqn:E3; cbn [pbind]; try discriminate. intros _.
    apply IHe in E3. right. exact E3.
  - intros s. cbn [p_sub_expression]. unfold p_peek.
    destruct (ps_toks s) as [|[t|] r] eqn:Es; [| |intros _; left; reflexivity]; rewrite <- Es.
    + apply err_here_panic.
    + apply IHl.
  - intros acc s. cbn [p_sub_loop]. unfold p_peek.
    destruct (ps_toks s) as [|[[k pos]|] r] eqn:Es; try discriminate; [|intros _; left; reflexivity].
    assert (Hrec : pbind (p_sub_item fuel s) (fun e s' => p_sub_loop fuel (acc ++ [e]) s') = PPanic ->
      In TokPanic (Tok {| tk_kind := k; tk_pos := pos |} :: r)).
    { rewrite <- Es. destruct (p_sub_item fuel s) as [e s1| | |] eqn:E1; cbn [pbind]; try discriminate; [|auto].
      intros H. apply IHl in H. destruct (Oi _ _ _ E1) as [H1 _]. eapply holds_in_panic; eassumption. }
    destruct k as [k|o|q|c|]; try exact Hrec. destruct o; try exact Hrec; discriminate.
  - intros s. cbn [p_sub_item]. unfold p_peek.
    destruct (ps_toks s) as [|[[k pos]|] r] eqn:Es; [| |intros _; left; reflexivity]; rewrite <- Es.
    + apply err_here_panic.
    + pose proof (match_panic fuel s) as Hm.
      destruct k as [k|o|q|c|]; try exact Hm. destruct o; try exact Hm. apply IHg.
  - intros s. cbn [p_group]. unfold p_next.
    destruct (ps_toks s) as [|[[k pos]|] r] eqn:Es; [| |intros _; left; reflexivity].
    { intros H. apply err_here_panic in H. exact H. }
    intros H. right. revert H.
    destruct k as [k|o|q|c|]; try (intros H; apply err_here_panic in H; exact H).
    destruct o; try (intros H; apply err_here_panic in H; exact H).
    destruct (p_expression fuel _) as [e1 s2| | |] eqn:E1; cbn [pbind]; try discriminate.
    2: { intros _. apply IHe in E1. exact E1. }
    destruct (Oe _ _ _ E1) as (He1 & _). cbn [ps_toks] in He1. intros H.
    eapply holds_in_panic; [exact He1|]. revert H.
    destruct (ps_toks s2) as [|[[k2 pos2]|] r2]; [| |intros _; left; reflexivity].
    { intros H. apply err_here_panic in H. exact H. }
    intros H. right. revert H.
    destruct k2 as [k2|o|q|c|]; try (intros H; apply err_here_panic in H; exact H).
    destruct o; try (intros H; apply err_here_panic in H; exact H).
    destruct (p_quantifier _) eqn:Eq; cbn [pbind]; try discriminate. intros _.
    apply quantifier_panic in Eq. exact Eq.
Qed.

Lemma parse_panic fuel toks : p_parse fuel toks = PPanic -> In TokPanic toks.
Proof.
  unfold p_parse, p_peek. cbn [ps_toks]. destruct toks as [|[t|] r] eqn:E; try discriminate.
  - intros H. apply (proj1 (parser_panic _)) in H. exact H.
  - intros _. left; reflexivity.
Qed.

(** ** Completeness: written regexes are read back *)

Definition gives {A} (x : pres A) (a : A) (b : list titem) : Prop :=
  exists cur, x = POk a {| ps_toks := b; ps_cur := cur |}.

Definition not_minus (b : list titem) : Prop := head_kind b <> Some (TOp OMinus) /\ head_kind b <> None \/ b = [].
Definition not_quant (b : list titem) : Prop :=
  b = [] \/ exists k, head_kind b = Some k /\ forall q, k <> TQuant q.

Ltac tok H t a' := apply holds_cons in H; destruct H as (t & a' & -> & ?Hk & H); destruct t as [?k ?pos];
  cbn [tk_kind] in *; subst.

Lemma group_item_complete g a b cur :
  holds a (glit_tokens g) b -> not_minus b ->
  gives (p_character_group_item {| ps_toks := a; ps_cur := cur |}) g b.
Proof.
  intros H Hm. unfold gives, p_character_group_item, p_next. destruct g; cbn [glit_tokens] in H.
  - tok H t a'. apply holds_nil_inv in H. subst. cbn [ps_toks tk_kind]. unfold p_peek. cbn [ps_toks].
    destruct b as [|[[k pos']|] r].
    + eexists; reflexivity.
    + destruct Hm as [[Hm _]|Hm]; [|discriminate]. cbn in Hm.
      destruct k as [k|o|q|c'|]; try (eexists; reflexivity). destruct o; try (eexists; reflexivity). congruence.
    + destruct Hm as [[_ Hm]|Hm]; [cbn in Hm; congruence|discriminate].
  - tok H t a'. apply holds_nil_inv in H. subst. cbn. eexists; reflexivity.
  - tok H t a'. tok H t a2. tok H t a3. apply holds_nil_inv in H. subst. cbn. eexists; reflexivity.
Qed.

Lemma glit_head g a b : holds a (glit_tokens g) b ->
  exists k, head_kind a = Some k /\ k <> TOp OMinus /\ k <> TOp ORBracket /\ k <> TOp OCarret.
Proof.
  intros H. destruct g; cbn [glit_tokens] in H; tok H t a'; cbn; eexists; repeat split; discriminate.
Qed.

Lemma glits_head gs a b : holds a (flat_map glit_tokens gs) b -> not_minus b -> not_minus a.
Proof.
  destruct gs as [|g gs]; cbn [flat_map]; intros H Hm.
  - apply holds_nil_inv in H. subst. assumption.
  - apply holds_split in H. destruct H as (c & H1 & _). destruct (glit_head _ _ _ H1) as (k & Hk & Hn & _).
    left. rewrite Hk. split; congruence.
Qed.

Lemma group_items_complete : forall gs fuel acc a b pos cur,
  holds a (flat_map glit_tokens gs) (Tok {| tk_kind := TOp ORBracket; tk_pos := pos |} :: b) ->
  length gs < fuel ->
  gives (p_group_items fuel acc {| ps_toks := a; ps_cur := cur |}) (acc ++ gs)
        (Tok {| tk_kind := TOp ORBracket; tk_pos := pos |} :: b).
Proof.
  induction gs as [|g gs IH]; intros fuel acc a b pos cur H Hf; (destruct fuel as [|fuel]; [cbn in Hf; lia|]).
  - cbn [flat_map] in H. apply holds_nil_inv in H. subst. cbn. rewrite app_nil_r. eexists; reflexivity.
  - cbn [flat_map] in H. apply holds_split in H. destruct H as (c & H1 & H2).
    assert (Hm : not_minus c).
    { eapply glits_head; [exact H2|]. left. cbn. split; congruence. }
    destruct (group_item_complete g a c cur H1 Hm) as (cur2 & E).
    destruct (glit_head _ _ _ H1) as (k & Hk & _ & Hb & _).
    cbn [p_group_items]. unfold p_peek. cbn [ps_toks].
    destruct a as [|[[k' pos']|] r]; try discriminate. cbn in Hk. injection Hk as ->.
    assert (Hrec : gives (pbind (p_character_group_item
        {| ps_toks := Tok {| tk_kind := k; tk_pos := pos' |} :: r; ps_cur := cur |})
        (fun g0 s' => p_group_items fuel (acc ++ [g0]) s')) (acc ++ g :: gs)
        (Tok {| tk_kind := TOp ORBracket; tk_pos := pos |} :: b)).
    { rewrite E. cbn [pbind].
      replace (acc ++ g :: gs) with ((acc ++ [g]) ++ gs) by (rewrite <- app_assoc; reflexivity).
      apply IH; [exact H2|cbn in Hf; lia]. }
    destruct k as [k|o|q|c'|]; try exact Hrec. destruct o; try exact Hrec. congruence.
Qed.

Lemma flat_glit_length gs : length gs <= length (flat_map glit_tokens gs).
Proof.
  induction gs as [|g gs IH]; cbn [flat_map length]; [lia|]. rewrite app_length.
  destruct g; cbn [glit_tokens length]; lia.
Qed.

Lemma match_item_complete l fuel a b cur :
  holds a (lit_tokens l) b -> length a < fuel ->
  gives (p_match_item fuel {| ps_toks := a; ps_cur := cur |}) l b.
Proof.
  intros H Hf. unfold p_match_item. destruct l as [c|k|neg gs]; cbn [lit_tokens] in H.
  - tok H t a'. apply holds_nil_inv in H. subst. cbn. eexists; reflexivity.
  - tok H t a'. apply holds_nil_inv in H. subst. cbn. eexists; reflexivity.
  - cbn [app] in H. tok H t a'. unfold p_peek at 1. cbn [ps_toks].
    unfold p_character_group, p_next. cbn [ps_toks]. unfold p_peek at 1. cbn [ps_toks].
    set (after := p_group_after fuel).
    assert (Ha : forall neg a2 cur2, holds a2 (flat_map glit_tokens gs ++ [TOp ORBracket]) b -> length a2 < fuel ->
              gives (after neg {| ps_toks := a2; ps_cur := cur2 |}) (LGroup neg gs) b).
    { intros neg2 a2 cur2 H2 Hf2. apply holds_split in H2. destruct H2 as (a3 & H2 & H3).
      tok H3 t a4. apply holds_nil_inv in H3. subst a4.
      unfold after, p_group_after, p_peek. cbn [ps_toks].
      assert (Hl : length gs < fuel).
      { apply holds_length in H2. pose proof (flat_glit_length gs). lia. }
      destruct (group_items_complete gs fuel [] a2 b _ cur2 H2 Hl) as (cur3 & E). cbn [app] in E.
      assert (Hhd : exists t r, a2 = Tok t :: r).
      { destruct H2 as (ts & -> & _). destruct ts; cbn; eauto. }
      destruct Hhd as (t & r & ->). rewrite E. cbn. eexists; reflexivity. }
    destruct neg; cbn [app] in H.
    + tok H t a2. apply Ha; [exact H|cbn in *; lia].
    + assert (Hn : gives (after false {| ps_toks := a'; ps_cur := Some {| tk_kind := TOp OLBracket; tk_pos := pos |} |})
                (LGroup false gs) b) by (apply Ha; [exact H|cbn in *; lia]).
      assert (Hc : exists k, head_kind a' = Some k /\ k <> TOp OCarret).
      { destruct gs as [|g gs].
        - cbn in H. tok H t a2. cbn. eexists. split; [reflexivity|discriminate].
        - cbn [flat_map] in H. rewrite <- app_assoc in H. apply holds_split in H. destruct H as (a3 & H & _).
          destruct (glit_head _ _ _ H) as (k & Hk & _ & _ & Hk2). eauto. }
      destruct Hc as (k & Hk & Hk2).
      destruct a' as [|[[k1 pos1]|] r1]; try discriminate. cbn in Hk. injection Hk as ->.
      destruct k as [k|o|q|c|]; try exact Hn. destruct o; try exact Hn. congruence.
Qed.

Lemma quantifier_complete q a b cur :
  holds a (oquant_tokens q) b -> (q = None -> not_quant b) ->
  gives (p_quantifier {| ps_toks := a; ps_cur := cur |}) q b.
Proof.
  intros H Hn. unfold p_quantifier, p_peek, p_next. destruct q as [q|]; cbn [oquant_tokens] in H.
  - tok H t a'. apply holds_nil_inv in H. subst. cbn. eexists; reflexivity.
  - apply holds_nil_inv in H. subst. cbn [ps_toks]. destruct (Hn eq_refl) as [->|(k & Hk & Hq)].
    + eexists; reflexivity.
    + destruct b as [|[[k' pos]|] r]; try discriminate. cbn in Hk. injection Hk as ->.
      destruct k; try (eexists; reflexivity). exfalso. eapply Hq. reflexivity.
Qed.

Definition item_start (k : token_kind) : Prop :=
  (exists c, k = TMatch c) \/ (exists c, k = TClass c) \/ k = TOp OLBracket \/ k = TOp OLParen.

Lemma item_head e a b : is_item e -> holds a (expr_tokens e) b ->
  exists k, head_kind a = Some k /\ item_start k.
Proof.
  intros Hi H. destruct Hi as [l q Hq|e q He Hq]; cbn [expr_tokens] in H.
  - destruct l as [c|k|neg gs]; cbn [lit_tokens app] in H; tok H t a'; cbn; unfold item_start; eauto 8.
  - cbn [app] in H. tok H t a'; cbn; unfold item_start; eauto 8.
Qed.

Lemma item_start_not_quant k q : item_start k -> k <> TQuant q.
Proof. intros [[c ->]|[[c ->]|[-> | ->]]]; discriminate. Qed.

Lemma stop_not_quant b : at_stop b -> not_quant b.
Proof.
  intros [->|[H|H]]; [left; reflexivity|right|right]; eexists; (split; [exact H|]); discriminate.
Qed.

Lemma items_not_quant es a b : is_items es -> holds a (flat_map expr_tokens es) b -> at_stop b -> not_quant a.
Proof.
  intros [|e es' He Hes] H Hb; cbn [flat_map] in H.
  - apply holds_nil_inv in H. subst. apply stop_not_quant; assumption.
  - apply holds_split in H. destruct H as (c & H & _). destruct (item_head _ _ _ He H) as (k & Hk & Hs).
    right. exists k. split; [assumption|]. intros q. apply item_start_not_quant; assumption.
Qed.

Lemma item_tokens_pos e : is_item e -> 1 <= length (expr_tokens e).
Proof.
  intros [l q _|e' q _ _]; cbn [expr_tokens]; rewrite app_length; [pose proof (lit_tokens_pos l)|cbn [length]]; lia.
Qed.

Lemma parser_complete : forall fuel,
  (forall e a b cur, is_expr e -> holds a (expr_tokens e) b -> at_end b -> 5 * length a + 5 <= fuel ->
     gives (p_expression fuel {| ps_toks := a; ps_cur := cur |}) e b) /\
  (forall e es a b cur, is_items (e :: es) -> holds a (flat_map expr_tokens (e :: es)) b -> at_stop b ->
     5 * length a + 4 <= fuel ->
     gives (p_sub_expression fuel {| ps_toks := a; ps_cur := cur |}) (e :: es) b) /\
  (forall es acc a b cur, is_items es -> holds a (flat_map expr_tokens es) b -> at_stop b ->
     5 * length a + 3 <= fuel ->
     gives (p_sub_loop fuel acc {| ps_toks := a; ps_cur := cur |}) (acc ++ es) b) /\
  (forall e a b cur, is_item e -> holds a (expr_tokens e) b -> not_quant b -> 5 * length a + 2 <= fuel ->
     gives (p_sub_item fuel {| ps_toks := a; ps_cur := cur |}) e b) /\
  (forall e q a b cur, is_expr e -> holds a (expr_tokens (EGroup e q)) b -> (q = None -> not_quant b) ->
     5 * length a + 1 <= fuel ->
     gives (p_group fuel {| ps_toks := a; ps_cur := cur |}) (EGroup e q) b).
Proof.
  induction fuel as [|fuel (IHe & IHs & IHl & IHi & IHg)]; [repeat split; intros; lia|].
  split; [|split; [|split; [|split]]].
  - intros e a b cur He H Hb Hf. cbn [p_expression].
    assert (Hsub : forall e0, is_sub e0 -> exists e1 es, is_items (e1 :: es) /\ concat_of (e1 :: es) = e0).
    { intros e0 [e0' Hi|e1 e2 es H1 H2 H3].
      - exists e0', []. split; [repeat constructor; assumption|reflexivity].
      - exists e1, (e2 :: es). split; [repeat constructor; assumption|reflexivity]. }
    destruct He as [e He|l r Hl Hr].
    + destruct (Hsub e He) as (e1 & es & Hi & <-). rewrite concat_of_tokens in H.
      assert (Hst : at_stop b) by (destruct Hb as [Hb|Hb]; [left|right; left]; assumption).
      destruct (IHs e1 es a b cur Hi H Hst ltac:(lia)) as (cur2 & E). rewrite E. cbn [pbind].
      unfold p_peek. cbn [ps_toks]. destruct Hb as [->|Hb]; [eexists; reflexivity|].
      destruct b as [|[[k pos]|] r]; try discriminate. cbn in Hb. injection Hb as ->. eexists; reflexivity.
    + destruct (Hsub l Hl) as (e1 & es & Hi & El). cbn [expr_tokens] in H.
      apply holds_split in H. destruct H as (c & H1 & H2). cbn [app] in H2.
      pose proof (holds_length _ _ _ H1) as Hlen1.
      tok H2 t c'.
      rewrite concat_of_tokens in H1.
      destruct (IHs e1 es a _ cur Hi H1) as (cur2 & E).
      { right. right. reflexivity. }
      { lia. }
      rewrite E. cbn [pbind]. unfold p_peek, p_next. cbn [ps_toks].
      cbn [length] in Hlen1.
      destruct (IHe r c' b (Some {| tk_kind := TOp OVertical; tk_pos := pos |}) Hr H2 Hb ltac:(lia)) as (cur3 & E3).
      rewrite E3. cbn [pbind]. eexists; reflexivity.
  - intros e es a b cur Hi H Hb Hf. cbn [p_sub_expression]. unfold p_peek. cbn [ps_toks].
    assert (Hhd : exists t r, a = Tok t :: r).
    { inv Hi. cbn [flat_map] in H. apply holds_split in H. destruct H as (c & H & _).
      destruct (item_head _ _ _ H2 H) as (k & Hk & _). destruct a as [|[t|] r]; try discriminate. eauto. }
    destruct Hhd as (t & r & ->).
    apply (IHl (e :: es) [] _ b cur Hi H Hb). lia.
  - intros es acc a b cur Hi H Hb Hf. cbn [p_sub_loop]. unfold p_peek. cbn [ps_toks].
    destruct Hi as [|e es He Hes].
    + cbn [flat_map] in H. apply holds_nil_inv in H. subst. rewrite app_nil_r.
      destruct Hb as [->|Hb]; [eexists; reflexivity|].
      destruct b as [|[[k pos]|] r]; try (destruct Hb; discriminate). cbn in Hb.
      destruct Hb as [Hb|Hb]; injection Hb as ->; eexists; reflexivity.
    + cbn [flat_map] in H. apply holds_split in H. destruct H as (c & H1 & H2).
      pose proof (holds_length _ _ _ H1) as Hlen. pose proof (item_tokens_pos e He).
      destruct (IHi e a c cur He H1) as (cur2 & E).
      { eapply items_not_quant; eassumption. }
      { lia. }
      destruct (item_head _ _ _ He H1) as (k & Hk & Hs).
      destruct a as [|[[k' pos]|] r]; try discriminate. cbn in Hk. injection Hk as ->.
      assert (Hrec : gives (pbind (p_sub_item fuel {| ps_toks := Tok {| tk_kind := k; tk_pos := pos |} :: r; ps_cur := cur |})
         (fun e s' => p_sub_loop fuel (acc ++ [e]) s')) (acc ++ e :: es) b).
      { rewrite E. cbn [pbind]. replace (acc ++ e :: es) with ((acc ++ [e]) ++ es) by (rewrite <- app_assoc; reflexivity).
        apply IHl; auto. cbn [length] in *. lia. }
      destruct k as [k|o|q|c'|]; try exact Hrec. destruct o; try exact Hrec;
        destruct Hs as [[? ?]|[[? ?]|[?|?]]]; discriminate.
  - intros e a b cur Hi H Hb Hf. cbn [p_sub_item]. unfold p_peek. cbn [ps_toks].
    destruct Hi as [l q Hq|e q He Hq].
    + assert (Hm : gives (p_match fuel {| ps_toks := a; ps_cur := cur |}) (ELit l q) b).
      { unfold p_match. cbn [expr_tokens] in H. apply holds_split in H. destruct H as (c & H1 & H2).
        destruct (match_item_complete l fuel a c cur H1 ltac:(lia)) as (cur2 & ->). cbn [pbind].
        destruct (quantifier_complete q c b cur2 H2 (fun _ => Hb)) as (cur3 & ->). cbn [pbind]. eexists; reflexivity. }
      cbn [expr_tokens] in H. apply holds_split in H. destruct H as (c & H & _).
      assert (exists k pos r, a = Tok {| tk_kind := k; tk_pos := pos |} :: r /\ k <> TOp OLParen) as (k & pos & r & -> & Hk).
      { destruct l; cbn [lit_tokens app] in H; tok H t a'; do 3 eexists; (split; [reflexivity|discriminate]). }
      destruct k as [k|o|q'|c'|]; try exact Hm. destruct o; try exact Hm. congruence.
    + assert (exists pos r, a = Tok {| tk_kind := TOp OLParen; tk_pos := pos |} :: r) as (pos & r & Ea).
      { pose proof H as H0. cbn [expr_tokens app] in H0. apply holds_cons in H0.
        destruct H0 as ([k pos] & a' & -> & Hk & _). cbn in Hk. subst. eauto. }
      subst a. apply IHg; auto. lia.
  - intros e q a b cur He H Hb Hf. cbn [p_group]. unfold p_next. cbn [ps_toks].
    cbn [expr_tokens app] in H. tok H t a'. apply holds_split in H. destruct H as (c & H1 & H2).
    cbn [app] in H2. tok H2 t c'.
    pose proof (holds_length _ _ _ H1) as Hlen1. cbn [length] in *.
    destruct (IHe e a' (Tok {| tk_kind := TOp ORParen; tk_pos := pos0 |} :: c')
                  (Some {| tk_kind := TOp OLParen; tk_pos := pos |}) He H1) as (cur2 & E).
    { right. reflexivity. }
    { lia. }
    rewrite E. cbn [pbind ps_toks].
    destruct (quantifier_complete q c' b (Some {| tk_kind := TOp ORParen; tk_pos := pos0 |}) H2 Hb) as (cur3 & ->).
    cbn [pbind]. eexists; reflexivity.
Qed.

Lemma parse_complete e toks : is_pattern e -> holds toks (expr_tokens e) [] ->
  gives (p_parse (parse_fuel toks) toks) e [].
Proof.
  intros Hp H. unfold p_parse, p_peek. cbn [ps_toks]. destruct Hp as [->|He].
  - apply holds_nil_inv in H. subst. cbn. eexists; reflexivity.
  - pose proof (proj1 (parser_complete (parse_fuel toks)) e toks [] None He H) as G.
    destruct toks as [|[t|] r].
    + (* a regex has at least one token *)
      destruct G as (cur & E); [left; reflexivity|unfold parse_fuel; lia|].
      unfold parse_fuel in E. cbn in E. discriminate.
    + apply G; [left; reflexivity|unfold parse_fuel; lia].
    + destruct H as (ts & H & _). destruct ts; discriminate.
Qed.

Lemma stream_kinds_holds toks ks : stream_kinds toks = Some ks <-> holds toks ks [].
Proof.
  split.
  - revert ks. induction toks as [|[t|] r IH]; intros ks; cbn; try discriminate.
    + intros [= <-]. apply holds_nil.
    + destruct (stream_kinds r) as [l|]; [|discriminate]. intros [= <-].
      apply (holds_app _ [tk_kind t] r); [apply holds_one|]. apply IH. reflexivity.
  - intros (ts & -> & <-). rewrite app_nil_r. induction ts as [|t ts IH]; cbn; [reflexivity|].
    rewrite IH. reflexivity.
Qed.
