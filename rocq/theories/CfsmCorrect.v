(** The automaton and the closure in the words of the specification; the
    textual form of items. *)
From Verif Require Import Base GrammarModel CfsmModel SlrModel SpecCfg GrammarProofs FirstProofs FollowProofs GrammarTotal
  ItemProofs CfsmProofs.

Section Correct.
  Context {V T : Type} {dv : DecEq V} {dt : DecEq T}.
  Notation sym := (symbol V T).
  Notation itm := (item V T).
  Variable g : grammar V T.
  Hypothesis Hgood : good g.

  Lemma valid_ok it : valid_item g it <-> item_ok g it.
  Proof. destruct it as [h ib]. reflexivity. Qed.

  (** ** LR(0) items as model items *)
  Inductive li : list sym -> itm -> Prop :=
  | li_start : forall bd, rule g (g_start g) bd -> li [] (g_start g, item_from bd)
  | li_close : forall w h ib v bd, li w (h, ib) -> cursor_symbol ib = Some (Var v) -> rule g v bd -> li w (v, item_from bd)
  | li_goto : forall w h ib s, li w (h, ib) -> cursor_symbol ib = Some s -> li (w ++ [s]) (h, advance ib).

  Lemma li_ok w it : li w it -> item_ok g it.
  Proof.
    induction 1 as [bd H|w h ib v bd H IH Hc Hr|w h ib s H IH Hc].
    - destruct (item_from_ok bd). split; auto.
    - destruct (item_from_ok bd). split; auto.
    - destruct (advance_ok _ _ Hc). destruct IH as [IH _]. split; auto.
  Qed.

  Lemma dotted_head (h : V) (ib : item_body V T) : exists a b, dotted_of (h, ib) = (h, a, b).
  Proof. cbn. eauto. Qed.

  Lemma li_lr0 w it : li w it -> lr0 g w (dotted_of it).
  Proof.
    induction 1 as [bd H|w h ib v bd H IH Hc Hr|w h ib s H IH Hc].
    - destruct (dotted_head (g_start g) (item_from bd)) as (a & b & E). rewrite E.
      eapply lr0_start; eauto. apply item_from_dotted in E. auto.
    - destruct (dotted_head v (item_from bd)) as (a & b & E). rewrite E.
      apply (cursor_dotted h) in Hc. destruct Hc as (a' & r & Hc). rewrite Hc in IH.
      eapply lr0_close; eauto. apply item_from_dotted in E. auto.
    - destruct (dotted_head h (advance ib)) as (a & b & E). rewrite E.
      apply (cursor_dotted h) in Hc. destruct Hc as (a' & r & Hc). rewrite Hc in IH.
      eapply lr0_goto; eauto. eapply advance_dotted; eauto.
  Qed.

  Lemma lr0_li w d : lr0 g w d -> exists it, li w it /\ dotted_of it = d.
  Proof.
    induction 1 as [bd a b H1 H2|w h a v r bd a' b' H IH H1 H2|w h a s r a' b' H IH H2].
    - exists (g_start g, item_from bd). split; [constructor; auto|]. apply item_from_dotted. auto.
    - destruct IH as ([h' ib] & H3 & H4). pose proof H4 as H5. cbn in H5. injection H5 as -> _ _.
      exists (v, item_from bd). split; [|apply item_from_dotted; auto].
      eapply li_close; eauto. apply (cursor_dotted h). eauto.
    - destruct IH as ([h' ib] & H3 & H4). pose proof H4 as H5. cbn in H5. injection H5 as -> _ _.
      exists (h, advance ib). split.
      + eapply li_goto; eauto. apply (cursor_dotted h). eauto.
      + eapply advance_dotted; eauto.
  Qed.

  Lemma li_empty it : li [] it <-> start_of g it.
  Proof.
    split.
    - intros H. remember [] as w eqn:E. induction H as [bd H|w h ib v bd H IH Hc Hr|w h ib s H IH Hc].
      + apply clos_in. eauto.
      + eapply clos_step; eauto. apply IH; auto.
      + destruct w; discriminate.
    - induction 1 as [it (bd & H & ->)|h ib v bd H IH Hc Hr]; [constructor; auto|eapply li_close; eauto].
  Qed.

  Lemma li_snoc w s it (l : item_set V T) : (forall it, In it l <-> li w it) -> li (w ++ [s]) it <-> goto_of g l s it.
  Proof.
    intros Hl. split.
    - intros H. remember (w ++ [s]) as z eqn:E. induction H as [bd H|z h ib v bd H IH Hc Hr|z h ib s' H IH Hc].
      + destruct w; discriminate.
      + eapply clos_step; eauto. apply IH; auto.
      + apply app_inj_tail in E. destruct E as [-> ->]. apply clos_in. exists h, ib. split; [apply Hl; auto|auto].
    - induction 1 as [it (h & ib & H & Hc & ->)|h ib v bd H IH Hc Hr].
      + eapply li_goto; eauto. apply Hl; auto.
      + eapply li_close; eauto.
  Qed.

  (** ** Paths *)
  Variable c : cfsm V T.
  Hypothesis Hc : cfsm_ok g c.

  Lemma ids_nodup : NoDup (map cs_id (cf_states c)).
  Proof. rewrite (ok_ids _ _ Hc). apply seq_NoDup. Qed.

  Lemma state_unique st st' : In st (cf_states c) -> In st' (cf_states c) -> cs_id st = cs_id st' -> st = st'.
  Proof.
    intros H1 H2 E. pose proof ids_nodup as Hn. revert H1 H2 Hn. generalize (cf_states c) as l.
    induction l as [|x l IH]; intros H1 H2 Hn; [destruct H1|].
    cbn in Hn. inversion Hn as [|? ? Hx Hr]; subst. destruct H1 as [->|H1], H2 as [->|H2]; auto.
    - destruct Hx. rewrite E. apply in_map; auto.
    - destruct Hx. rewrite <- E. apply in_map; auto.
  Qed.

  Lemma known_state k (its : item_set V T) : In (k, its) (map proj (cf_states c)) ->
    exists st, In st (cf_states c) /\ cs_id st = k /\ cs_items st = its.
  Proof. intros H. apply in_map_iff in H. destruct H as (st & E & H). injection E as <- <-. eauto. Qed.

  Lemma path_items w k : path c 0 w k ->
    exists st, In st (cf_states c) /\ cs_id st = k /\ forall it, In it (cs_items st) <-> li w it.
  Proof.
    intros H. remember 0 as i eqn:Ei. induction H as [i|i w j s k st H IH H1 H2 H3].
    - subst i. destruct (ok_first _ _ Hc) as (its & H & Hits). apply known_state in H.
      destruct H as (st & Ha & Hb & <-). exists st. split; [auto|]. split; [auto|].
      intros it. rewrite Hits. symmetry. apply li_empty.
    - destruct (IH Ei) as (st' & Ha & Hb & Hd). assert (st' = st) as -> by (apply state_unique; congruence).
      destruct (ok_trans _ _ Hc st H1) as (_ & _ & Ht). destruct (Ht _ _ H3) as (its & Hk & Hits).
      apply known_state in Hk. destruct Hk as (st2 & He & Hf & <-). exists st2. split; [auto|]. split; [auto|].
      intros it. rewrite Hits. symmetry. apply li_snoc. auto.
  Qed.

  Lemma path_fun i w k k' : path c i w k -> path c i w k' -> k = k'.
  Proof.
    intros H. revert k'. induction H as [i|i w j s k st H IH H1 H2 H3]; intros k' H'.
    - remember [] as w eqn:E. destruct H' as [|i w' j' s' k' st' Hp' H1' H2' H3']; auto. destruct w'; discriminate.
    - remember (w ++ [s]) as z eqn:E. destruct H' as [i|i w' j' s' k' st' Hp' H1' H2' H3'].
      + destruct w; discriminate.
      + apply app_inj_tail in E. destruct E as [-> ->]. apply IH in Hp'.
        assert (st' = st) as -> by (apply state_unique; congruence).
        destruct (ok_trans _ _ Hc st H1) as (Hn & _ & _).
        apply (in_mget _ _ _ Hn) in H3. apply (in_mget _ _ _ Hn) in H3'. congruence.
  Qed.

  (** Every sequence with a valid item has a path. *)
  Lemma li_path w it : li w it -> exists k, path c 0 w k.
  Proof.
    induction 1 as [bd H|w h ib v bd H IH Hcu Hr|w h ib s H IH Hcu]; auto.
    - exists 0. constructor.
    - destruct IH as (k & Hk). destruct (path_items _ _ Hk) as (st & Ha & Hb & Hd).
      destruct (ok_trans _ _ Hc st Ha) as (_ & Hs & _).
      assert (Hin : In s (map fst (cs_trans st))) by (apply Hs; exists h, ib; split; [apply Hd; auto|auto]).
      apply in_map_iff in Hin. destruct Hin as ([s' k'] & E & Hin). cbn in E. subst s'.
      exists k'. eapply path_step; eauto.
  Qed.

  (** The items of a reached state are never empty. *)
  Lemma path_nonempty w k : path c 0 w k -> exists it, li w it.
  Proof.
    intros H. inversion H as [|? w' j s ? st Hp H1 H2 H3]; subst.
    - destruct (good_start g Hgood) as (bd & Hb). eexists. apply li_start; eauto.
    - destruct (ok_trans _ _ Hc st H1) as (_ & Hs & _).
      assert (Hin : In s (map fst (cs_trans st))) by (change s with (fst (s, k)); apply in_map; auto).
      apply Hs in Hin. destruct Hin as (h & ib & Hi & Hcu).
      destruct (path_items _ _ Hp) as (st' & Ha & Hb & Hd). assert (st' = st) as -> by (apply state_unique; auto).
      exists (h, advance ib). eapply li_goto; eauto. apply Hd; auto.
  Qed.
End Correct.

(** ** More fuel *)
Section More.
  Context {V T : Type} {dv : DecEq V} {dt : DecEq T} {ho : HashOrder}.
  Variable g : grammar V T.

  Lemma from_incomplete_map_more p items n j r :
    from_incomplete_map n p items g = Val r -> from_incomplete_map (n + j) p items g = Val r.
  Proof. apply items_loop_more. Qed.

  Lemma cfsm_groups_more p added n j gs : forall trans next pending r,
    cfsm_groups n p g added gs trans next pending = Val r -> cfsm_groups (n + j) p g added gs trans next pending = Val r.
  Proof.
    induction gs as [|(i & s & grp) gs IH]; intros trans next pending r H; cbn [cfsm_groups] in *; auto.
    apply bind_val in H. destruct H as (items & H1 & H2). rewrite (from_incomplete_map_more _ _ _ j _ H1). cbn [bind].
    destruct (find _ added); auto.
  Qed.

  Lemma cfsm_loop_more p n : forall j k added next pending r,
    cfsm_loop n k p g added next pending = Val r -> cfsm_loop (n + j) k p g added next pending = Val r.
  Proof.
    induction n as [|n IH]; intros j k added next pending r H; cbn [cfsm_loop] in H.
    - destruct pending; [|discriminate]. destruct j; exact H.
    - cbn [Nat.add cfsm_loop]. destruct pending as [|st rest]; auto.
      apply bind_val in H. destruct H as ([[trans next'] pending'] & H1 & H2).
      rewrite (cfsm_groups_more _ _ _ j _ _ _ _ _ H1). cbn [bind]. auto.
  Qed.

  Lemma from_grammar_more p n j c : from_grammar n p g = Val c -> from_grammar (n + j) p g = Val c.
  Proof.
    unfold from_grammar, item_set_from_rules. intros H. apply bind_val in H. destruct H as (bds & H1 & H2). rewrite H1. cbn [bind].
    apply bind_val in H2. destruct H2 as (items & H2 & H3). rewrite (from_incomplete_map_more _ _ _ j _ H2). cbn [bind].
    apply bind_val in H3. destruct H3 as (sts & H3 & H4). rewrite (cfsm_loop_more _ _ j _ _ _ _ _ H3). exact H4.
  Qed.

  Hypothesis Hb : built g.
  Let Hgood : good g := built_good g Hb.

  Lemma from_grammar_answer fuel p c : from_grammar fuel p g = Val c -> cfsm_ok g c.
  Proof.
    intros H. destruct (from_grammar_ok g Hgood p) as (n & c' & E & Hx).
    rewrite (stable_answer (fun f => from_grammar f p g) n c' (fun a k x => from_grammar_more p a k x) E fuel c H). auto.
  Qed.

  Lemma from_grammar_total p :
    exists n c, (forall fuel, n <= fuel -> from_grammar fuel p g = Val c) /\
      (exists st, In st (cf_states c) /\ cs_id st = cf_start c) /\
      (forall st s k, In st (cf_states c) -> In (s, k) (cs_trans st) -> exists st', In st' (cf_states c) /\ cs_id st' = k).
  Proof.
    destruct (from_grammar_ok g Hgood p) as (n & c & E & Hx). exists n, c. split; [auto|]. split.
    - destruct (ok_first _ _ Hx) as (its & H & _). apply known_state in H. destruct H as (st & H1 & H2 & _).
      exists st. rewrite (ok_start _ _ Hx). auto.
    - intros st s k H1 H2. destruct (ok_trans _ _ Hx st H1) as (_ & _ & Ht). destruct (Ht _ _ H2) as (its & Hk & _).
      apply known_state in Hk. destruct Hk as (st' & H3 & H4 & _). eauto.
  Qed.

  Lemma cursors_ok fuel p c st h ib : from_grammar fuel p g = Val c -> In st (cf_states c) -> In (h, ib) (cs_items st) ->
    valid_item g (h, ib) /\ cursor_variable ib <> Panic /\ cursor_terminal ib <> Panic.
  Proof.
    intros H H1 H2. apply from_grammar_answer in H. destruct (ok_items _ _ H st H1) as [_ Hi].
    specialize (Hi _ H2). split; [apply valid_ok; auto|]. destruct Hi as (_ & _ & Hi). cbn in Hi.
    unfold cursor_variable, cursor_terminal. destruct (cursor_symbol ib) as [[t|v|]|]; split; congruence.
  Qed.

  Lemma closure_total p items : NoDup items -> (forall it, In it items -> valid_item g it) ->
    exists n res, forall fuel, n <= fuel -> from_incomplete_map fuel p items g = Val res.
  Proof.
    intros Hn Hv. destruct (from_incomplete_map_spec g Hgood p items) as (n & res & E & _); auto.
    - intros it H. apply valid_ok; auto.
    - eauto.
  Qed.

  Lemma closure_least fuel p items res : NoDup items -> (forall it, In it items -> valid_item g it) ->
    from_incomplete_map fuel p items g = Val res ->
    NoDup res /\
    forall d, (exists it, In it res /\ dotted_of it = d) <->
      forall P : dotted V T -> Prop, (forall it, In it items -> P (dotted_of it)) -> closed_items g P -> P d.
  Proof.
    intros Hn Hv H. assert (Hok : forall it, In it items -> item_ok g it) by (intros; apply valid_ok; auto).
    destruct (from_incomplete_map_spec g Hgood p items Hok Hn) as (n & res' & E & Hnd & Hres).
    rewrite (stable_answer (fun f => from_incomplete_map f p items g) n res' (fun a k x => from_incomplete_map_more p items a k x) E fuel res H).
    split; auto. intros d. split.
    - intros (it & Hi & <-) P HP Hcl. apply Hres in Hi. induction Hi as [it Hi|h ib v bd Hi IH Hc Hr]; auto.
      apply (cursor_dotted h) in Hc. destruct Hc as (a & r & Hc). rewrite Hc in IH.
      destruct (dotted_head v (item_from bd)) as (a' & b' & E'). rewrite E'.
      eapply Hcl; eauto. apply item_from_dotted in E'. auto.
    - intros HP. apply (HP (fun d => exists it, In it res' /\ dotted_of it = d)).
      + intros it Hi. exists it. split; auto. apply Hres. apply clos_in. auto.
      + intros h a v r bd a' b' ([h' ib] & Hi & Ed) Hr Hs. pose proof Ed as Ed'. cbn in Ed'. injection Ed' as -> _ _.
        exists (v, item_from bd). split; [|apply item_from_dotted; auto].
        apply Hres. apply Hres in Hi. eapply clos_step; eauto. apply (cursor_dotted h). eauto.
  Qed.

  Lemma automaton_lr0 fuel p c : from_grammar fuel p g = Val c ->
    (forall w k, path c (cf_start c) w k ->
       exists st, In st (cf_states c) /\ cs_id st = k /\
         forall d, (exists it, In it (cs_items st) /\ dotted_of it = d) <-> lr0 g w d) /\
    (forall w, (exists k, path c (cf_start c) w k) <-> exists d, lr0 g w d) /\
    (forall w k k', path c (cf_start c) w k -> path c (cf_start c) w k' -> k = k') /\
    (forall st, In st (cf_states c) -> exists w, path c (cf_start c) w (cs_id st)) /\
    (forall st s, In st (cf_states c) ->
       (exists k, In (s, k) (cs_trans st)) <->
       exists it h a r, In it (cs_items st) /\ dotted_of it = (h, a, s :: r)).
  Proof.
    intros H. apply from_grammar_answer in H. rewrite (ok_start _ _ H).
    split; [|split; [|split; [|split]]].
    - intros w k Hp. destruct (path_items g c H w k Hp) as (st & H1 & H2 & H3). exists st. split; [auto|]. split; [auto|].
      intros d. split.
      + intros (it & Hi & <-). apply li_lr0. apply H3. auto.
      + intros Hd. apply lr0_li in Hd. destruct Hd as (it & Hi & Hd). exists it. split; auto. apply H3. auto.
    - intros w. split.
      + intros (k & Hp). destruct (path_nonempty g Hgood c H w k Hp) as (it & Hi). exists (dotted_of it). apply li_lr0. auto.
      + intros (d & Hd). apply lr0_li in Hd. destruct Hd as (it & Hi & _). eapply li_path; eauto.
    - intros w k k'. apply (path_fun g c H).
    - apply (ok_reach _ _ H).
    - intros st s Hst. destruct (ok_trans _ _ H st Hst) as (_ & Hs & _).
      specialize (Hs s). rewrite in_map_iff in Hs. split.
      + intros (k & Hk). destruct (proj1 Hs) as (h & ib & H1 & H2); [exists (s, k); auto|].
        apply (cursor_dotted h) in H2. destruct H2 as (a & r & H2). exists (h, ib), h, a, r. auto.
      + intros ([h' ib] & h & a & r & H1 & H2). pose proof H2 as H2'. cbn in H2'. injection H2' as -> _ _.
        destruct (proj2 Hs) as ([s' k] & E & H3).
        * exists h, ib. split; auto. apply (cursor_dotted h). eauto.
        * cbn in E. subst s'. eauto.
  Qed.

  (** States with the same items behave alike. *)
  Lemma same_items_same_paths fuel p c st st' : from_grammar fuel p g = Val c ->
    In st (cf_states c) -> In st' (cf_states c) -> (forall it, In it (cs_items st) <-> In it (cs_items st')) ->
    forall w k, path c (cs_id st) w k ->
      exists k' s s', path c (cs_id st') w k' /\ In s (cf_states c) /\ In s' (cf_states c) /\ cs_id s = k /\ cs_id s' = k' /\
        forall it, In it (cs_items s) <-> In it (cs_items s').
  Proof.
    intros H Hst Hst' Hsame w k Hp. apply from_grammar_answer in H.
    remember (cs_id st) as i eqn:Ei. induction Hp as [i|i w j x k s0 Hp IH H1 H2 H3].
    - subst i. exists (cs_id st'), st, st'. repeat split; auto; try apply Hsame. constructor.
    - destruct (IH Ei) as (j' & s & s' & Ha & Hb' & Hd & He & Hf & Hg).
      assert (s = s0) as -> by (apply (state_unique g c H); congruence).
      destruct (ok_trans _ _ H s0 H1) as (_ & Hk & Ht). destruct (ok_trans _ _ H s' Hd) as (_ & Hk' & Ht').
      destruct (Ht _ _ H3) as (its & Hi1 & Hi2). apply known_state in Hi1. destruct Hi1 as (t & Ht1 & Ht2 & Ht3).
      assert (Hin : In x (map fst (cs_trans s'))).
      { apply Hk'. destruct (proj1 (Hk x)) as (h & ib & Hx & Hy).
        - change x with (fst (x, k)). apply in_map; auto.
        - exists h, ib. split; auto. apply Hg; auto. }
      apply in_map_iff in Hin. destruct Hin as ([x' k'] & E & Hin). cbn in E. subst x'.
      destruct (Ht' _ _ Hin) as (its' & Hj1 & Hj2). apply known_state in Hj1. destruct Hj1 as (t' & Ht1' & Ht2' & Ht3').
      exists k', t, t'. split; [exact (path_step _ _ _ j' _ _ s' Ha Hd Hf Hin)|]. split; [auto|]. split; [auto|]. split; [auto|]. split; [auto|].
      intros it. rewrite Ht3, Ht3', Hi2, Hj2. apply clos_iff. intros it'.
      split; intros (h & ib & Hx & Hy); exists h, ib; (split; [apply Hg; auto|auto]).
  Qed.
End More.

(** ** Display *)
Section Display.
  Context {V T : Type} (show_v : V -> list char) (show_t : T -> list char).

  Lemma display_loop_spec (bd : body V T) : forall cursor done,
    length done <= cursor -> cursor <= length done + length bd ->
    display_loop show_v show_t cursor bd done =
    done ++ map (show_symbol show_v show_t) (firstn (cursor - length done) bd) ++
      match skipn (cursor - length done) bd with
      | [] => []
      | r => bullet :: map (show_symbol show_v show_t) r
      end.
  Proof.
    assert (Hlate : forall (bd : body V T) cursor done, cursor < length done ->
              display_loop show_v show_t cursor bd done = done ++ map (show_symbol show_v show_t) bd).
    { induction bd0 as [|s bd0 IH]; intros cursor done H; cbn [display_loop map]; [rewrite app_nil_r; reflexivity|].
      destruct (Nat.eqb_spec (length done) cursor); [lia|]. rewrite IH by (rewrite app_length; cbn; lia).
      rewrite <- app_assoc. reflexivity. }
    induction bd as [|s bd IH]; intros cursor done H1 H2; cbn [display_loop].
    - rewrite firstn_nil, skipn_nil, app_nil_r. reflexivity.
    - destruct (Nat.eqb_spec (length done) cursor) as [E|E].
      + rewrite E, Nat.sub_diag. cbn [firstn skipn map app]. rewrite Hlate by (rewrite !app_length; cbn; lia).
        rewrite <- !app_assoc. reflexivity.
      + cbn [length] in H2. rewrite IH by (rewrite app_length; cbn; lia).
        replace (cursor - length done) with (S (cursor - length (done ++ [show_symbol show_v show_t s])))
          by (rewrite app_length; cbn; lia).
        cbn [firstn skipn map]. rewrite <- !app_assoc. reflexivity.
  Qed.

  Lemma display_item_spec (ib : item_body V T) : ib_cursor ib <= length (ib_body ib) ->
    display_item show_v show_t ib =
    join [$" "] (map (show_symbol show_v show_t) (firstn (ib_cursor ib) (ib_body ib)) ++ bullet ::
                 map (show_symbol show_v show_t) (skipn (ib_cursor ib) (ib_body ib))).
  Proof.
    intros H. unfold display_item. rewrite display_loop_spec by (cbn; lia). cbn [app length]. rewrite Nat.sub_0_r.
    set (c := ib_cursor ib) in *. set (bd := ib_body ib) in *.
    pose proof (skipn_length c bd) as Hl. pose proof (firstn_length_le bd H) as Hf.
    destruct (skipn c bd) as [|x r] eqn:E.
    - cbn [app map length] in *. rewrite app_nil_r. rewrite map_length, Hf, Nat.eqb_refl. reflexivity.
    - cbn [length] in Hl. rewrite app_length, map_length, Hf. cbn [length].
      destruct (Nat.eqb_spec c (c + S (length (map (show_symbol show_v show_t) (x :: r))))) as [E'|E']; [lia|reflexivity].
  Qed.

  Lemma join_middle (sep x : list char) (B : list (list char)) :
    join sep (x :: B) = x ++ concat (map (app sep) B).
  Proof.
    revert x. induction B as [|y B IH]; intros x; [cbn; rewrite app_nil_r; reflexivity|].
    change (join sep (x :: y :: B)) with (x ++ sep ++ join sep (y :: B)). rewrite IH. cbn [map concat].
    rewrite <- app_assoc. reflexivity.
  Qed.

  Lemma join_around (sep x : list char) (A B : list (list char)) :
    join sep (A ++ x :: B) = concat (map (fun a => a ++ sep) A) ++ x ++ concat (map (app sep) B).
  Proof.
    induction A as [|a A IH]; [apply join_middle|]. cbn [app map concat].
    assert (E : A ++ x :: B <> []) by (destruct A; discriminate).
    change (join sep (a :: A ++ x :: B)) with
      (match A ++ x :: B with [] => a | _ => a ++ sep ++ join sep (A ++ x :: B) end).
    destruct (A ++ x :: B) eqn:E'; [congruence|]. rewrite IH, <- !app_assoc. reflexivity.
  Qed.

  Lemma display_around (ib : item_body V T) : ib_cursor ib <= length (ib_body ib) ->
    display_item show_v show_t ib =
    concat (map (fun s => show_symbol show_v show_t s ++ [$" "]) (firstn (ib_cursor ib) (ib_body ib))) ++ [8226%N] ++
    concat (map (fun s => [$" "] ++ show_symbol show_v show_t s) (skipn (ib_cursor ib) (ib_body ib))).
  Proof. intros H. rewrite display_item_spec by auto. rewrite join_around, !map_map. reflexivity. Qed.

  Lemma display_one_bullet (ib : item_body V T) : ib_cursor ib <= length (ib_body ib) ->
    (forall v, ~ In 8226%N (show_v v)) -> (forall t, ~ In 8226%N (show_t t)) ->
    count_occ N.eq_dec (display_item show_v show_t ib) 8226%N = 1.
  Proof.
    intros H Hv Ht. rewrite display_around by auto.
    assert (Hs : forall s : symbol V T, ~ In 8226%N (show_symbol show_v show_t s)).
    { intros [t|v|]; cbn; auto. intros Hin. repeat (destruct Hin as [Hin|Hin]; [discriminate|]). destruct Hin. }
    assert (Hno : forall l : list (list char), (forall x, In x l -> ~ In 8226%N x) -> count_occ N.eq_dec (concat l) 8226%N = 0).
    { intros l Hl. apply count_occ_not_In. intros Hin. apply in_concat in Hin. destruct Hin as (x & H1 & H2). eapply Hl; eauto. }
    rewrite !count_occ_app. rewrite !Hno.
    - reflexivity.
    - intros x Hx Hin. apply in_map_iff in Hx. destruct Hx as (s & <- & _). apply in_app_iff in Hin.
      destruct Hin as [[Hin|[]]|Hin]; [discriminate|]. eapply Hs; eauto.
    - intros x Hx Hin. apply in_map_iff in Hx. destruct Hx as (s & <- & _). apply in_app_iff in Hin.
      destruct Hin as [Hin|[Hin|[]]]; [|discriminate]. eapply Hs; eauto.
  Qed.
End Display.

(** ** Paths by computation *)
Section Walk.
  Context {V T : Type} {dv : DecEq V} {dt : DecEq T}.
  Definition walk (c : cfsm V T) (i : nat) (w : list (symbol V T)) : option nat :=
    fold_left (fun o s => match o with
                          | Some j => match find (fun st => Nat.eqb (cs_id st) j) (cf_states c) with
                                      | Some st => mget s (cs_trans st)
                                      | None => None
                                      end
                          | None => None
                          end) w (Some i).

  Lemma walk_path c i w : forall k, walk c i w = Some k -> path c i w k.
  Proof.
    induction w as [|s w IH] using rev_ind; intros k H.
    - injection H as <-. constructor.
    - unfold walk in H. rewrite fold_left_app in H. cbn [fold_left] in H. fold (walk c i w) in H.
      destruct (walk c i w) as [j|]; [|discriminate].
      destruct (find _ (cf_states c)) as [st|] eqn:E; [|discriminate].
      apply find_some in E. destruct E as [E1 E2]. apply Nat.eqb_eq in E2.
      eapply path_step; [apply IH; reflexivity|exact E1|exact E2|]. apply mget_in. auto.
  Qed.
End Walk.
