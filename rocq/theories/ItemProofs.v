(** Items, closures and groups of items. *)
From Verif Require Import Base GrammarModel CfsmModel SlrModel SpecCfg GrammarProofs FirstProofs FollowProofs GrammarTotal.

(** ** Cursors *)
Section Cursor.
  Context {V T : Type} {dv : DecEq V} {dt : DecEq T}.
  Notation sym := (symbol V T).
  Implicit Types (l a b r : list sym) (ib : item_body V T).

  Lemma eps_count_le l : eps_count l <= length l.
  Proof. induction l as [|[t|v|] l IH]; cbn; lia. Qed.

  Lemma eps_count_next l : forall k, k = eps_count l -> nth_error l k <> Some Eps.
  Proof. induction l as [|[t|v|] l IH]; cbn; intros k ->; try discriminate. cbn. apply IH. reflexivity. Qed.

  Lemma skip_eps_count b : forall a, skip_eps (a, b) (a ++ firstn (eps_count b) b, skipn (eps_count b) b).
  Proof.
    induction b as [|[t|v|] b IH]; intros a; cbn.
    - rewrite app_nil_r. constructor. discriminate.
    - rewrite app_nil_r. constructor. discriminate.
    - rewrite app_nil_r. constructor. discriminate.
    - constructor. specialize (IH (a ++ [Eps])). rewrite <- app_assoc in IH. exact IH.
  Qed.

  Lemma skip_eps_fun x y : skip_eps (V:=V) (T:=T) x y -> forall z, skip_eps x z -> y = z.
  Proof.
    induction 1 as [a b H|a b x H IH]; intros z Hz.
    - inversion Hz as [a0 b0 H0 E1 E2|a0 b0 x0 H0 E1 E2]; subst; auto. destruct (H b0); auto.
    - inversion Hz as [a0 b0 H0 E1 E2|a0 b0 x0 H0 E1 E2]; subst; auto. destruct (H0 b); auto.
  Qed.

  Lemma skip_eps_app a b a' b' : skip_eps (V:=V) (T:=T) (a, b) (a', b') -> a' ++ b' = a ++ b.
  Proof.
    intros H. remember (a, b) as x eqn:Ex. remember (a', b') as y eqn:Ey. revert a b a' b' Ex Ey.
    induction H as [a0 b0 H|a0 b0 x H IH]; intros a b a' b' Ex Ey.
    - rewrite Ex in Ey. injection Ey as -> ->. reflexivity.
    - injection Ex as <- <-. rewrite (IH _ _ _ _ eq_refl Ey), <- app_assoc. reflexivity.
  Qed.

  Definition in_body ib : Prop := ib_cursor ib <= length (ib_body ib).

  Lemma dotted_inj (it it' : item V T) : in_body (snd it) -> in_body (snd it') ->
    dotted_of it = dotted_of it' -> it = it'.
  Proof.
    destruct it as [h [b c]], it' as [h' [b' c']]. unfold in_body; cbn. intros H1 H2 E. injection E as -> E1 E2.
    assert (Hb : b = b') by (rewrite <- (firstn_skipn c b), <- (firstn_skipn c' b'), E1, E2; reflexivity).
    assert (Hc : c = c').
    { rewrite <- (firstn_length_le _ H1), <- (firstn_length_le _ H2), E1. reflexivity. }
    congruence.
  Qed.

  Lemma skipn_nth_cons {A} (n : nat) : forall (l : list A) x, nth_error l n = Some x -> skipn n l = x :: skipn (S n) l.
  Proof. induction n as [|n IH]; intros [|y l] x H; cbn in *; try discriminate; [congruence|]. apply IH; auto. Qed.

  Lemma skipn_cons_nth {A} (n : nat) : forall (l : list A) (x : A) (r : list A), skipn n l = x :: r -> nth_error l n = Some x.
  Proof. induction n as [|n IH]; intros [|y l] x r H; cbn in *; try discriminate; [congruence|]. eapply IH; eauto. Qed.

  Lemma firstn_snoc {A} (n : nat) : forall (l : list A) x, nth_error l n = Some x -> firstn (S n) l = firstn n l ++ [x].
  Proof. induction n as [|n IH]; intros [|y l] x H; cbn in *; try discriminate; [congruence|]. f_equal. apply IH; auto. Qed.

  Lemma skipn_plus {A} (m n : nat) : forall l : list A, skipn n (skipn m l) = skipn (m + n) l.
  Proof. induction m as [|m IH]; intros l; cbn; auto. destruct l; [apply skipn_nil|apply IH]. Qed.

  Lemma firstn_plus {A} (m n : nat) : forall l : list A, firstn (m + n) l = firstn m l ++ firstn n (skipn m l).
  Proof. induction m as [|m IH]; intros l; cbn; auto. destruct l; [rewrite firstn_nil; reflexivity|]. cbn. f_equal. apply IH. Qed.

  (** The symbol at the cursor, in terms of dotted rules. *)
  Lemma cursor_dotted (h : V) ib s :
    cursor_symbol ib = Some s <-> exists a r, dotted_of (h, ib) = (h, a, s :: r).
  Proof.
    unfold cursor_symbol. destruct ib as [bd c]; cbn. split.
    - intros H. rewrite (skipn_nth_cons _ _ _ H). eauto.
    - intros (a & r & E). injection E as _ E. eapply skipn_cons_nth; eauto.
  Qed.

  Lemma cursor_end (h : V) ib : in_body ib -> cursor_symbol ib = None <-> exists a, dotted_of (h, ib) = (h, a, []).
  Proof.
    unfold cursor_symbol, in_body. destruct ib as [bd c]; cbn. intros Hc. rewrite nth_error_None. split.
    - intros H. rewrite skipn_all2 by auto. eauto.
    - intros (a & E). injection E as _ E. assert (E' := f_equal (@length _) E). rewrite skipn_length in E'. cbn in E'. lia.
  Qed.

  Lemma cursor_in_body ib s : cursor_symbol ib = Some s -> ib_cursor ib < length (ib_body ib).
  Proof. unfold cursor_symbol. intros H. apply nth_error_Some. congruence. Qed.

  (** *** New items *)
  Lemma item_from_dotted (h : V) (bd : body V T) a b :
    skip_eps ([], bd) (a, b) <-> dotted_of (h, item_from bd) = (h, a, b).
  Proof.
    unfold item_from. cbn. pose proof (skip_eps_count bd []) as H. cbn [app] in H. split.
    - intros H'. apply (skip_eps_fun _ _ H) in H'. congruence.
    - intros E. injection E as <- <-. exact H.
  Qed.

  Lemma item_from_ok (bd : body V T) : in_body (item_from bd) /\ cursor_symbol (item_from bd) <> Some Eps.
  Proof. split; [apply eps_count_le|]. apply eps_count_next. reflexivity. Qed.

  (** *** Advanced items *)
  Lemma advance_cursor ib s : cursor_symbol ib = Some s ->
    ib_cursor (advance ib) = S (ib_cursor ib) + eps_count (skipn (S (ib_cursor ib)) (ib_body ib)).
  Proof.
    intros H. apply cursor_in_body in H. unfold advance. cbn [ib_cursor].
    replace (ib_cursor ib + 1) with (S (ib_cursor ib)) by lia.
    pose proof (eps_count_le (skipn (S (ib_cursor ib)) (ib_body ib))) as Hl. rewrite skipn_length in Hl.
    rewrite Nat.min_l by lia. lia.
  Qed.

  Lemma advance_dotted (h : V) ib s a r a' b' :
    dotted_of (h, ib) = (h, a, s :: r) ->
    skip_eps (a ++ [s], r) (a', b') <-> dotted_of (h, advance ib) = (h, a', b').
  Proof.
    intros E. assert (Hs : cursor_symbol ib = Some s) by (apply (cursor_dotted h); eauto).
    unfold dotted_of in *. rewrite (advance_cursor _ _ Hs). injection E as E1 E2.
    change (ib_body (advance ib)) with (ib_body ib).
    assert (E3 : skipn (S (ib_cursor ib)) (ib_body ib) = r).
    { unfold cursor_symbol in Hs. rewrite (skipn_nth_cons _ _ _ Hs) in E2. congruence. }
    assert (E4 : firstn (S (ib_cursor ib)) (ib_body ib) = a ++ [s]).
    { rewrite (firstn_snoc _ _ s) by exact Hs. rewrite E1. reflexivity. }
    rewrite E3. rewrite firstn_plus, <- skipn_plus, E3, E4.
    pose proof (skip_eps_count r (a ++ [s])) as H. split.
    - intros H'. apply (skip_eps_fun _ _ H) in H'. congruence.
    - intros E. injection E as <- <-. exact H.
  Qed.

  Lemma advance_ok ib s : cursor_symbol ib = Some s ->
    in_body (advance ib) /\ cursor_symbol (advance ib) <> Some Eps.
  Proof.
    intros H. split.
    - unfold in_body, advance. cbn. apply Nat.le_min_r.
    - unfold cursor_symbol. rewrite (advance_cursor _ _ H). cbn [advance ib_body].
      intros E. pose proof (eps_count_next (skipn (S (ib_cursor ib)) (ib_body ib)) _ eq_refl) as Hn.
      apply Hn. rewrite <- E. clear. generalize (S (ib_cursor ib)) as n. intros n.
      generalize (eps_count (skipn n (ib_body ib))) as k. generalize (ib_body ib) as l.
      induction n as [|n IH]; intros l k; cbn; auto. destruct l; [destruct k; reflexivity|]. apply IH.
  Qed.
End Cursor.

(** ** Closures *)
Section Closure.
  Context {V T : Type} {dv : DecEq V} {dt : DecEq T}.
  Notation sym := (symbol V T).
  Notation itm := (item V T).
  Implicit Types (it : itm) (ib : item_body V T).
  Variable g : grammar V T.
  Hypothesis Hgood : good g.

  Definition item_ok it : Prop :=
    rule g (fst it) (ib_body (snd it)) /\ in_body (snd it) /\ cursor_symbol (snd it) <> Some Eps.

  Inductive clos (P : itm -> Prop) : itm -> Prop :=
  | clos_in : forall it, P it -> clos P it
  | clos_step : forall h ib v bd, clos P (h, ib) -> cursor_symbol ib = Some (Var v) -> rule g v bd ->
      clos P (v, item_from bd).

  Lemma clos_mono (P Q : itm -> Prop) : (forall it, P it -> Q it) -> forall it, clos P it -> clos Q it.
  Proof. intros H it. induction 1; [apply clos_in; auto|eapply clos_step; eauto]. Qed.

  Lemma clos_iff (P Q : itm -> Prop) : (forall it, P it <-> Q it) -> forall it, clos P it <-> clos Q it.
  Proof. intros H it. split; apply clos_mono; intros; apply H; auto. Qed.

  Lemma clos_ok (P : itm -> Prop) : (forall it, P it -> item_ok it) -> forall it, clos P it -> item_ok it.
  Proof.
    intros H it. induction 1; auto. destruct (item_from_ok bd). split; auto.
  Qed.

  Lemma item_var_rule h ib v : item_ok (h, ib) -> cursor_symbol ib = Some (Var v) -> exists bd, rule g v bd.
  Proof.
    intros (H & _) Hc. eapply (good_closed g Hgood); eauto. unfold cursor_symbol in Hc. eapply nth_error_In; eauto.
  Qed.

  Definition all_items : list itm :=
    flat_map (fun e => flat_map (fun bd => map (fun c => (fst e, {| ib_body := bd; ib_cursor := c |}))
                                               (seq 0 (S (length bd)))) (snd e)) (g_rules g).

  Lemma in_all_items it : item_ok it -> In it all_items.
  Proof.
    destruct it as [h [bd c]]. intros ((bds & H1 & H2) & H3 & _). unfold in_body in H3. cbn in *.
    apply in_flat_map. exists (h, bds). split; auto. apply in_flat_map. exists bd. split; auto.
    cbn [fst]. apply (in_map (fun c => (h, {| ib_body := bd; ib_cursor := c |}))). apply in_seq. lia.
  Qed.

  Context {ho : HashOrder}.

  Lemma closure_insert_spec head ibs : forall queue items queue' items',
    closure_insert head ibs queue items = (queue', items') ->
    NoDup items ->
    exists new, queue' = queue ++ map snd new /\ items' = items ++ new /\ NoDup items' /\
      (forall it, In it new -> fst it = head /\ In (snd it) ibs) /\
      (forall ib, In ib ibs -> In (head, ib) items').
  Proof.
    induction ibs as [|ib ibs IH]; intros queue items queue' items' E Hn; cbn in E.
    - injection E as <- <-. exists []. cbn. rewrite !app_nil_r. split; [auto|]. split; [auto|].
      split; [auto|]. split; intros ? [].
    - destruct (memb (head, ib) items) eqn:Em.
      + destruct (IH _ _ _ _ E Hn) as (new & H1 & H2 & H3 & H4 & H5). exists new.
        split; [auto|]. split; [auto|]. split; [auto|]. split.
        * intros it H. destruct (H4 _ H). split; auto. right; auto.
        * intros ib' [<-|H]; auto. rewrite H2. apply in_app_iff. left. apply memb_in; auto.
      + apply memb_not_in in Em.
        destruct (IH _ _ _ _ E (nodup_snoc _ _ Hn Em)) as (new & H1 & H2 & H3 & H4 & H5).
        exists ((head, ib) :: new). rewrite <- app_assoc in H1, H2. cbn in H1, H2.
        split; [auto|]. split; [auto|]. split; [auto|]. split.
        * intros it [<-|H]; [cbn; auto|]. destruct (H4 _ H). split; auto. right; auto.
        * intros ib' [<-|H]; auto. rewrite H2. apply in_app_iff. right. left. auto.
  Qed.

  Variable p : list nat.
  Variable items0 : item_set V T.
  Hypothesis Hok0 : forall it, In it items0 -> item_ok it.

  Record cinv (queue : list (item_body V T)) (items : item_set V T) : Prop := {
    c_nodup : NoDup items;
    c_base : forall it, In it items0 -> In it items;
    c_sound : forall it, In it items -> clos (fun it => In it items0) it;
    c_queue : forall ib, In ib queue -> exists h, In (h, ib) items;
    c_comp : forall h ib v bd, In (h, ib) items -> cursor_symbol ib = Some (Var v) -> rule g v bd ->
               In ib queue \/ In (v, item_from bd) items
  }.

  Lemma items_loop_spec n : forall m k queue items,
    cinv queue items -> length all_items - length items <= n -> length queue <= m ->
    exists f res, (forall fuel, f <= fuel -> items_loop fuel k p g queue items = Val res) /\ cinv [] res.
  Proof.
    induction n as [n IHn] using lt_wf_ind. induction m as [|m IHm]; intros k queue items Hi Hn Hm.
    - destruct queue; [|cbn in Hm; lia]. exists 0, items. split; auto. intros [|]; reflexivity.
    - destruct queue as [|ib rest]; [exists 0, items; split; auto; intros [|]; reflexivity|]. cbn in Hm.
      destruct (c_queue _ _ Hi ib (or_introl eq_refl)) as (h & Hh).
      assert (Hok : item_ok (h, ib)) by (eapply clos_ok; [exact Hok0|apply (c_sound _ _ Hi); auto]).
      assert (Hdrop : (forall v, cursor_symbol ib <> Some (Var v)) ->
                exists f res, (forall fuel, f <= fuel -> items_loop fuel (S k) p g rest items = Val res) /\ cinv [] res).
      { intros Hv. apply IHm; auto; [|lia]. destruct Hi. split; auto.
        - intros ib' H. apply c_queue0. right; auto.
        - intros h' ib' v bd H1 H2 H3. destruct (c_comp0 _ _ _ _ H1 H2 H3) as [[<-|H]|H]; auto.
          destruct (Hv v); auto. }
      destruct (cursor_symbol ib) as [[t|v|]|] eqn:Ec.
      + destruct Hdrop as (f & res & Ef & Hr); [discriminate|]. exists (S f), res. split; auto.
        intros [|fuel] Hf; [lia|]. cbn [items_loop]. unfold cursor_variable. rewrite Ec. cbn [bind]. apply Ef. lia.
      + clear Hdrop. destruct (get_rule_some g v Hgood (item_var_rule _ _ _ Hok Ec)) as (bds & Ebds).
        destruct (closure_insert v (map item_from (hash_at (k :: 1 :: p) bds)) rest items) as [queue' items'] eqn:Eci.
        destruct (closure_insert_spec _ _ _ _ _ _ Eci (c_nodup _ _ Hi)) as (new & Hq & Hit & Hn' & Hnew & Hall).
        assert (Hr' : forall it, In it new -> fst it = v /\ exists bd, rule g v bd /\ snd it = item_from bd).
        { intros it H. destruct (Hnew _ H) as (H1 & H2). split; auto. apply in_map_iff in H2.
          destruct H2 as (bd & <- & H2). exists bd. split; auto. apply in_hash_at in H2. eapply get_rule_in; eauto. }
        assert (Hi' : cinv queue' items').
        { destruct Hi. split; auto.
          - intros it H. rewrite Hit. apply in_app_iff. auto.
          - intros it H. rewrite Hit in H. apply in_app_iff in H. destruct H as [H|H]; auto.
            destruct (Hr' _ H) as (H1 & bd & H2 & H3). destruct it as [v' ib']. cbn in H1, H3. subst v' ib'.
            eapply clos_step; eauto.
          - intros ib' H. rewrite Hq in H. apply in_app_iff in H. destruct H as [H|H].
            + destruct (c_queue0 ib') as (h' & H'); [right; auto|]. exists h'. rewrite Hit. apply in_app_iff. auto.
            + apply in_map_iff in H. destruct H as ([h' x] & <- & H). exists h'. rewrite Hit. apply in_app_iff. auto.
          - intros h' ib' v' bd H1 H2 H3. rewrite Hit in H1. apply in_app_iff in H1. destruct H1 as [H1|H1].
            + destruct (c_comp0 _ _ _ _ H1 H2 H3) as [[<-|H]|H].
              * right. rewrite Ec in H2. injection H2 as <-. apply Hall. apply in_map. apply in_hash_at.
                rewrite (rule_get g v bd Hgood) in H3. destruct H3 as (bds' & E & H3). congruence.
              * left. rewrite Hq. apply in_app_iff. auto.
              * right. rewrite Hit. apply in_app_iff. auto.
            + left. rewrite Hq. apply in_app_iff. right. change ib' with (snd (h', ib')). apply in_map. auto. }
        assert (Hb : length items' <= length all_items).
        { apply NoDup_incl_length; auto. intros it H. apply in_all_items.
          eapply clos_ok; [exact Hok0|apply (c_sound _ _ Hi'); auto]. }
        assert (Hrec : exists f res, (forall fuel, f <= fuel -> items_loop fuel (S k) p g queue' items' = Val res) /\ cinv [] res).
        { destruct new as [|x new].
          - cbn in Hq, Hit. rewrite app_nil_r in Hq, Hit. subst. apply IHm; auto; lia.
          - assert (length items < length items') by (rewrite Hit, app_length; cbn; lia).
            eapply (IHn (length all_items - length items')); auto; lia. }
        destruct Hrec as (f & res & Ef & Hr). exists (S f), res. split; auto.
        intros [|fuel] Hf; [lia|]. cbn [items_loop]. unfold cursor_variable. rewrite Ec. cbn [bind].
        rewrite Ebds. cbn [of_option bind]. rewrite Eci. apply Ef. lia.
      + destruct Hok as (_ & _ & Hok). cbn in Hok. congruence.
      + destruct Hdrop as (f & res & Ef & Hr); [discriminate|]. exists (S f), res. split; auto.
        intros [|fuel] Hf; [lia|]. cbn [items_loop]. unfold cursor_variable. rewrite Ec. cbn [bind]. apply Ef. lia.
  Qed.

  Lemma from_incomplete_map_spec : NoDup items0 ->
    exists n res, (forall fuel, n <= fuel -> from_incomplete_map fuel p items0 g = Val res) /\
      NoDup res /\ forall it, In it res <-> clos (fun it => In it items0) it.
  Proof.
    intros Hn.
    assert (Hi : cinv (map snd (hash_at (0 :: p) items0)) items0).
    { split; auto.
      - intros it H. apply clos_in. auto.
      - intros ib H. apply in_map_iff in H. destruct H as ([h x] & <- & H). apply in_hash_at in H. eauto.
      - intros h ib v bd H _ _. left. change ib with (snd (h, ib)). apply in_map. apply in_hash_at. auto. }
    destruct (items_loop_spec _ _ 0 _ _ Hi (le_n _) (le_n _)) as (f & res & Ef & []).
    exists f, res. split; [exact Ef|]. split; [auto|].
    intros it. split; auto. induction 1 as [it H|h ib v bd H IH Hc Hr]; auto.
    destruct (c_comp0 _ _ _ _ IH Hc Hr) as [[]|H']; auto.
  Qed.
End Closure.

Lemma items_loop_more {V T} `{DecEq V} `{DecEq T} {ho : HashOrder} (g : grammar V T) p n :
  forall j k q m m', items_loop n k p g q m = Val m' -> items_loop (n + j) k p g q m = Val m'.
Proof.
  induction n as [|n IH]; intros j k q m m' E; cbn [items_loop] in E.
  - destruct q as [|ib q]; [|discriminate]. destruct j; exact E.
  - cbn [Nat.add items_loop]. destruct q as [|ib q]; auto.
    apply bind_val in E. destruct E as (cv & E1 & E2). rewrite E1. cbn [bind]. destruct cv as [h|]; auto.
    apply bind_val in E2. destruct E2 as (bs & E2 & E3). rewrite E2. cbn [bind].
    destruct (closure_insert _ _ _ _). auto.
Qed.

(** ** Groups *)
Section Groups.
  Context {V T : Type} {dv : DecEq V} {dt : DecEq T} {ho : HashOrder}.
  Notation itm := (item V T).

  Record groups_ok (items : list itm) (gs : list (symbol V T * item_set V T)) : Prop := {
    gr_keys : NoDup (map fst gs);
    gr_nodup : forall s grp, In (s, grp) gs -> NoDup grp /\ grp <> [];
    gr_sound : forall s grp it, In (s, grp) gs -> In it grp -> In it items /\ cursor_symbol (snd it) = Some s;
    gr_complete : forall it s, In it items -> cursor_symbol (snd it) = Some s -> exists grp, In (s, grp) gs /\ In it grp
  }.

  Lemma group_items_spec p items : groups_ok items (group_items p items).
  Proof.
    assert (H : groups_ok (hash_at (0 :: p) items)
                  (fold_left (fun groups it =>
                     match cursor_symbol (snd it) with
                     | None => groups
                     | Some s => mupdate s [] (set_insert it) groups
                     end) (hash_at (0 :: p) items) [])).
    { generalize (hash_at (0 :: p) items) as l. induction l as [|it l IH] using rev_ind.
      - split; cbn; try tauto. constructor.
      - rewrite fold_left_app. cbn [fold_left].
        set (gs := fold_left _ l []) in *. destruct IH as [IH1 IH2 IH3 IH4].
        destruct (cursor_symbol (snd it)) as [s|] eqn:Es.
        + split.
          * apply mupdate_nodup; auto.
          * intros s' grp H. apply in_mupdate in H. destruct H as [H|(-> & [->|(b & H & ->)])]; eauto.
            -- split; [apply nodup_set_insert; constructor|].
               unfold set_insert; cbn; discriminate.
            -- destruct (IH2 _ _ H) as [H1 H2]. split; [apply nodup_set_insert; auto|].
               unfold set_insert. match goal with |- context [if ?c then _ else _] => destruct c end; auto. intros Hb. apply app_eq_nil in Hb. destruct Hb; congruence.
          * intros s' grp it' H Hit. apply in_mupdate in H. destruct H as [H|(-> & [->|(b & H & ->)])].
            -- destruct (IH3 _ _ _ H Hit). split; auto. apply in_app_iff; auto.
            -- rewrite in_set_insert in Hit. destruct Hit as [->|[]]. split; auto. apply in_app_iff. right. left. auto.
            -- rewrite in_set_insert in Hit. destruct Hit as [->|Hit].
               ++ split; auto. apply in_app_iff. right. left. auto.
               ++ destruct (IH3 _ _ _ H Hit). split; auto. apply in_app_iff; auto.
          * intros it' s' H Hc.
            assert (Hn : NoDup (map fst (mupdate s [] (set_insert it) gs))) by (apply mupdate_nodup; auto).
            destruct (dec_of s' s) as [->|Hne].
            -- exists (set_insert it (match mget s gs with Some b => b | None => [] end)). split.
               ++ apply mget_in. apply mget_mupdate_same.
               ++ apply in_set_insert. apply in_app_iff in H. destruct H as [H|[<-|[]]]; auto.
                  destruct (IH4 _ _ H Hc) as (grp & H1 & H2). right.
                  rewrite (in_mget _ _ _ IH1 H1). auto.
            -- apply in_app_iff in H. destruct H as [H|[<-|[]]]; [|congruence].
               destruct (IH4 _ _ H Hc) as (grp & H1 & H2). exists grp. split; auto.
               apply mget_in. rewrite mget_mupdate_other by auto. apply in_mget; auto.
        + split; auto.
          * intros s' grp it' H Hit. destruct (IH3 _ _ _ H Hit). split; auto. apply in_app_iff; auto.
          * intros it' s' H Hc. apply in_app_iff in H. destruct H as [H|[<-|[]]]; [|congruence]. eauto. }
    unfold group_items. set (gs := fold_left _ _ _) in *. destruct H as [H1 H2 H3 H4]. split.
    - eapply Permutation_NoDup; [|exact H1]. apply Permutation_map. symmetry. apply hash_at_perm.
    - intros s grp H. apply in_hash_at in H. eauto.
    - intros s grp it H Hit. apply in_hash_at in H. destruct (H3 _ _ _ H Hit) as [H5 H6]. split; auto.
      apply in_hash_at in H5. auto.
    - intros it s H Hc. destruct (H4 it s) as (grp & H5 & H6); auto.
      + apply in_hash_at. auto.
      + exists grp. split; auto. apply in_hash_at. auto.
  Qed.

  (** The kernel of the successor of a group. *)
  Lemma in_kernel (grp : item_set V T) it :
    In it (set_extend (map (fun it => (fst it, advance (snd it))) grp) []) <->
    exists h ib, In (h, ib) grp /\ it = (h, advance ib).
  Proof.
    rewrite in_set_extend, in_map_iff. split.
    - intros [([h ib] & <- & H)|[]]. exists h, ib. auto.
    - intros (h & ib & H & ->). left. exists (h, ib). auto.
  Qed.
End Groups.
