(** Parsers with the same [Debug] text parse alike. *)
From Verif Require Import Base RegexModel NfaModel DotModel GrammarModel CfsmModel SlrModel DebugModel SpecErrors SpecCfg SpecDebug.
From Verif Require Import GrammarProofs TableProofs DebugProofs DebugTypes.

Section Tables.
  Context {V T : Type} {dv : DecEq V} {dt : DecEq T}.
  Context (teq : T -> T -> bool).
  Hypothesis Hteq : lawful teq.

  Notation act := (key T * action V)%type.

  (** ** The tables [Slr::new] makes, for any grammar *)

  Record sound (s : V) (tbs : list (list act) * list (list (V * nat))) : Prop := {
    sound_rows : Forall (distinct teq) (fst tbs);
    sound_gotos : Forall (fun row => NoDup (map fst row)) (snd tbs);
    sound_accept : forall row k v n, In row (fst tbs) -> In (k, Accept v n) row -> v = s
  }.

  Lemma set_row_in {A} n (row : list A) l x : In x (set_row n row l) -> x = row \/ In x l.
  Proof.
    unfold set_row. intros H. apply in_app_iff in H. destruct H as [H|[<-|H]]; auto.
    - right. rewrite <- (firstn_skipn n l). apply in_app_iff. auto.
    - right. rewrite <- (firstn_skipn (S n) l). apply in_app_iff. auto.
  Qed.
  Lemma resize_in {A} n (l : list (list A)) x : In x (resize n l) -> x = [] \/ In x l.
  Proof. unfold resize. intros H. apply in_app_iff in H. destruct H as [H|H]; [auto|]. left. apply repeat_spec in H. assumption. Qed.
  Lemma nth_in_or {A} n (l : list (list A)) : nth n l [] = [] \/ In (nth n l []) l.
  Proof. destruct (Nat.lt_ge_cases n (length l)); [right; apply nth_In; assumption|left; apply nth_overflow; assumption]. Qed.

  Lemma insert_action_sound s st k a ac gt ac' : sound s (ac, gt) -> (forall v n, a = Accept v n -> v = s) ->
    insert_action teq st k a ac = Some ac' -> sound s (ac', gt).
  Proof.
    intros [H1 H2 H3] Ha E. unfold insert_action in E. cbn [fst snd] in *.
    rewrite nth_resize in E.
    destruct (row_get teq k (nth st ac [])) eqn:Eg; [discriminate|]. injection E as <-.
    assert (Hrow : distinct teq (nth st ac [] ++ [(k, a)])).
    { apply distinct_app. split; [|split].
      - destruct (nth_in_or st ac) as [->|Hi]; [constructor|]. rewrite Forall_forall in H1. apply H1. assumption.
      - constructor; [intros ? ? []|constructor].
      - intros k1 a1 k' a' Hi [[= <- <-]|[]]. rewrite key_eq_sym by assumption. rewrite row_get_none in Eg. exact (Eg k1 a1 Hi). }
    split; cbn [fst snd]; try assumption.
    - apply Forall_forall. intros row Hi. apply set_row_in in Hi. destruct Hi as [->|Hi]; [assumption|].
      apply resize_in in Hi. destruct Hi as [->|Hi]; [constructor|]. rewrite Forall_forall in H1. apply H1. assumption.
    - intros row k1 v n Hi Hin. apply set_row_in in Hi. destruct Hi as [->|Hi].
      + apply in_app_iff in Hin. destruct Hin as [Hin|[[= <- Ea]|[]]].
        * destruct (nth_in_or st ac) as [E|Hr]; [rewrite E in Hin; destruct Hin|]. exact (H3 _ _ _ _ Hr Hin).
        * exact (Ha v n Ea).
      + apply resize_in in Hi. destruct Hi as [->|Hi]; [destruct Hin|]. exact (H3 _ _ _ _ Hi Hin).
  Qed.

  Lemma mupdate_keys {B} (k : V) (d : B) f m : NoDup (map fst m) -> NoDup (map fst (mupdate k d f m)).
  Proof.
    induction m as [|[k' b] m IH]; intros H; cbn [mupdate map fst].
    - constructor; [intros []|constructor].
    - inversion H as [|? ? H1 H2]; subst. destruct (eqb k k') eqn:E; cbn [map fst]; [assumption|].
      constructor; [|apply IH; assumption]. intros Hi. apply H1.
      assert (X : forall m, In k' (map fst (mupdate k d f m)) -> In k' (map fst m)).
      { clear - E. intros m. induction m as [|[k2 b2] m IH]; cbn [mupdate map fst In].
        - intros [->|[]]. rewrite eqb_refl in E. discriminate.
        - destruct (eqb k k2) eqn:E2; cbn [map fst In]; [auto|]. intros [->|Hi]; auto. }
      apply X. assumption.
  Qed.

  Lemma insert_goto_sound s st v d ac gt gt' : sound s (ac, gt) -> insert_goto st v d gt = Val gt' -> sound s (ac, gt').
  Proof.
    intros [H1 H2 H3] E. unfold insert_goto in E. cbn [fst snd] in *. rewrite nth_resize in E.
    assert (E' : gt' = set_row st (mupdate v 0 (fun _ => d) (nth st gt [])) (resize st gt)).
    { destruct (mget v (nth st gt [])) as [d'|]; [destruct (Nat.eqb d' d)|]; congruence. }
    subst gt'. split; cbn [fst snd]; try assumption. apply Forall_forall. intros row Hi. apply set_row_in in Hi.
    rewrite Forall_forall in H2. destruct Hi as [->|Hi].
    - apply mupdate_keys. destruct (nth_in_or st gt) as [->|Hi]; [constructor|]. apply H2. assumption.
    - apply resize_in in Hi. destruct Hi as [->|Hi]; [constructor|]. apply H2. assumption.
  Qed.

  Lemma insert_reduces_sound s st h m fl : forall ac gt ac', sound s (ac, gt) ->
    insert_reduces teq st h m fl ac = Val (Some ac') -> sound s (ac', gt).
  Proof.
    induction fl as [|[t|v|] fl IH]; intros ac gt ac' H E; cbn [insert_reduces] in E.
    - injection E as <-. assumption.
    - destruct (insert_action teq st (Some t) (Reduce h m) ac) as [ac1|] eqn:E1; [|discriminate].
      apply (IH ac1 gt ac'); [|assumption]. eapply insert_action_sound; [eassumption| |exact E1]. discriminate.
    - discriminate.
    - apply (IH ac gt ac'); assumption.
  Qed.

  Context {ho : HashOrder}.

  Lemma table_items_sound p g fs st items : forall tbs tbs', sound (g_start g) tbs ->
    table_items teq p g fs st items tbs = Val (Some tbs') -> sound (g_start g) tbs'.
  Proof.
    induction items as [|[i [h ib]] items IH]; intros [ac gt] tbs' H E; cbn [table_items] in E.
    - injection E as <-. assumption.
    - destruct (cursor_symbol ib) as [[t|v|]|].
      + destruct (mget (Ter t) (cs_trans st)) as [d|]; cbn [of_option bind] in E; [|discriminate]. cbn [fst snd] in E.
        destruct (insert_action teq (cs_id st) (Some t) (Shift d) ac) as [ac1|] eqn:E1; [|discriminate].
        apply (IH (ac1, gt) tbs'); [|assumption]. eapply insert_action_sound; [eassumption| |exact E1]. discriminate.
      + destruct (mget (Var v) (cs_trans st)) as [d|]; cbn [of_option bind] in E; [|discriminate]. cbn [fst snd] in E.
        destruct (insert_goto (cs_id st) v d gt) as [gt1| |] eqn:E1; cbn [bind] in E; try discriminate.
        apply (IH (ac, gt1) tbs'); [|assumption]. eapply insert_goto_sound; [eassumption|exact E1].
      + discriminate.
      + destruct (mget h fs) as [fl|]; [|apply (IH (ac, gt) tbs'); assumption]. cbn [fst snd] in E.
        destruct (insert_reduces teq (cs_id st) h (length (ib_body ib)) (hash_at (i :: p) fl) ac) as [[ac1|]| |] eqn:E1;
          cbn [bind] in E; try discriminate.
        pose proof (insert_reduces_sound _ _ _ _ _ _ _ _ H E1) as H1.
        destruct (eqb h (g_start g)) eqn:Eh.
        * destruct (insert_action teq (cs_id st) None (Accept h (length (ib_body ib))) ac1) as [ac2|] eqn:E2; [|discriminate].
          apply (IH (ac2, gt) tbs'); [|assumption]. eapply insert_action_sound; [exact H1| |exact E2].
          intros v n [= <- <-]. apply eqb_eq. assumption.
        * apply (IH (ac1, gt) tbs'); assumption.
  Qed.

  Lemma table_states_sound p g fs sts : forall tbs tbs', sound (g_start g) tbs ->
    table_states teq p g fs sts tbs = Val (Some tbs') -> sound (g_start g) tbs'.
  Proof.
    induction sts as [|st sts IH]; intros tbs tbs' H E; cbn [table_states] in E; [injection E as <-; assumption|].
    destruct (table_items teq (1 :: cs_id st :: p) g fs st (enumerate (hash_at (0 :: cs_id st :: p) (cs_items st))) tbs)
      as [[tbs1|]| |] eqn:E1; cbn [bind] in E; try discriminate.
    apply (IH tbs1 tbs'); [|assumption]. eapply table_items_sound; eassumption.
  Qed.

  Lemma slr_new_sound fuel p g tb : slr_new teq fuel p g = Val tb ->
    sound (g_start (tb_grammar tb)) (tb_action tb, tb_goto tb).
  Proof.
    unfold slr_new. destruct (from_grammar fuel (0 :: p) g) as [c| |]; cbn [bind]; try discriminate.
    unfold new_slr. destruct (follow_set fuel (0 :: 1 :: p) (cf_grammar c)) as [fs| |]; cbn [bind]; try discriminate.
    destruct (table_states teq (1 :: 1 :: p) (cf_grammar c) fs (cf_states c) ([], [])) as [[[ac gt]|]| |] eqn:E;
      cbn [bind of_option]; try discriminate.
    intros [= <-]. cbn [tb_grammar tb_action tb_goto]. eapply table_states_sound; [|exact E].
    split; cbn [fst snd]; [constructor|constructor|intros ? ? ? ? []].
  Qed.
End Tables.

Section Parse.
  Context {V T : Type} {dv : DecEq V} {dt : DecEq T}.
  Context (teq : T -> T -> bool).
  Hypothesis Hteq : lawful teq.

  Notation act := (key T * action V)%type.

  (** ** Tables with the same look-ups *)

  Lemma alike_nth {R} (f : R -> R -> Prop) l l' n : Forall2 f l l' ->
    match nth_error l n, nth_error l' n with
    | Some x, Some y => f x y
    | None, None => True
    | _, _ => False
    end.
  Proof. intros H. revert n. induction H as [|x y l l' Hxy H IH]; intros [|n]; cbn [nth_error]; auto. apply IH. Qed.

  Record alike (tb tb' : table V T) : Prop := {
    alike_action : Forall2 (fun r r' => forall k, row_get teq (V := V) k r = row_get teq k r') (tb_action tb) (tb_action tb');
    alike_goto : Forall2 (fun r r' => forall v, mget (A := V) (B := nat) v r = mget v r') (tb_goto tb) (tb_goto tb')
  }.

  Lemma handle_alike tb tb' token stack cur : alike tb tb' ->
    handle_token teq tb token stack cur = handle_token teq tb' token stack cur.
  Proof.
    intros [H1 H2]. unfold handle_token. pose proof (alike_nth _ _ _ cur H1) as Hr.
    destruct (nth_error (tb_action tb) cur) as [row|], (nth_error (tb_action tb') cur) as [row'|]; cbn [of_option bind]; try contradiction; [|reflexivity].
    rewrite <- Hr. destruct (row_get teq token row) as [[d|v n|v n]|]; try reflexivity.
    destruct (drain n stack) as [[popped rest]| |]; cbn [bind]; try reflexivity.
    destruct (hd_error rest) as [top|]; cbn [of_option bind]; [|reflexivity].
    pose proof (alike_nth _ _ _ (snd top) H2) as Hg.
    destruct (nth_error (tb_goto tb) (snd top)) as [grow|], (nth_error (tb_goto tb') (snd top)) as [grow'|]; cbn [of_option bind]; try contradiction; [|reflexivity].
    rewrite <- Hg. reflexivity.
  Qed.

  Lemma eof_alike tb tb' : alike tb tb' -> forall fuel stack cur, eof_loop teq fuel tb stack cur = eof_loop teq fuel tb' stack cur.
  Proof.
    intros H. induction fuel as [|fuel IH]; intros stack cur; cbn [eof_loop]; [reflexivity|].
    rewrite (handle_alike tb tb' None stack cur H). destruct (handle_token teq tb' None stack cur) as [[[[[? ?] ?] b]|]| |]; cbn [bind]; try reflexivity.
    destruct b; [reflexivity|]. apply IH.
  Qed.

  Lemma loop_alike {L} (next : L -> res (option T * L)) tb tb' : alike tb tb' -> forall fuel inp tok stack cur,
    parse_loop teq next fuel tb inp tok stack cur = parse_loop teq next fuel tb' inp tok stack cur.
  Proof.
    intros H. induction fuel as [|fuel IH]; intros inp tok stack cur; cbn [parse_loop]; [reflexivity|].
    destruct (match tok with Some t => Val (Some t, inp) | None => next inp end) as [[[t|] inp']| |]; cbn [bind]; try reflexivity.
    - rewrite (handle_alike tb tb' (Some t) stack cur H).
      destruct (handle_token teq tb' (Some t) stack cur) as [[[[[? ?] ?] b]|]| |]; cbn [bind]; try reflexivity.
      destruct b; [reflexivity|]. apply IH.
    - apply eof_alike. assumption.
  Qed.

  (** Without an accept action the nodes on the stack do not matter. *)
  Definition no_accept (tb : table V T) : Prop := forall row k v n, In row (tb_action tb) -> ~ In (k, Accept v n) row.

  Lemma row_get_accept tb cur row k v n : no_accept tb -> nth_error (tb_action tb) cur = Some row ->
    row_get teq k row <> Some (Accept v n).
  Proof.
    intros H E1 E2. apply nth_error_In in E1. apply row_get_in in E2. destruct E2 as (k' & _ & Hi). exact (H _ _ _ _ E1 Hi).
  Qed.

  Definition handled_alike (o o' : res (option (option T * list (parse_node V T) * parse_node V T * bool))) : Prop :=
    match o, o' with
    | Val None, Val None | Panic, Panic | Diverge, Diverge => True
    | Val (Some (t, st, pn, b)), Val (Some (t', st', pn', b')) =>
        t = t' /\ map snd st = map snd st' /\ snd pn = snd pn' /\ b = false /\ b' = false
    | _, _ => False
    end.

  Lemma handle_blind tb token stack stack' cur : no_accept tb -> map snd stack = map snd stack' ->
    handled_alike (handle_token teq tb token stack cur) (handle_token teq tb token stack' cur).
  Proof.
    intros Hn Hs. unfold handle_token. destruct (nth_error (tb_action tb) cur) as [row|] eqn:Er; cbn [of_option bind]; [|exact I].
    destruct (row_get teq token row) as [[d|v n|v n]|] eqn:Eg; [| | |exact I].
    - destruct token as [t|]; cbn [of_option bind handled_alike]; [|exact I]. cbn [snd]. repeat split; assumption.
    - unfold drain. unfold parse_node in *. assert (El : length stack = length stack') by (rewrite <- (map_length snd stack), Hs; apply map_length).
      rewrite El. destruct (Nat.leb n (length stack')); cbn [bind]; [|exact I].
      assert (Ek : map snd (skipn n stack) = map snd (skipn n stack')) by (rewrite <- !skipn_map, Hs; reflexivity).
      destruct (skipn n stack) as [|x xs], (skipn n stack') as [|y ys]; cbn [map] in Ek; try discriminate; cbn [hd_error of_option bind]; [exact I|].
      injection Ek as E1 E2. rewrite E1. destruct (nth_error (tb_goto tb) (snd y)) as [grow|]; cbn [of_option bind]; [|exact I].
      destruct (mget v grow) as [d|]; [|exact I]. cbn [handled_alike map snd]. rewrite E1, E2. repeat split; reflexivity.
    - exfalso. exact (row_get_accept tb cur row token v n Hn Er Eg).
  Qed.

  Lemma eof_blind tb : no_accept tb -> forall fuel stack stack' cur, map snd stack = map snd stack' ->
    eof_loop teq fuel tb stack cur = eof_loop teq fuel tb stack' cur.
  Proof.
    intros Hn. induction fuel as [|fuel IH]; intros stack stack' cur Hs; cbn [eof_loop]; [reflexivity|].
    pose proof (handle_blind tb None stack stack' cur Hn Hs) as H.
    destruct (handle_token teq tb None stack cur) as [[[[[? ?] ?] b]|]| |], (handle_token teq tb None stack' cur) as [[[[[? ?] ?] b']|]| |];
      cbn [handled_alike bind] in *; try contradiction; try reflexivity.
    destruct H as (_ & H1 & H2 & -> & ->). rewrite H2. apply IH. cbn [map]. rewrite H1, H2. reflexivity.
  Qed.

  Lemma loop_blind {L} (next : L -> res (option T * L)) tb : no_accept tb -> forall fuel inp tok stack stack' cur,
    map snd stack = map snd stack' ->
    parse_loop teq next fuel tb inp tok stack cur = parse_loop teq next fuel tb inp tok stack' cur.
  Proof.
    intros Hn. induction fuel as [|fuel IH]; intros inp tok stack stack' cur Hs; cbn [parse_loop]; [reflexivity|].
    destruct (match tok with Some t => Val (Some t, inp) | None => next inp end) as [[[t|] inp']| |]; cbn [bind]; try reflexivity.
    - pose proof (handle_blind tb (Some t) stack stack' cur Hn Hs) as H.
      destruct (handle_token teq tb (Some t) stack cur) as [[[[[? ?] ?] b]|]| |], (handle_token teq tb (Some t) stack' cur) as [[[[[? ?] ?] b']|]| |];
        cbn [handled_alike bind] in *; try contradiction; try reflexivity.
      destruct H as (-> & H1 & H2 & -> & ->). rewrite H2. apply IH. cbn [map]. rewrite H1, H2. reflexivity.
    - apply eof_blind; assumption.
  Qed.

  Lemma parse_alike {L} (next : L -> res (option T * L)) tb tb' fuel inp : alike tb tb' ->
    g_start (tb_grammar tb) = g_start (tb_grammar tb') \/ no_accept tb' ->
    parse_from teq next fuel tb inp = parse_from teq next fuel tb' inp.
  Proof.
    intros H Hs. unfold parse_from. rewrite (loop_alike next tb tb' H). destruct Hs as [->|Hn]; [reflexivity|].
    apply loop_blind; [assumption|reflexivity].
  Qed.

  (** ** The same text *)

  Context (dbg_v : V -> dbg) (dbg_t : T -> dbg).
  Hypothesis Hv : telling dbg_v.
  Hypothesis Ht : telling dbg_t.

  Lemma telling_key : telling (dbg_key dbg_t).
  Proof.
    destruct Ht as [Ht1 Ht2]. split.
    - intros [t|]; cbn [dbg_key]; [apply tame_tuple; [word|]; tames; auto|constructor; [discriminate|word]].
    - intros [t|] [t'|] E; try discriminate; [|reflexivity]. injection E as E. f_equal. auto.
  Qed.
  Lemma telling_action : telling (dbg_action dbg_v).
  Proof.
    destruct Hv as [Hv1 Hv2]. destruct telling_nat as [Hn1 Hn2]. split.
    - intros [d|v n|v n]; cbn [dbg_action]; (apply tame_struct; [discriminate|word|]); tames; auto.
    - intros [d|v n|v n] [d'|v' n'|v' n'] E; try discriminate; unfold dbg_action, dstruct in E; cbn [map fst snd] in E.
      + f_equal. apply Hn2. congruence.
      + f_equal; [apply Hv2|apply Hn2]; congruence.
      + f_equal; [apply Hv2|apply Hn2]; congruence.
  Qed.

  Lemma tame_slr (ho : HashOrder) p (tb : table V T) : tame (dbg_slr dbg_v dbg_t p tb).
  Proof.
    destruct Hv as [Hv1 _]. destruct telling_key as [Hk1 _]. destruct telling_action as [Ha1 _]. destruct telling_nat as [Hn1 _].
    unfold dbg_slr, dbg_table. apply tame_struct; [discriminate|word|]. tames. apply tame_struct; [discriminate|word|]. tames.
    - apply tame_list. apply Forall_forall. intros d Hd. apply in_map_iff in Hd. destruct Hd as [r [<- _]].
      apply tame_map. apply Forall_forall. intros e He. apply in_map_iff in He. destruct He as [x [<- _]]. split; cbn [fst snd]; auto.
    - apply tame_list. apply Forall_forall. intros d Hd. apply in_map_iff in Hd. destruct Hd as [r [<- _]].
      apply tame_map. apply Forall_forall. intros e He. apply in_map_iff in He. destruct He as [x [<- _]]. split; cbn [fst snd]; auto.
  Qed.

  (** Lists of maps with the same texts: the rows are the same up to order. *)
  Lemma maps_same {A B} (ho ho' : HashOrder) (f : A -> dbg) (h : B -> dbg) (p p' : nat -> list nat) :
    (forall x y, f x = f y -> x = y) -> (forall x y, h x = h y -> x = y) ->
    forall (rows rows' : list (nat * list (A * B))),
    map (fun r => dmap (map (fun e => (f (fst e), h (snd e))) (hash_at (HashOrder := ho) (p (fst r)) (snd r)))) rows =
    map (fun r => dmap (map (fun e => (f (fst e), h (snd e))) (hash_at (HashOrder := ho') (p' (fst r)) (snd r)))) rows' ->
    Forall2 (fun r r' => Permutation r r') (map snd rows) (map snd rows').
  Proof.
    intros Hf Hh. induction rows as [|[i r] rows IH]; intros [|[i' r'] rows'] E; cbn [map fst snd] in E |- *; try discriminate; [constructor|].
    injection E as E1 E2. constructor; [|apply IH; assumption].
    apply map_inj in E1; [|intros [x1 x2] [y1 y2] _ K; cbn in K; congruence].
    apply map_inj in E1; [|intros [x1 x2] [y1 y2] _ K; cbn [fst snd] in K; injection K as K1 K2; f_equal; auto].
    transitivity (hash_at (HashOrder := ho) (p i) r); [symmetry; apply hash_at_perm|]. rewrite E1. apply hash_at_perm.
  Qed.

  Lemma slr_dbg_rows (ho ho' : HashOrder) p p' (tb tb' : table V T) :
    dbg_slr (ho := ho) dbg_v dbg_t p tb = dbg_slr (ho := ho') dbg_v dbg_t p' tb' ->
    Forall2 (fun r r' => Permutation r r') (tb_action tb) (tb_action tb') /\
    Forall2 (fun r r' => Permutation r r') (tb_goto tb) (tb_goto tb').
  Proof.
    intros E. unfold dbg_slr, dbg_table, dstruct in E. cbn [map fst snd] in E. injection E as E1 E2.
    apply map_inj in E1; [|intros ? ? _ K; congruence]. apply map_inj in E2; [|intros ? ? _ K; congruence].
    destruct Hv as [_ Hv2]. destruct telling_key as [_ Hk2]. destruct telling_action as [_ Ha2]. destruct telling_nat as [_ Hn2].
    rewrite <- (map_snd_enumerate (tb_action tb)), <- (map_snd_enumerate (tb_action tb')).
    rewrite <- (map_snd_enumerate (tb_goto tb)), <- (map_snd_enumerate (tb_goto tb')). split.
    - exact (maps_same ho ho' (dbg_key dbg_t) (dbg_action dbg_v) (fun i => i :: 0 :: p) (fun i => i :: 0 :: p') Hk2 Ha2 _ _ E1).
    - exact (maps_same ho ho' dbg_v dbg_nat (fun i => i :: 1 :: p) (fun i => i :: 1 :: p') Hv2 Hn2 _ _ E2).
  Qed.

  Lemma distinct_lookup (r r' : list act) : distinct teq r -> Permutation r r' -> forall k, row_get teq k r = row_get teq k r'.
  Proof.
    intros Hd Hp k. destruct (row_get teq k r) as [a|] eqn:E.
    - apply row_get_in in E. destruct E as (k' & Ek & Hi). symmetry. eapply distinct_get; [assumption| | |exact Ek].
      + eapply distinct_perm; eassumption.
      + eapply Permutation_in; eassumption.
    - symmetry. rewrite row_get_none in E |- *. intros k' a Hi. apply (E k' a). eapply Permutation_in; [symmetry; eassumption|assumption].
  Qed.

  Lemma nodup_lookup (r r' : list (V * nat)) : NoDup (map fst r) -> Permutation r r' -> forall v, mget v r = mget v r'.
  Proof.
    assert (G : forall (l : list (V * nat)) v d, NoDup (map fst l) -> In (v, d) l -> mget v l = Some d).
    { induction l as [|[u x] l IH]; intros v d Hn Hi; [destruct Hi|]. cbn [mget]. inversion Hn as [|? ? H1 H2]; subst.
      destruct Hi as [[= -> ->]|Hi]; [rewrite eqb_refl; reflexivity|].
      destruct (eqb v u) eqn:E; [|apply IH; assumption]. apply eqb_eq in E. subst u. exfalso. apply H1.
      apply in_map_iff. exists (v, d). split; [reflexivity|assumption]. }
    assert (K : forall (l : list (V * nat)) v d, mget v l = Some d -> In (v, d) l).
    { induction l as [|[u x] l IH]; intros v d E; cbn [mget] in E; [discriminate|].
      destruct (eqb v u) eqn:Eu; [apply eqb_eq in Eu; subst; injection E as <-; left; reflexivity|right; apply IH; assumption]. }
    intros Hn Hp v. assert (Hn' : NoDup (map fst r')) by (eapply Permutation_NoDup; [apply Permutation_map; exact Hp|assumption]).
    destruct (mget v r) as [d|] eqn:E.
    - symmetry. apply G; [assumption|]. eapply Permutation_in; [exact Hp|]. apply K. assumption.
    - destruct (mget v r') as [d|] eqn:E'; [|reflexivity]. apply K in E'.
      rewrite (G r v d) in E; [discriminate|assumption|]. eapply Permutation_in; [symmetry; exact Hp|assumption].
  Qed.

  Lemma slr_text_parse (ho ho' po po' : HashOrder) fuel fuel' q q' g g' tb tb' p p' :
    slr_new (ho := ho) teq fuel q g = Val tb -> slr_new (ho := ho') teq fuel' q' g' = Val tb' ->
    dbg_slr (ho := po) dbg_v dbg_t p tb = dbg_slr (ho := po') dbg_v dbg_t p' tb' ->
    forall L (next : L -> res (option T * L)) n inp, parse_from teq next n tb inp = parse_from teq next n tb' inp.
  Proof.
    intros E E' Ed L next n inp.
    pose proof (slr_new_sound teq Hteq fuel q g tb E) as [H1 H2 H3]. pose proof (slr_new_sound teq Hteq fuel' q' g' tb' E') as [H1' H2' H3'].
    cbn [fst snd] in *. apply slr_dbg_rows in Ed. destruct Ed as [Da Dg].
    assert (Ha : alike tb tb').
    { split.
      - clear - Da H1 Hteq. induction Da as [|r r' l l' Hr Hl IH]; constructor; inversion H1; subst; [|apply IH; assumption].
        intros k. apply distinct_lookup; assumption.
      - clear - Dg H2. induction Dg as [|r r' l l' Hr Hl IH]; constructor; inversion H2; subst; [|apply IH; assumption].
        intros k. apply nodup_lookup; assumption. }
    apply parse_alike; [assumption|].
    destruct (existsb (fun row => existsb (fun e => match snd e with Accept _ _ => true | _ => false end) row) (tb_action tb')) eqn:Ex.
    - left. apply existsb_exists in Ex. destruct Ex as [row [Hr Ex]]. apply existsb_exists in Ex. destruct Ex as [[k a] [Hi Ea]].
      destruct a as [d|v m|v m]; try discriminate. rewrite <- (H3' row k v m Hr Hi).
      assert (Hs : exists r, In r (tb_action tb) /\ Permutation r row).
      { clear - Da Hr. induction Da as [|r r' l l' Hp Hl IH]; [destruct Hr|]. destruct Hr as [<-|Hr].
        - exists r. split; [left; reflexivity|assumption].
        - destruct (IH Hr) as [x [Hx Hy]]. exists x. split; [right; assumption|assumption]. }
      destruct Hs as [r [Hr' Hp]]. symmetry. apply (H3 r k v m Hr'). eapply Permutation_in; [symmetry; exact Hp|assumption].
    - right. intros row k v m Hr Hi.
      assert (Ht' : existsb (fun row => existsb (fun e => match snd e with Accept _ _ => true | _ => false end) row) (tb_action tb') = true).
      { apply existsb_exists. exists row. split; [assumption|]. apply existsb_exists. exists (k, Accept v m). split; [assumption|reflexivity]. }
      congruence.
  Qed.
End Parse.
