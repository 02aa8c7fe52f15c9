(** Facts about the parser for all grammars: the tokens in the tree, payloads of
    terminals, and independence of the iteration order of hash tables. *)
From Verif Require Import Base GrammarModel CfsmModel SlrModel SpecCfg GrammarProofs FirstProofs FollowProofs GrammarTotal
  ItemProofs CfsmProofs CfsmCorrect TableProofs SlrTable SlrNew SlrRun SlrMoves SlrSim SlrTerm.

Section Spelled.
  Context {V T : Type}.

  Fixpoint spelled_rev (l : list (node V T)) : list T :=
    match l with [] => [] | c :: r => spelled_rev r ++ spelled c end.

  Lemma spelled_node s (cs : list (node V T)) :
    spelled (Node s cs) = spelled_rev cs ++ match s with Ter t => [t] | _ => [] end.
  Proof.
    cbn [spelled]. apply (f_equal (fun l => l ++ _)). induction cs as [|c cs IH]; [reflexivity|]. cbn [spelled_rev]. rewrite <- IH. reflexivity.
  Qed.

  Lemma spelled_rev_app (l l' : list (node V T)) : spelled_rev (l ++ l') = spelled_rev l' ++ spelled_rev l.
  Proof. induction l as [|c l IH]; cbn; [rewrite app_nil_r; auto|]. rewrite IH, app_assoc. auto. Qed.

  Lemma spelled_to_node (x : tree V T) : spelled (to_node x) = leaves x.
  Proof.
    induction x as [t|v cs IH] using tree_ind2; [reflexivity|]. cbn [to_node leaves]. rewrite spelled_node, app_nil_r.
    induction IH as [|x cs Hx Hcs IH]; [reflexivity|]. cbn [map rev flat_map]. rewrite spelled_rev_app. cbn [spelled_rev app].
    rewrite Hx, IH. reflexivity.
  Qed.
End Spelled.

(** ** The stack of any run *)
Section Stack.
  Context {V T : Type} {dv : DecEq V} {dt : DecEq T}.
  Notation sym := (symbol V T).
  Variable teq : T -> T -> bool.
  Variable g : grammar V T.
  Variable c : cfsm V T.
  Hypothesis Hc : cfsm_ok g c.
  Variable fs : list (V * list sym).
  Hypothesis Hf : exact_follow g fs.
  Variable tb : table V T.
  Hypothesis Htb : table_ok teq g c fs tb.

  Definition seen (pn : parse_node V T) : Prop := exists w, path c 0 w (snd pn).

  Lemma top_seen st : Forall seen st -> exists w, path c 0 w (top st).
  Proof. destruct 1 as [|[n k] st (w & H) _]; [exists []; constructor|exists w; exact H]. Qed.

  Lemma drain_val n (st : list (parse_node V T)) a b : drain n st = Val (a, b) -> a = firstn n st /\ b = skipn n st.
  Proof. unfold drain. destruct (Nat.leb n (length st)); [|discriminate]. intros [= <- <-]. auto. Qed.

  Lemma forall_skipn {A} (P : A -> Prop) n l : Forall P l -> Forall P (skipn n l).
  Proof. intros H. rewrite <- (firstn_skipn n l) in H. apply Forall_app in H. apply H. Qed.

  Lemma handle_some t st o st' n k acc : Forall seen st -> handle_token teq tb (Some t) st (top st) = Val (Some (o, st', (n, k), acc)) ->
    acc = false /\ seen (n, k) /\
    ((o = None /\ st' = st /\ n = Node (Ter t) []) \/
     (o = Some t /\ exists m v, st' = skipn m st /\ n = Node (Var v) (map fst (firstn m st)))).
  Proof.
    intros Hst H. destruct (top_seen st Hst) as (w & Hw). unfold handle_token in H.
    apply bind_val in H. destruct H as (row & Er & H). destruct (nth_error (tb_action tb) (top st)) as [row'|] eqn:E; [|discriminate].
    injection Er as ->. apply (nth_error_nth _ _ []) in E. rewrite <- E in H. clear row E.
    destruct (row_get teq (Some t) (nth (top st) (tb_action tb) [])) as [a|] eqn:Eg; [|discriminate].
    apply row_get_in in Eg. destruct Eg as (k' & Ek & Hin). apply (row_action teq g c Hc fs Hf tb Htb w) in Hin; auto.
    destruct k' as [t'|]; [|discriminate]. destruct a as [d|v m|v m]; [| |destruct Hin].
    - cbn in H. injection H as <- <- <- <- <-. split; auto. split; [|auto]. destruct Hin as [_ Hd]. eexists; exact Hd.
    - apply bind_val in H. destruct H as ([popped rest] & Ed & H). apply drain_val in Ed. destruct Ed as [-> ->].
      apply bind_val in H. destruct H as (tp & Et & H). apply bind_val in H. destruct H as (grow & Egr & H).
      destruct (skipn m st) as [|tp' rest] eqn:Es; [discriminate|]. injection Et as ->.
      destruct (nth_error (tb_goto tb) (snd tp)) as [grow'|] eqn:E; [|discriminate]. injection Egr as ->.
      destruct (mget v grow) as [d|] eqn:Em; [|discriminate]. injection H as <- <- <- <- <-.
      apply (nth_error_nth _ _ []) in E. rewrite <- E in Em.
      pose proof (forall_skipn seen m st Hst) as Hs. rewrite Es in Hs. inversion Hs as [|? ? (w' & Hw') _]; subst.
      apply (row_goto teq g c Hc fs tb Htb w') in Em; auto.
      split; auto. split; [eexists; exact Em|]. right. split; auto. exists m, v. rewrite Es. auto.
  Qed.

  Lemma handle_none st o st' n k acc : Forall seen st -> handle_token teq tb None st (top st) = Val (Some (o, st', (n, k), acc)) ->
    acc = true /\ exists m, st' = skipn m st /\ n = Node (Var (g_start g)) (map fst (firstn m st)).
  Proof.
    intros Hst H. destruct (top_seen st Hst) as (w & Hw). unfold handle_token in H.
    apply bind_val in H. destruct H as (row & Er & H). destruct (nth_error (tb_action tb) (top st)) as [row'|] eqn:E; [|discriminate].
    injection Er as ->. apply (nth_error_nth _ _ []) in E. rewrite <- E in H. clear row E.
    destruct (row_get teq None (nth (top st) (tb_action tb) [])) as [a|] eqn:Eg; [|discriminate].
    apply row_get_in in Eg. destruct Eg as (k' & Ek & Hin). apply (row_action teq g c Hc fs Hf tb Htb w) in Hin; auto.
    destruct k' as [t'|]; [discriminate|]. destruct a as [d|v m|v m]; [destruct Hin|destruct Hin|]. destruct Hin as (-> & _).
    apply bind_val in H. destruct H as ([popped rest] & Ed & H). apply drain_val in Ed. destruct Ed as [-> ->].
    injection H as <- <- <- <- <-. split; auto. exists m. auto.
  Qed.

  Definition spelled_stack (st : list (parse_node V T)) : list T := spelled_rev (map fst st).

  Lemma spelled_split m st : spelled_stack st = spelled_stack (skipn m st) ++ spelled_rev (map fst (firstn m st)).
  Proof. unfold spelled_stack. rewrite <- (firstn_skipn m st) at 1. rewrite map_app, spelled_rev_app. auto. Qed.

  Lemma parse_loop_tokens {L} (next : L -> res (option T * L)) fuel : forall inp tok st n, Forall seen st ->
    parse_loop teq next fuel tb inp tok st (top st) = Val (Some n) ->
    exists ts pre, delivers next inp ts /\ root n = Var (g_start g) /\
      spelled_stack st ++ match tok with Some t => [t] | None => [] end ++ ts = pre ++ spelled n.
  Proof.
    induction fuel as [|fuel IH]; intros inp tok st n Hst H; [discriminate|]. cbn [parse_loop] in H.
    assert (Hstep : forall t inp', (let! o := handle_token teq tb (Some t) st (top st) in
        match o with
        | None => Val None
        | Some (tok2, stack', pn, accept) =>
          if accept : bool then Val (Some (fst pn)) else parse_loop teq next fuel tb inp' tok2 (pn :: stack') (snd pn)
        end) = Val (Some n) ->
      exists ts pre, delivers next inp' ts /\ root n = Var (g_start g) /\ spelled_stack st ++ t :: ts = pre ++ spelled n).
    { clear H. intros t inp' H. apply bind_val in H. destruct H as (o & E & H). destruct o as [[[[tok2 st'] [nd k]] acc]|]; [|discriminate].
      apply handle_some in E; auto. destruct E as (-> & Hseen & Hor).
      assert (Hst' : Forall seen ((nd, k) :: st')).
      { constructor; auto. destruct Hor as [(_ & -> & _)|(_ & m & v & -> & _)]; auto. apply forall_skipn; auto. }
      apply (IH inp' tok2 ((nd, k) :: st') n Hst') in H. destruct H as (ts & pre & Hd & Hr & E). exists ts, pre. split; auto. split; auto.
      rewrite <- E. unfold spelled_stack at 2. cbn [map fst spelled_rev]. destruct Hor as [(-> & -> & ->)|(-> & m & v & -> & ->)].
      - rewrite <- app_assoc. reflexivity.
      - rewrite spelled_node, app_nil_r. fold (spelled_stack (skipn m st)). rewrite <- (spelled_split m st). reflexivity. }
    destruct tok as [t|]; cbn [bind] in H.
    - apply Hstep in H. exact H.
    - apply bind_val in H. destruct H as ([tok' inp'] & En & H). destruct tok' as [t|].
      + apply Hstep in H. destruct H as (ts & pre & Hd & Hr & E). exists (t :: ts), pre. split; [eapply delivers_tok; eauto|]. auto.
      + exists []. destruct fuel as [|fuel]; [discriminate|]. cbn [eof_loop] in H. apply bind_val in H. destruct H as (o & E & H).
        destruct o as [[[[tok2 st'] [nd k]] acc]|]; [|discriminate]. apply handle_none in E; auto. destruct E as (-> & m & -> & ->).
        injection H as <-. exists (spelled_stack (skipn m st)). split; [eapply delivers_end; eauto|]. split; [reflexivity|].
        cbn [fst]. rewrite spelled_node, !app_nil_r. apply spelled_split.
  Qed.

  Theorem parse_from_tokens {L} (next : L -> res (option T * L)) fuel inp n :
    parse_from teq next fuel tb inp = Val (Some n) ->
    exists ts pre, delivers next inp ts /\ root n = Var (g_start g) /\ ts = pre ++ spelled n.
  Proof.
    intros H. apply (parse_loop_tokens next fuel inp None (stack0 tb) n) in H.
    - destruct H as (ts & pre & H1 & H2 & H3). exists ts, pre. auto.
    - repeat constructor. exists []. constructor.
  Qed.

  Theorem parse_tokens fuel ts n : parse teq fuel tb ts = Val (Some n) -> root n = Var (g_start g) /\ exists pre, ts = pre ++ spelled n.
  Proof.
    intros H. apply parse_from_tokens in H. destruct H as (ts' & pre & H1 & H2 & H3).
    assert (ts' = ts) as ->.
    { clear - H1. remember ts as l eqn:E in H1. revert ts E. induction H1 as [l l' H|l t l' ts' H H1 IH]; intros ts ->.
      - destruct ts; [auto|discriminate].
      - destruct ts; [discriminate|]. injection H as <- <-. f_equal; auto. }
    split; auto. exists pre. auto.
  Qed.
End Stack.

(** ** Payloads of terminals *)
Section Alike.
  Context {V T : Type} {dv : DecEq V} {dt : DecEq T}.
  Variable teq : T -> T -> bool.
  Hypothesis Hteq : lawful teq.
  Variable tb : table V T.

  Definition alike_pn (x y : parse_node V T) : Prop := alike teq (fst x) (fst y) /\ snd x = snd y.
  Definition alike_res (r r' : res (option (node V T))) : Prop :=
    match r, r' with
    | Val (Some n), Val (Some n') => alike teq n n'
    | Val None, Val None => True
    | Panic, Panic => True
    | Diverge, Diverge => True
    | _, _ => False
    end.

  Definition alike_step (r r' : res (option (option T * list (parse_node V T) * parse_node V T * bool))) : Prop :=
    match r, r' with
    | Val (Some (o, st, pn, acc)), Val (Some (o', st', pn', acc')) =>
        (match o, o' with Some _, Some _ => True | None, None => True | _, _ => False end) /\
        Forall2 alike_pn st st' /\ alike_pn pn pn' /\ acc = acc'
    | Val None, Val None => True
    | Panic, Panic => True
    | _, _ => False
    end.

  Lemma row_get_alike k k' row : key_eq teq k k' = true -> row_get teq (V := V) k row = row_get teq k' row.
  Proof.
    intros E. induction row as [|[k1 a] row IH]; [reflexivity|]. cbn [row_get].
    assert (Hk : key_eq teq k k1 = key_eq teq k' k1).
    { destruct (key_eq teq k k1) eqn:E1; destruct (key_eq teq k' k1) eqn:E2; auto.
      - rewrite <- E2. symmetry. eapply (key_eq_trans teq Hteq); [|exact E1]. rewrite (key_eq_sym teq Hteq). auto.
      - rewrite <- E1. eapply (key_eq_trans teq Hteq); eauto. }
    rewrite Hk, IH. reflexivity.
  Qed.

  Lemma alike_top st st' : Forall2 alike_pn st st' -> top st = top st'.
  Proof. destruct 1 as [|[n k] [n' k'] st st' [_ H] _]; auto. Qed.

  Lemma forall2_firstn {A B} (R : A -> B -> Prop) m l l' : Forall2 R l l' -> Forall2 R (firstn m l) (firstn m l').
  Proof. intros H. revert m. induction H; intros [|m]; cbn; auto. Qed.
  Lemma forall2_skipn {A B} (R : A -> B -> Prop) m l l' : Forall2 R l l' -> Forall2 R (skipn m l) (skipn m l').
  Proof. intros H. revert m. induction H; intros [|m]; cbn; auto. Qed.
  Lemma alike_nodes l l' : Forall2 alike_pn l l' -> Forall2 (alike teq) (map fst l) (map fst l').
  Proof. induction 1 as [|x y l l' [H _] _ IH]; cbn; auto. Qed.

  Lemma handle_alike k k' st st' : (match k, k' with Some t, Some t' => teq t t' = true | None, None => True | _, _ => False end) ->
    Forall2 alike_pn st st' -> alike_step (handle_token teq tb k st (top st)) (handle_token teq tb k' st' (top st')).
  Proof.
    intros Hk Hst. rewrite <- (alike_top _ _ Hst). unfold handle_token.
    destruct (nth_error (tb_action tb) (top st)) as [row|]; [|exact I]. cbn [of_option bind].
    assert (Ek : key_eq teq k k' = true) by (destruct k, k'; cbn; auto; tauto).
    rewrite <- (row_get_alike k k' row Ek). destruct (row_get teq k row) as [[d|v m|v m]|]; [| | |exact I].
    - destruct k as [t|], k' as [t'|]; try (exact I); try (destruct Hk; fail). cbn. repeat split; auto; cbn; auto; constructor; auto.
    - unfold drain. rewrite <- (forall2_length _ _ _ Hst). destruct (Nat.leb m (length st)); [|exact I]. cbn [bind].
      pose proof (forall2_skipn _ m _ _ Hst) as Hs. destruct Hs as [|[n1 k1] [n2 k2] s1 s2 [Hn E] Hs]; [exact I|].
      cbn [hd_error of_option bind snd] in *. subst k2. destruct (nth_error (tb_goto tb) k1) as [grow|]; [|exact I]. cbn [of_option bind].
      destruct (mget v grow) as [d|]; [|exact I]. split; [destruct k, k'; auto|]. split; [constructor; auto; split; auto|].
      split; auto. split; auto. cbn. constructor; [reflexivity|]. apply alike_nodes. apply forall2_firstn. auto.
    - unfold drain. rewrite <- (forall2_length _ _ _ Hst). destruct (Nat.leb m (length st)); [|exact I]. cbn [bind].
      split; [destruct k, k'; auto|]. split; [apply forall2_skipn; auto|]. split; auto. split; auto. cbn.
      constructor; [reflexivity|]. apply alike_nodes. apply forall2_firstn. auto.
  Qed.

  Lemma eof_alike fuel : forall st st', Forall2 alike_pn st st' ->
    alike_res (eof_loop teq fuel tb st (top st)) (eof_loop teq fuel tb st' (top st')).
  Proof.
    induction fuel as [|fuel IH]; intros st st' Hst; [exact I|]. cbn [eof_loop].
    pose proof (handle_alike None None st st' I Hst) as H.
    destruct (handle_token teq tb None st (top st)) as [[[[[o s] pn] acc]|]| |];
      destruct (handle_token teq tb None st' (top st')) as [[[[[o' s'] pn'] acc']|]| |]; cbn in H; try tauto; try exact I.
    destruct H as (_ & H1 & H2 & <-). cbn [bind]. destruct acc; [apply H2|].
    destruct pn as [n k], pn' as [n' k']. apply (IH ((n, k) :: s) ((n', k') :: s')). constructor; auto.
  Qed.

  Lemma ploop_alike fuel : forall rem rem' st st', Forall2 (fun t t' => teq t t' = true) rem rem' -> Forall2 alike_pn st st' ->
    alike_res (ploop teq tb fuel rem st) (ploop teq tb fuel rem' st').
  Proof.
    induction fuel as [|fuel IH]; intros rem rem' st st' Hr Hst; [exact I|]. cbn [ploop].
    destruct Hr as [|t t' rem rem' Ht Hr]; [apply eof_alike; auto|].
    pose proof (handle_alike (Some t) (Some t') st st' Ht Hst) as H.
    destruct (handle_token teq tb (Some t) st (top st)) as [[[[[o s] pn] acc]|]| |];
      destruct (handle_token teq tb (Some t') st' (top st')) as [[[[[o' s'] pn'] acc']|]| |]; cbn in H; try tauto; try exact I.
    destruct H as (H0 & H1 & H2 & <-). cbn [bind]. destruct acc; [apply H2|].
    apply IH; [|constructor; auto]. destruct o, o'; try tauto. constructor; auto.
  Qed.

  Theorem parse_alike fuel ts ts' : Forall2 (fun t t' => teq t t' = true) ts ts' ->
    alike_res (parse teq fuel tb ts) (parse teq fuel tb ts').
  Proof.
    intros H. rewrite !parse_ploop. apply ploop_alike; auto. repeat constructor.
  Qed.
End Alike.

(** ** Iteration order of hash tables *)
Section Orders.
  Context {V T : Type} {dv : DecEq V} {dt : DecEq T}.
  Notation sym := (symbol V T).
  Variable teq : T -> T -> bool.
  Hypothesis Hteq : lawful teq.
  Variable g : grammar V T.
  Hypothesis Hgood : good g.
  Variables c1 c2 : cfsm V T.
  Hypothesis Hc1 : cfsm_ok g c1.
  Hypothesis Hc2 : cfsm_ok g c2.
  Variables fs1 fs2 : list (V * list sym).
  Hypothesis Hf1 : exact_follow g fs1.
  Hypothesis Hf2 : exact_follow g fs2.
  Variables tb1 tb2 : table V T.
  Hypothesis Htb1 : table_ok teq g c1 fs1 tb1.
  Hypothesis Htb2 : table_ok teq g c2 fs2 tb2.

  Definition meet (i j : nat) : Prop := exists w, path c1 0 w i /\ path c2 0 w j.
  Definition same_pn (x y : parse_node V T) : Prop := fst x = fst y /\ meet (snd x) (snd y).
  Definition same_act (a b : action V) : Prop :=
    match a, b with
    | Shift i, Shift j => meet i j
    | Reduce v n, Reduce v' n' => v = v' /\ n = n'
    | Accept v n, Accept v' n' => v = v' /\ n = n'
    | _, _ => False
    end.
End Orders.

Section Lookup.
  Context {V T : Type} {dv : DecEq V} {dt : DecEq T}.
  Notation sym := (symbol V T).
  Variable teq : T -> T -> bool.
  Hypothesis Hteq : lawful teq.
  Variable g : grammar V T.
  Hypothesis Hgood : good g.

  Lemma row_get_meet c1 c2 fs1 fs2 tb1 tb2 :
    cfsm_ok g c1 -> cfsm_ok g c2 -> exact_follow g fs1 -> exact_follow g fs2 ->
    table_ok teq g c1 fs1 tb1 -> table_ok teq g c2 fs2 tb2 ->
    (has_entry g fs1 -> has_entry g fs2) ->
    forall w i j k a, path c1 0 w i -> path c2 0 w j -> row_get teq k (nth i (tb_action tb1) []) = Some a ->
    exists b, row_get teq k (nth j (tb_action tb2) []) = Some b /\ same_act c1 c2 a b.
  Proof.
    intros Hc1 Hc2 Hf1 Hf2 Ht1 Ht2 He w i j k a Hi Hj H. apply row_get_in in H. destruct H as (k' & Ek & Hin).
    apply (row_action teq g c1 Hc1 fs1 Hf1 tb1 Ht1 w) in Hin; auto.
    destruct k' as [t'|], a as [d|v m|v m]; try (destruct Hin; fail).
    - destruct Hin as [Hl Hd]. destruct (path_lr0 g Hgood c1 Hc1 _ _ Hd) as (d0 & Hl0). destruct (lr0_path g c2 Hc2 _ _ Hl0) as (d2 & Hd2).
      exists (Shift d2). split; [|exists (w ++ [Ter t']); auto].
      eapply (action_get teq Hteq g c2 Hc2 fs2 tb2 Ht2 w); eauto.
      apply (row_action teq g c2 Hc2 fs2 Hf2 tb2 Ht2 w); auto.
    - exists (Reduce v m). split; [|cbn; auto]. eapply (action_get teq Hteq g c2 Hc2 fs2 tb2 Ht2 w); eauto.
      apply (row_action teq g c2 Hc2 fs2 Hf2 tb2 Ht2 w); eauto.
    - destruct Hin as (-> & Hx & Hm). exists (Accept (g_start g) m). split; [|cbn; auto].
      eapply (action_get teq Hteq g c2 Hc2 fs2 tb2 Ht2 w); eauto.
      apply (row_action teq g c2 Hc2 fs2 Hf2 tb2 Ht2 w); auto. split; auto. split; auto. apply He. exact Hm.
  Qed.
End Lookup.

Section Lockstep.
  Context {V T : Type} {dv : DecEq V} {dt : DecEq T}.
  Notation sym := (symbol V T).
  Variable teq : T -> T -> bool.
  Hypothesis Hteq : lawful teq.
  Variable g : grammar V T.
  Hypothesis Hgood : good g.
  Variables c1 c2 : cfsm V T.
  Hypothesis Hc1 : cfsm_ok g c1.
  Hypothesis Hc2 : cfsm_ok g c2.
  Variables fs1 fs2 : list (V * list sym).
  Hypothesis Hf1 : exact_follow g fs1.
  Hypothesis Hf2 : exact_follow g fs2.
  Variables tb1 tb2 : table V T.
  Hypothesis Htb1 : table_ok teq g c1 fs1 tb1.
  Hypothesis Htb2 : table_ok teq g c2 fs2 tb2.
  Hypothesis Hent : has_entry g fs1 <-> has_entry g fs2.

  Notation meet := (meet c1 c2).
  Notation same_pn := (same_pn c1 c2).

  Lemma meet_sym i j : meet i j -> SlrAll.meet c2 c1 j i.
  Proof. intros (w & H1 & H2). exists w. auto. Qed.

  Lemma rows_meet w i j k : path c1 0 w i -> path c2 0 w j ->
    match row_get teq k (nth i (tb_action tb1) []), row_get teq k (nth j (tb_action tb2) []) with
    | Some a, Some b => same_act c1 c2 a b
    | None, None => True
    | _, _ => False
    end.
  Proof.
    intros Hi Hj. destruct (row_get teq k (nth i (tb_action tb1) [])) as [a|] eqn:E1.
    - destruct (row_get_meet teq Hteq g Hgood c1 c2 fs1 fs2 tb1 tb2 Hc1 Hc2 Hf1 Hf2 Htb1 Htb2 (proj1 Hent) w i j k a Hi Hj E1) as (b & -> & H). exact H.
    - destruct (row_get teq k (nth j (tb_action tb2) [])) as [b|] eqn:E2; [|exact I].
      destruct (row_get_meet teq Hteq g Hgood c2 c1 fs2 fs1 tb2 tb1 Hc2 Hc1 Hf2 Hf1 Htb2 Htb1 (proj2 Hent) w j i k b Hj Hi E2) as (a & E & _).
      congruence.
  Qed.

  Lemma gotos_meet w i j v : path c1 0 w i -> path c2 0 w j ->
    match mget v (nth i (tb_goto tb1) []), mget v (nth j (tb_goto tb2) []) with
    | Some a, Some b => meet a b
    | None, None => True
    | _, _ => False
    end.
  Proof.
    intros Hi Hj. destruct (mget v (nth i (tb_goto tb1) [])) as [a|] eqn:E1.
    - apply (row_goto teq g c1 Hc1 fs1 tb1 Htb1 w) in E1; auto.
      destruct (path_lr0 g Hgood c1 Hc1 _ _ E1) as (d0 & Hl0). destruct (lr0_path g c2 Hc2 _ _ Hl0) as (d2 & Hd2).
      pose proof (proj2 (row_goto teq g c2 Hc2 fs2 tb2 Htb2 w j v d2 Hj) Hd2) as E2. rewrite E2. exists (w ++ [Var v]). auto.
    - destruct (mget v (nth j (tb_goto tb2) [])) as [b|] eqn:E2; [|exact I].
      apply (row_goto teq g c2 Hc2 fs2 tb2 Htb2 w) in E2; auto.
      destruct (path_lr0 g Hgood c2 Hc2 _ _ E2) as (d0 & Hl0). destruct (lr0_path g c1 Hc1 _ _ Hl0) as (d1 & Hd1).
      pose proof (proj2 (row_goto teq g c1 Hc1 fs1 tb1 Htb1 w i v d1 Hi) Hd1) as E. congruence.
  Qed.

  Definition same_step (r r' : res (option (option T * list (parse_node V T) * parse_node V T * bool))) : Prop :=
    (failed r /\ failed r') \/
    exists o st st' pn pn' acc, r = Val (Some (o, st, pn, acc)) /\ r' = Val (Some (o, st', pn', acc)) /\
      Forall2 same_pn st st' /\ fst pn = fst pn' /\ (acc = false -> same_pn pn pn').

  Lemma top_meet st st' : Forall2 same_pn st st' -> meet (top st) (top st').
  Proof.
    destruct 1 as [|[n k] [n' k'] st st' [_ H] _]; [exists []; split; constructor|exact H].
  Qed.

  Lemma same_nodes l l' : Forall2 same_pn l l' -> map fst l = map fst l'.
  Proof. induction 1 as [|x y l l' [H _] _ IH]; cbn; congruence. Qed.

  Lemma lookup_some {A} (l : list (list A)) i : nth_error l i = Some (nth i l []) \/ (nth_error l i = None /\ nth i l [] = []).
  Proof.
    destruct (Nat.lt_ge_cases i (length l)) as [H|H].
    - left. apply nth_error_nth'. auto.
    - right. split; [apply nth_error_None; auto|apply nth_overflow; auto].
  Qed.

  Lemma handle_same k st st' : Forall2 same_pn st st' ->
    same_step (handle_token teq tb1 k st (top st)) (handle_token teq tb2 k st' (top st')).
  Proof.
    intros Hst. destruct (top_meet _ _ Hst) as (w & Hi & Hj). pose proof (rows_meet w _ _ k Hi Hj) as Hrow.
    unfold handle_token.
    assert (Hfail : forall (tb : table V T) s,
      row_get teq k (nth (top s) (tb_action tb) []) = None ->
      failed (A := option T * list (parse_node V T) * parse_node V T * bool) (let! row := of_option (nth_error (tb_action tb) (top s)) in
        match row_get teq k row with
        | Some (Shift d) => let! t := of_option k in Val (Some (None, s, (Node (Ter t) [], d), false))
        | Some (Reduce v amount) =>
            let! (popped, rest) := drain amount s in
            let! tp := of_option (hd_error rest) in
            let! grow := of_option (nth_error (tb_goto tb) (snd tp)) in
            match mget v grow with
            | Some d => Val (Some (k, rest, (Node (Var v) (map fst popped), d), false))
            | None => Val None
            end
        | Some (Accept v amount) =>
            let! (popped, rest) := drain amount s in Val (Some (k, rest, (Node (Var v) (map fst popped), 0), true))
        | None => Val None
        end)).
    { intros tb s E. destruct (lookup_some (tb_action tb) (top s)) as [E1|[E1 _]]; rewrite E1; cbn [of_option bind]; [|right; auto].
      rewrite E. left; auto. }
    destruct (row_get teq k (nth (top st) (tb_action tb1) [])) as [a|] eqn:E1;
      destruct (row_get teq k (nth (top st') (tb_action tb2) [])) as [b|] eqn:E2; try tauto.
    2:{ left. split; apply Hfail; auto. }
    clear Hfail.
    destruct (lookup_some (tb_action tb1) (top st)) as [L1|[_ L1]]; [|rewrite L1 in E1; discriminate].
    destruct (lookup_some (tb_action tb2) (top st')) as [L2|[_ L2]]; [|rewrite L2 in E2; discriminate].
    rewrite L1, L2. cbn [of_option bind]. rewrite E1, E2.
    destruct a as [d|v m|v m], b as [d'|v' m'|v' m']; try (destruct Hrow; fail).
    - destruct k as [t|]; [|left; split; right; reflexivity]. right. cbn. do 6 eexists. split; [reflexivity|]. split; [reflexivity|].
      split; auto. split; auto. intros _. split; auto.
    - destruct Hrow as [<- <-]. unfold drain. rewrite <- (forall2_length _ _ _ Hst). destruct (Nat.leb m (length st)); [|left; split; right; reflexivity].
      cbn [bind]. pose proof (forall2_skipn _ m _ _ Hst) as Hs. destruct Hs as [|[n1 k1] [n2 k2] s1 s2 [Hn Hm] Hs]; [left; split; right; reflexivity|].
      cbn [hd_error of_option bind fst snd] in *. subst n2. destruct Hm as (w' & Hi' & Hj'). pose proof (gotos_meet w' _ _ v Hi' Hj') as Hgo.
      destruct (lookup_some (tb_goto tb1) k1) as [G1|[G1 G1']]; destruct (lookup_some (tb_goto tb2) k2) as [G2|[G2 G2']]; rewrite G1, G2; cbn [of_option bind].
      + destruct (mget v (nth k1 (tb_goto tb1) [])) as [d1|]; destruct (mget v (nth k2 (tb_goto tb2) [])) as [d2|]; try tauto.
        * right. do 6 eexists. split; [reflexivity|]. split; [reflexivity|]. split; [constructor; [split; [reflexivity|exists w'; auto]|auto]|].
          cbn [fst]. rewrite (same_nodes _ _ (forall2_firstn _ m _ _ Hst)). split; auto. intros _. split; auto.
        * left. split; left; reflexivity.
      + rewrite G2' in Hgo. cbn in Hgo. destruct (mget v (nth k1 (tb_goto tb1) [])); [tauto|]. left. split; [left|right]; reflexivity.
      + rewrite G1' in Hgo. cbn in Hgo. destruct (mget v (nth k2 (tb_goto tb2) [])); [tauto|]. left. split; [right|left]; reflexivity.
      + left. split; right; reflexivity.
    - destruct Hrow as [<- <-]. unfold drain. rewrite <- (forall2_length _ _ _ Hst). destruct (Nat.leb m (length st)); [|left; split; right; reflexivity].
      cbn [bind]. right. do 6 eexists. split; [reflexivity|]. split; [reflexivity|]. split; [apply forall2_skipn; auto|].
      cbn [fst]. rewrite (same_nodes _ _ (forall2_firstn _ m _ _ Hst)). split; auto. discriminate.
  Qed.

  Lemma failed_bind {A B} (r : res (option A)) (f : A -> res (option B)) : failed r ->
    failed (let! o := r in match o with None => Val None | Some x => f x end).
  Proof. intros [-> | ->]; [left|right]; reflexivity. Qed.

  Lemma eof_same fuel : forall st st', Forall2 same_pn st st' ->
    agree (eof_loop teq fuel tb1 st (top st)) (eof_loop teq fuel tb2 st' (top st')).
  Proof.
    induction fuel as [|fuel IH]; intros st st' Hst; [right; right; auto|]. cbn [eof_loop].
    destruct (handle_same None st st' Hst) as [[[-> | ->] [-> | ->]]|(o & s & s' & pn & pn' & acc & -> & -> & Hs & Hpn & Hacc)];
      try (right; left; split; [left + right|left + right]; reflexivity).
    cbn [bind]. destruct acc.
    - left. exists (fst pn). rewrite Hpn. auto.
    - specialize (Hacc eq_refl). destruct pn as [n k], pn' as [n' k']. apply (IH ((n, k) :: s) ((n', k') :: s')). constructor; auto.
  Qed.

  Lemma ploop_same fuel : forall rem st st', Forall2 same_pn st st' -> agree (ploop teq tb1 fuel rem st) (ploop teq tb2 fuel rem st').
  Proof.
    induction fuel as [|fuel IH]; intros rem st st' Hst; [right; right; auto|]. cbn [ploop].
    destruct rem as [|t rem]; [apply eof_same; auto|].
    destruct (handle_same (Some t) st st' Hst) as [[[-> | ->] [-> | ->]]|(o & s & s' & pn & pn' & acc & -> & -> & Hs & Hpn & Hacc)];
      try (right; left; split; [left + right|left + right]; reflexivity).
    cbn [bind]. destruct acc.
    - left. exists (fst pn). rewrite Hpn. auto.
    - specialize (Hacc eq_refl). apply IH. constructor; auto.
  Qed.

  Theorem parse_same fuel ts : agree (parse teq fuel tb1 ts) (parse teq fuel tb2 ts).
  Proof.
    rewrite !parse_ploop. apply ploop_same. constructor; [|constructor]. split.
    - cbn. rewrite (to_grammar _ _ _ _ _ Htb1), (to_grammar _ _ _ _ _ Htb2). reflexivity.
    - exists []. split; constructor.
  Qed.
End Lockstep.
