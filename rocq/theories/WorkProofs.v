(** The counts of [WorkModel] (C99): they do not change what is computed, and
    the turns are polynomially many. *)
From Verif Require Import Base GrammarModel CfsmModel SpecCfg GrammarProofs FirstProofs FollowProofs GrammarTotal WorkModel.
From Verif Require Import DotProofs.

(** ** Counting changes nothing *)
Section Same.
  Context {V T : Type} {dv : DecEq V} {dt : DecEq T} {ho : HashOrder}.

  Lemma loop_same fuel p (g : grammar V T) : forall st,
    first_loop fuel p g st = let! (r, _) := work_loop fuel p g st in Val r.
  Proof.
    induction fuel as [|fuel IH]; intros st; cbn [first_loop work_loop]; destruct (f_pending st) as [|[o bs] rest]; try reflexivity.
    destruct (first_entry p g o bs _) as [st1| |]; cbn [bind]; try reflexivity. rewrite IH.
    destruct (work_loop fuel p g st1) as [[r c]| |]; reflexivity.
  Qed.

  Lemma body_same fuel p (g : grammar V T) bd : first_body fuel p g bd = let! (r, _) := work_body fuel p g bd in Val r.
  Proof.
    unfold first_body, first_bodies, work_body. rewrite loop_same.
    destruct (work_loop fuel p g _) as [[r c]| |]; reflexivity.
  Qed.

  Lemma scan_same fuel p (g : grammar V T) head rest : forall st,
    follow_scan fuel p g head rest st = let! (r, _) := work_scan fuel p g head rest st in Val r.
  Proof.
    induction rest as [|[t|v|] tl IH]; intros st; cbn [follow_scan work_scan]; auto.
    destruct tl as [|s tl]; [reflexivity|]. set (rest := s :: tl) in *. rewrite body_same.
    destruct (work_body fuel _ g rest) as [[f c]| |]; cbn [bind]; try reflexivity. rewrite IH.
    destruct (work_scan fuel p g head rest _) as [[r c']| |]; reflexivity.
  Qed.

  Lemma rules_same fuel p (g : grammar V T) rs : forall st,
    follow_rules fuel p g rs st = let! (r, _) := work_rules fuel p g rs st in Val r.
  Proof.
    induction rs as [|[i [head bd]] rs IH]; intros st; cbn [follow_rules work_rules]; [reflexivity|].
    rewrite scan_same. destruct (work_scan fuel (i :: p) g head bd st) as [[s c]| |]; cbn [bind]; try reflexivity.
    rewrite IH. destruct (work_rules fuel p g rs s) as [[r c']| |]; reflexivity.
  Qed.

  Lemma follow_same fuel p deps : forall queue (result : list (V * list (symbol V T))),
    follow_loop fuel p deps queue result = let! (r, _) := work_follow fuel p deps queue result in Val r.
  Proof.
    induction fuel as [|fuel IH]; intros queue result; cbn [follow_loop work_follow]; destruct queue as [|[lhs rhs] rest]; try reflexivity.
    destruct (mget rhs result) as [fr|]; rewrite IH; match goal with |- context [work_follow fuel p deps ?a ?b] => destruct (work_follow fuel p deps a b) as [[r c]| |] end; reflexivity.
  Qed.

  Lemma set_same fuel p (g : grammar V T) : follow_set fuel p g = let! (r, _) := work_set fuel p g in Val (fst r).
  Proof.
    unfold follow_set, work_set. rewrite rules_same. destruct (work_rules _ _ g _ _) as [[st c]| |]; cbn [bind]; try reflexivity.
    rewrite follow_same. destruct (work_follow _ _ _ _ _) as [[r k]| |]; reflexivity.
  Qed.

  Lemma items_same fuel (g : grammar V T) p : forall k queue items,
    items_loop fuel k p g queue items = let! (r, _) := work_items fuel k p g queue items in Val r.
  Proof.
    induction fuel as [|fuel IH]; intros k queue items; cbn [items_loop work_items]; destruct queue as [|ib rest]; try reflexivity.
    destruct (cursor_variable ib) as [[head|]| |]; cbn [bind]; try reflexivity.
    - destruct (get_rule_bodies g head) as [bs|]; cbn [of_option bind]; [|reflexivity].
      destruct (closure_insert head _ rest items) as [q' i']. rewrite IH.
      destruct (work_items fuel (S k) p g q' i') as [[r c]| |]; reflexivity.
    - rewrite IH. destruct (work_items fuel (S k) p g rest items) as [[r c]| |]; reflexivity.
  Qed.

  Lemma closure_same fuel p items (g : grammar V T) :
    from_incomplete_map fuel p items g = let! (r, _) := work_closure fuel p items g in Val r.
  Proof. apply items_same. Qed.

  (** ** One turn of the closure for every item *)
  Lemma insert_count head ibs : forall (queue : list (item_body V T)) items queue' items',
    closure_insert head ibs queue items = (queue', items') -> length queue' + length items = length queue + length items'.
  Proof.
    induction ibs as [|ib ibs IH]; intros queue items queue' items' H; cbn [closure_insert] in H.
    - injection H as <- <-. reflexivity.
    - destruct (memb (head, ib) items); apply IH in H; [exact H|]. rewrite !app_length in H. cbn in H. lia.
  Qed.

  Lemma items_count fuel (g : grammar V T) p : forall k queue items r n,
    work_items fuel k p g queue items = Val (r, n) -> n + length items = length queue + length r.
  Proof.
    induction fuel as [|fuel IH]; intros k queue items r n H; cbn [work_items] in H; destruct queue as [|ib rest]; try discriminate;
      try (injection H as <- <-; cbn; lia).
    destruct (cursor_variable ib) as [[head|]| |]; cbn [bind] in H; try discriminate.
    - destruct (get_rule_bodies g head) as [bs|]; cbn [of_option bind] in H; [|discriminate].
      destruct (closure_insert head _ rest items) as [q' i'] eqn:E. apply bind_val in H. destruct H as ([r' n'] & H & E').
      injection E' as <- <-. apply IH in H. apply insert_count in E. cbn [length]. lia.
    - apply bind_val in H. destruct H as ([r' n'] & H & E'). injection E' as <- <-. apply IH in H. cbn [length]. lia.
  Qed.

  Lemma closure_count fuel p items (g : grammar V T) r n : work_closure fuel p items g = Val (r, n) -> n = length r.
  Proof.
    intros H. apply items_count in H. rewrite map_length, (Permutation_length (hash_at_perm (0 :: p) _ items)) in H. lia.
  Qed.
End Same.

(** ** Turns of FIRST *)
Section Turns.
  Context {V T : Type} {dv : DecEq V} {dt : DecEq T} {ho : HashOrder}.
  Variable g : grammar V T.
  Variable p : list nat.
  Hypothesis Hgood : good g.
  Variables (vs : list V) (ts : list T).
  Hypothesis Hvs : forall v bd, rule g v bd -> In v vs.
  Notation n := (length vs).

  Definition okey (o : option V) : Prop := match o with Some v => In v vs | None => True end.
  Record tidy (st : @fstate V T) : Prop := {
    t_pend : forall e, In e (f_pending st) -> okey (fst e);
    t_keys : forall v ds, mget v (f_deps st) = Some ds -> NoDup (map fst ds);
    t_deps : forall v ds e, mget v (f_deps st) = Some ds -> In e ds -> okey (fst e)
  }.
  Definition cheap (st st' : @fstate V T) : Prop :=
    tidy st' /\ length (f_pending st') + S n * progress st <= length (f_pending st) + S n * progress st'.

  Lemma cheap_refl st : tidy st -> cheap st st.
  Proof. intros H. split; [exact H|lia]. Qed.

  Lemma cheap_trans a b c : cheap a b -> cheap b c -> cheap a c.
  Proof. intros [_ H] [H1 H2]. split; [exact H1|lia]. Qed.

  Lemma keys_few (ds : list (option V * list (body V T))) : NoDup (map fst ds) -> (forall e, In e ds -> okey (fst e)) -> length ds <= S n.
  Proof.
    intros Hn Hk. rewrite <- (map_length fst ds). replace (S n) with (length (None :: map Some vs)) by (cbn; rewrite map_length; reflexivity).
    apply NoDup_incl_length; [exact Hn|]. intros o Ho. apply in_map_iff in Ho. destruct Ho as (e & <- & He). apply Hk in He.
    destruct (fst e) as [v|]; [right; apply in_map; exact He|left; reflexivity].
  Qed.

  Lemma cheap_extend o syms st : tidy st -> cheap st (extend_for_variable p o syms st).
  Proof.
    intros Ht. unfold extend_for_variable. destruct o as [v|]; [|split; [destruct Ht; split; auto|apply Nat.le_refl]].
    pose proof (first_size_extend (f_first st) v syms) as Hsz. cbn zeta in Hsz.
    set (old := match mget v (f_first st) with Some l => l | None => [] end) in *.
    pose proof (set_extend_length syms old) as Hl. destruct (Nat.eqb (length old) (length (set_extend syms old))) eqn:E.
    - apply Nat.eqb_eq in E. split; [destruct Ht; split; auto|]. unfold progress. cbn [f_pending f_first f_visited]. set (S' := first_size (mupdate _ _ _ _)) in *.
      set (S0 := first_size (f_first st)) in *. assert (HS : S' = S0) by lia. rewrite HS. lia.
    - apply Nat.eqb_neq in E. set (moved := match mget v (f_deps st) with Some ds => _ | None => _ end).
      assert (Hm : length moved <= S n /\ forall e, In e moved -> okey (fst e)).
      { unfold moved. destruct (mget v (f_deps st)) as [ds|] eqn:Ed; [|split; [cbn; lia|intros e []]]. split.
        - rewrite (Permutation_length (hash_at_perm _ _ ds)). apply keys_few; [exact (t_keys _ Ht v ds Ed)|].
          intros e He. exact (t_deps _ Ht v ds e Ed He).
        - intros e He. apply in_hash_at in He. exact (t_deps _ Ht v ds e Ed He). }
      destruct Hm as [Hm1 Hm2]. split.
      + split; cbn [f_pending f_deps].
        * intros e He. apply in_app_or in He. destruct He as [He|He]; [apply (t_pend _ Ht)|apply Hm2]; exact He.
        * intros w ds. rewrite mget_mremove. destruct (eqb w v); [discriminate|]. apply (t_keys _ Ht).
        * intros w ds e. rewrite mget_mremove. destruct (eqb w v); [discriminate|]. apply (t_deps _ Ht).
      + unfold progress. cbn [f_pending f_first f_visited]. rewrite app_length. set (S' := first_size (mupdate _ _ _ _)) in *.
        set (S0 := first_size (f_first st)) in *. assert (HS : S0 + 1 <= S') by lia. set (a := length (f_visited st)).
        replace (a + S') with (a + S0 + 1 + (S' - (S0 + 1))) by lia. rewrite !Nat.mul_add_distr_l.
        assert (Hk : length moved <= S n * 1) by lia. revert Hk. generalize (S n * a) (S n * S0) (S n * 1) (S n * (S' - (S0 + 1))). intros; lia.
  Qed.

  Lemma cheap_add v o s st : tidy st -> okey o -> cheap st (add_dependency v o s st).
  Proof.
    intros Ht Ho. split; [|apply Nat.le_refl]. split; cbn [f_pending f_deps add_dependency].
    - apply (t_pend _ Ht).
    - intros w ds. rewrite mget_mupdate. destruct (eqb w v); [|apply (t_keys _ Ht)].
      intros E. injection E as <-. apply mupdate_nodup. destruct (mget v (f_deps st)) as [ds|] eqn:Ed; [|constructor].
      exact (t_keys _ Ht v ds Ed).
    - intros w ds e. rewrite mget_mupdate. destruct (eqb w v); [|apply (t_deps _ Ht)].
      intros E He. injection E as <-. apply (in_map fst) in He. apply in_mupdate_keys in He. destruct He as [->|He]; [exact Ho|].
      destruct (mget v (f_deps st)) as [ds|] eqn:Ed; [|destruct He]. apply in_map_iff in He. destruct He as (e' & <- & He').
      exact (t_deps _ Ht v ds e' Ed He').
  Qed.

  Lemma bodies_rule v bs : get_rule_bodies g v = Some bs -> In v vs.
  Proof.
    intros E. destruct (good_ok g Hgood) as [_ Hr]. destruct (Hr v bs (mget_in _ _ _ E)) as (_ & Hne & _).
    destruct bs as [|b bs]; [destruct (Hne eq_refl)|]. apply (Hvs v b), (get_rule_in g v _ b Hgood E). left. reflexivity.
  Qed.

  Lemma cheap_scan o s : okey o -> forall st st', tidy st -> first_scan p g o s st = Val st' -> cheap st st'.
  Proof.
    intros Ho. induction s as [|[t|v|] s IH]; intros st st' Ht H; cbn [first_scan] in H.
    - injection H as <-. apply cheap_refl. exact Ht.
    - injection H as <-. apply cheap_extend. exact Ht.
    - pose proof (cheap_add v o (Var v :: s) st Ht Ho) as H1. set (st1 := add_dependency v o (Var v :: s) st) in *. clearbody st1.
      destruct (memb v (f_visited st1)).
      + destruct (mget v (f_first st1)) as [fv|]; [|injection H as <-; exact H1].
        match type of H with context [extend_for_variable p o ?y st1] => pose proof (cheap_extend o y st1 (proj1 H1)) as H2; set (st2 := extend_for_variable p o y st1) in * end.
        clearbody st2. pose proof (cheap_trans _ _ _ H1 H2) as H3. destruct (memb Eps fv); [|injection H as <-; exact H3].
        eapply cheap_trans; [exact H3|]. apply (IH st2); [apply H2|exact H].
      + destruct (get_rule_bodies g v) as [bs|] eqn:Eb; cbn [of_option bind] in H; [|discriminate]. injection H as <-.
        eapply cheap_trans; [exact H1|]. destruct H1 as [H1 _]. split.
        * split; cbn [f_pending f_deps]; [|apply (t_keys _ H1)|apply (t_deps _ H1)].
          intros e He. apply in_app_or in He. destruct He as [He|[<-|[]]]; [apply (t_pend _ H1); exact He|].
          exact (bodies_rule v bs Eb).
        * unfold progress. cbn [f_pending f_first f_visited]. rewrite !app_length. cbn [length]. nia.
    - destruct s; [injection H as <-; apply cheap_extend; exact Ht|]. apply (IH st); assumption.
  Qed.

  Lemma cheap_entry o bs : okey o -> forall st st', tidy st -> first_entry p g o bs st = Val st' -> cheap st st'.
  Proof.
    intros Ho. induction bs as [|b bs IH]; intros st st' Ht H; cbn [first_entry] in H.
    - injection H as <-. apply cheap_refl. exact Ht.
    - apply bind_val in H. destruct H as (s1 & E & H). pose proof (cheap_scan o b Ho st s1 Ht E) as H1.
      eapply cheap_trans; [exact H1|]. apply IH; [apply H1|exact H].
  Qed.

  Lemma loop_turns fuel : forall st r c, tidy st -> work_loop fuel p g st = Val (r, c) ->
    w_turns c + S n * progress st <= length (f_pending st) + S n * progress r.
  Proof.
    induction fuel as [|fuel IH]; intros st r c Ht H; cbn [work_loop] in H; destruct (f_pending st) as [|[o bs] rest] eqn:E; try discriminate;
      try (injection H as <- <-; cbn; lia).
    apply bind_val in H. destruct H as (s1 & E1 & H). apply bind_val in H. destruct H as ([r1 c1] & H & E2). injection E2 as <- <-.
    assert (Ho : okey o) by (apply (t_pend _ Ht (o, bs)); rewrite E; left; reflexivity).
    match type of E1 with first_entry _ _ _ _ ?x = _ => set (s0 := x) in * end.
    assert (Ht0 : tidy s0).
    { split; [|apply (t_keys _ Ht)|apply (t_deps _ Ht)]. intros e He. apply (t_pend _ Ht). rewrite E. right. exact He. }
    assert (Hp0 : progress s0 = progress st) by reflexivity. assert (Hl0 : length (f_pending s0) = length rest) by reflexivity.
    clearbody s0. destruct (cheap_entry o bs Ho s0 s1 Ht0 E1) as [Ht1 Hc1]. apply (IH s1) in H; [|exact Ht1].
    rewrite Hp0, Hl0 in Hc1. cbn [w_turns add_work length]. lia.
  Qed.

  Hypothesis Hts : forall v bd t, rule g v bd -> In (Ter t) bd -> In t ts.

  Lemma heads_few (l : list V) : NoDup l -> (forall v, In v l -> exists bd, rule g v bd) -> length l <= n.
  Proof. intros Hn Hl. apply NoDup_incl_length; [exact Hn|]. intros v Hv. destruct (Hl v Hv) as (bd & Hr). eauto. Qed.

  Lemma sets_few (m : list (V * list (symbol V T))) k b : length m <= k -> (forall v l, In (v, l) m -> length l <= b) -> first_size m <= k * b.
  Proof.
    intros Hk Hb. enough (first_size m <= length m * b) by nia. clear Hk. unfold first_size, list_sum.
    induction m as [|[v l] m IH]; cbn [map fold_right snd length]; [lia|].
    assert (length l <= b) by (apply (Hb v); left; reflexivity). assert (fold_right Nat.add 0 (map (fun e => length (snd e)) m) <= length m * b).
    { apply IH. intros v' l' H'. apply (Hb v'). right. exact H'. }
    lia.
  Qed.

  Lemma body_turns fuel bd r c : bd <> [] -> (forall x, In (Var x) bd -> exists b, rule g x b) -> (forall t, In (Ter t) bd -> In t ts) ->
    work_body fuel p g bd = Val (r, c) -> w_turns c <= 1 + n * (n + 1) * (length ts + 2).
  Proof.
    intros Hne Hcl Ht H. unfold work_body in H. apply bind_val in H. destruct H as ([st c0] & H & E). injection E as <- <-.
    match type of H with work_loop _ _ _ ?x = _ => set (st0 := x) in * end.
    assert (Hbs : forall b x, In b [bd] -> In (Var x) b -> exists b', rule g x b').
    { intros b x [<-|[]]. apply Hcl. }
    assert (Hi : inv g [bd] st0).
    { split; cbn; auto; try (constructor; fail); try tauto.
      - intros o s (bs & [E|[]] & Hs). injection E as <- <-. destruct Hs as [<-|[]].
        split; [|exact I]. exists []. split; [left; auto|constructor].
      - intros v o s (ds & E & _). discriminate.
      - intros [v|] x []. }
    assert (Hc : complete g [bd] st0).
    { split; [intros v b []|]. intros b [<-|[]]. apply settled_now. left. exists [bd]. split; left; auto. }
    destruct (first_loop_spec g Hgood [bd] Hbs p _ _ st0 Hi Hc (le_n _) (le_n _)) as (f2 & st2 & E2 & Hi2 & _).
    assert (E1 : first_loop fuel p g st0 = Val st) by (rewrite loop_same, H; reflexivity).
    apply (first_loop_more g p _ _ _ f2) in E1. apply (first_loop_more g p _ _ _ fuel) in E2.
    rewrite Nat.add_comm in E2. rewrite E2 in E1. injection E1 as ->.
    assert (Ht0 : tidy st0).
    { split; cbn; [intros e [<-|[]]; exact I| |]; intros v ds; discriminate. }
    pose proof (loop_turns fuel st0 st c0 Ht0 H) as Hb. cbn [st0 f_pending length] in Hb.
    assert (Hp0 : progress st0 = 0) by reflexivity. rewrite Hp0 in Hb.
    assert (Hp : progress st <= n + n * (length ts + 1)).
    { unfold progress. assert (length (f_visited st) <= n) by (apply heads_few; apply Hi2).
      assert (first_size (f_first st) <= n * (length ts + 1)); [|lia]. apply sets_few.
      - rewrite <- (map_length fst). apply heads_few; [apply Hi2|]. intros v Hv. apply (i_rule _ _ _ Hi2), (i_first _ _ _ Hi2). exact Hv.
      - intros v l Hl. replace (length ts + 1) with (length (Eps :: map (@Ter V T) ts)) by (cbn; rewrite map_length; lia).
        apply NoDup_incl_length; [eapply (i_sets _ _ _ Hi2); eauto|]. intros x Hx.
        assert (Hs : sym_ok g [bd] (Some v) x).
        { apply (i_sound _ _ _ Hi2). unfold fset. rewrite (in_mget _ _ _ (i_keys _ _ _ Hi2) Hl). exact Hx. }
        destruct x as [t|w|]; [|destruct Hs|left; reflexivity]. right. apply in_map. destruct Hs as (b & Hb1 & Hs). cbn in Hb1.
        apply start_occurs in Hs. destruct Hs as [Hs|(w & bd' & H1 & H2)]; eauto. }
    nia.
  Qed.
End Turns.

Lemma sum_incl {A} (f : A -> nat) (l : list A) : forall l', NoDup l -> incl l l' -> list_sum (map f l) <= list_sum (map f l').
Proof.
  induction l as [|a l IH]; intros l' Hn Hi; [cbn; lia|]. inversion Hn as [|? ? Ha Hn']; subst.
  destruct (in_split a l' (Hi a (or_introl eq_refl))) as (l1 & l2 & ->).
  assert (Hi' : incl l (l1 ++ l2)).
  { intros x Hx. destruct (in_app_or _ _ _ (Hi x (or_intror Hx))) as [H|[H|H]]; [apply in_or_app; auto| |apply in_or_app; auto].
    subst x. contradiction. }
  apply IH in Hi'; [|exact Hn']. rewrite !map_app, !list_sum_app in *. cbn [map]. unfold list_sum in *. cbn [fold_right]. lia.
Qed.

Section Follow.
  Context {V T : Type} {dv : DecEq V} {dt : DecEq T} {ho : HashOrder}.
  Variable g : grammar V T.
  Hypothesis Hgood : good g.
  Variables (vs : list V) (ts : list T).
  Hypothesis Hvs : forall v bd, rule g v bd -> In v vs.
  Hypothesis Hts : forall v bd t, rule g v bd -> In (Ter t) bd -> In t ts.
  Notation n := (length vs).
  Notation B := (1 + n * (n + 1) * (length ts + 2)).

  Definition fdeps (deps : list (V * list V)) : Prop :=
    NoDup (map fst deps) /\ forall h ds, In (h, ds) deps -> In h vs /\ NoDup ds /\ incl ds vs.

  Lemma fdeps_add h v st : fdeps (w_deps st) -> In h vs -> In v vs -> fdeps (@w_deps V T (add_follow_dep h v st)).
  Proof.
    intros [H1 H2] Hh Hv. cbn [add_follow_dep w_deps]. split; [apply mupdate_nodup; exact H1|].
    intros h' ds Hin. apply in_mget in Hin; [|apply mupdate_nodup; exact H1]. rewrite mget_mupdate in Hin.
    destruct (eqb_spec h' h) as [->|Hne]; [|apply H2, mget_in; exact Hin]. injection Hin as <-. split; [exact Hh|].
    destruct (mget h (w_deps st)) as [ds|] eqn:E.
    - destruct (H2 h ds (mget_in _ _ _ E)) as (_ & H3 & H4). split; [apply nodup_set_insert; exact H3|].
      intros x Hx. apply in_set_insert in Hx. destruct Hx as [->|Hx]; auto.
    - split; [apply nodup_set_insert; constructor|]. intros x Hx. apply in_set_insert in Hx. destruct Hx as [->|[]]. exact Hv.
  Qed.

  Lemma scan_turns fuel p h rest : (forall x, In (Var x) rest -> exists b, rule g x b) -> (forall t, In (Ter t) rest -> In t ts) -> In h vs ->
    forall st st' c, fdeps (w_deps st) -> work_scan fuel p g h rest st = Val (st', c) -> fdeps (w_deps st') /\ w_turns c <= length rest * B.
  Proof.
    intros Hcl Ht Hh. induction rest as [|s tl IH]; intros st st' c Hd H.
    - injection H as <- <-. split; [exact Hd|cbn; lia].
    - assert (Hcl' : forall x, In (Var x) tl -> exists b, rule g x b) by (intros x Hx; apply Hcl; right; exact Hx).
      assert (Ht' : forall t, In (Ter t) tl -> In t ts) by (intros x Hx; apply Ht; right; exact Hx).
      specialize (IH Hcl' Ht'). cbn [length]. rewrite Nat.mul_succ_l.
      destruct s as [t|v|]; cbn [work_scan] in H; [destruct (IH _ _ _ Hd H); split; [assumption|lia]| |destruct (IH _ _ _ Hd H); split; [assumption|lia]].
      assert (Hv : In v vs) by (destruct (Hcl v (or_introl eq_refl)) as (b & Hb); exact (Hvs v b Hb)).
      destruct tl as [|s' tl].
      + injection H as <- <-. split; [apply fdeps_add; assumption|cbn; lia].
      + set (rest := s' :: tl) in *. apply bind_val in H. destruct H as ([f c1] & E1 & H). apply bind_val in H. destruct H as ([r c2] & E2 & H).
        injection H as <- <-. apply (body_turns g (length rest :: p) Hgood vs ts Hvs Hts) in E1; [|discriminate|exact Hcl'|exact Ht'].
        apply IH in E2.
        * destruct E2 as [H2 H3]. split; [exact H2|]. cbn [w_turns add_work]. lia.
        * cbn [w_deps]. destruct (memb Eps f); [apply fdeps_add; assumption|exact Hd].
  Qed.

  Lemma rules_turns fuel p rs : (forall h b, In (h, b) (map snd rs) -> rule g h b) ->
    forall st st' c, fdeps (w_deps st) -> work_rules fuel p g rs st = Val (st', c) ->
      fdeps (w_deps st') /\ w_turns c <= list_sum (map (fun r => length (snd r)) (map snd rs)) * B.
  Proof.
    induction rs as [|[i [h b]] rs IH]; intros Hr st st' c Hd H; cbn [work_rules] in H.
    - injection H as <- <-. split; [exact Hd|cbn; lia].
    - apply bind_val in H. destruct H as ([s1 c1] & E1 & H). apply bind_val in H. destruct H as ([s2 c2] & E2 & H). injection H as <- <-.
      assert (Hrb : rule g h b) by (apply Hr; left; reflexivity).
      apply scan_turns in E1; [|intros x Hx; exact (good_closed g Hgood h b x Hrb Hx)|intros t Hx; exact (Hts h b t Hrb Hx)|exact (Hvs h b Hrb)|exact Hd].
      destruct E1 as [H1 H2]. apply IH in E2; [|intros h' b' Hin; apply Hr; right; exact Hin|exact H1]. destruct E2 as [H3 H4].
      split; [exact H3|]. cbn [w_turns add_work map snd]. unfold list_sum in *. cbn [fold_right]. rewrite Nat.mul_add_distr_r. lia.
  Qed.

  Lemma follow_turns fuel p deps : fdeps deps -> forall queue m r k, work_follow fuel p deps queue m = Val (r, k) ->
    k + n * @first_size V T m <= length queue + n * first_size r.
  Proof.
    intros Hd. induction fuel as [|fuel IH]; intros queue m r k H; cbn [work_follow] in H; destruct queue as [|[lhs rhs] rest]; try discriminate;
      try (injection H as <- <-; cbn [length]; lia).
    destruct (mget rhs m) as [fr|].
    - apply bind_val in H. destruct H as ([r1 k1] & H & E). injection E as <- <-. apply IH in H.
      pose proof (first_size_extend m lhs fr) as Hsz. cbn zeta in Hsz.
      set (old := match mget lhs m with Some l => l | None => [] end) in *. pose proof (set_extend_length fr old) as Hl.
      rewrite app_length in H. set (more := if Nat.eqb _ _ then _ else _) in H.
      set (S' := first_size (mupdate lhs [] (set_extend fr) m)) in *. set (S0 := first_size m) in *.
      assert (Hm : length more + n * S0 <= n * S').
      { unfold more. destruct (Nat.eqb (length old) (length (set_extend fr old))) eqn:E.
        - apply Nat.eqb_eq in E. assert (S' = S0) as -> by lia. cbn [length]. lia.
        - apply Nat.eqb_neq in E. assert (HS : n * (S0 + 1) <= n * S') by (apply Nat.mul_le_mono_l; lia). rewrite Nat.mul_add_distr_l in HS.
          assert (Hq : length (match mget lhs deps with Some ds => map (fun d => (d, lhs)) (hash_at (S' :: 5 :: p) ds) | None => [] end) <= n * 1).
          { destruct (mget lhs deps) as [ds|] eqn:Ed; [|cbn [length]; lia]. rewrite map_length, (Permutation_length (hash_at_perm _ _ ds)), Nat.mul_1_r.
            destruct (proj2 Hd lhs ds (mget_in _ _ _ Ed)) as (_ & H1 & H2). apply NoDup_incl_length; assumption. }
          revert Hq HS. generalize (n * S0) (n * 1) (n * S'). intros; lia. }
      cbn [length]. revert H Hm. generalize (n * S0) (n * S') (n * first_size r1). intros; lia.
    - apply bind_val in H. destruct H as ([r1 k1] & H & E). injection E as <- <-. apply IH in H. cbn [length]. lia.
  Qed.

  Lemma deps_few p deps : fdeps deps -> length (iter_deps p deps) <= n * n.
  Proof.
    intros [H1 H2]. unfold iter_deps.
    assert (Hg : forall es : list (nat * (V * list V)), (forall e, In e es -> In (snd e) deps) ->
      length (flat_map (fun e => map (fun lhs => (lhs, fst (snd e))) (hash_at (fst e :: 4 :: p) (snd (snd e)))) es) <= length es * n).
    { induction es as [|[i [h ds]] es IH]; intros He; cbn [flat_map length]; [lia|]. rewrite app_length, map_length.
      cbn [fst snd]. rewrite (Permutation_length (hash_at_perm _ _ ds)).
      destruct (H2 h ds (He _ (or_introl eq_refl))) as (_ & H3 & H4). pose proof (NoDup_incl_length H3 H4).
      assert (length (flat_map (fun e => map (fun lhs => (lhs, fst (snd e))) (hash_at (fst e :: 4 :: p) (snd (snd e)))) es) <= length es * n).
      { apply IH. intros e Hin. apply He. right. exact Hin. }
      lia. }
    etransitivity; [apply Hg|].
    - intros e He. apply (in_map snd) in He. rewrite map_snd_enumerate in He. apply in_hash_at in He. exact He.
    - apply Nat.mul_le_mono_r. rewrite <- (map_length snd), map_snd_enumerate, (Permutation_length (hash_at_perm _ _ deps)), <- (map_length fst).
      apply NoDup_incl_length; [exact H1|]. intros h Hh. apply in_map_iff in Hh. destruct Hh as ([h' ds] & <- & Hin). exact (proj1 (H2 h' ds Hin)).
  Qed.

  Lemma rules_nodup p : NoDup (iter_rules p g).
  Proof.
    unfold iter_rules. apply (nodup_flat_map _ (fun e => fst (snd e)) fst).
    - rewrite <- map_map, map_snd_enumerate. apply (Permutation_NoDup (l := map fst (g_rules g))).
      + apply Permutation_map, Permutation_sym, hash_at_perm.
      + apply (good_ok g Hgood).
    - intros [i [h bs]] Hin. cbn [fst snd]. apply FinFun.Injective_map_NoDup; [intros a b E; injection E as E; exact E|].
      apply (in_map snd) in Hin. rewrite map_snd_enumerate in Hin. apply in_hash_at in Hin.
      eapply Permutation_NoDup; [apply Permutation_sym, hash_at_perm|]. apply (proj2 (good_ok g Hgood) h bs Hin).
    - intros [i [h bs]] [h' b] Hin. apply in_map_iff in Hin. destruct Hin as (b' & E & _). injection E as <- _. reflexivity.
  Qed.

  Lemma set_turns rs fuel p r c k : built g -> (forall v bd, rule g v bd -> In (v, bd) rs) -> work_set fuel p g = Val (r, c, k) ->
    w_turns c <= list_sum (map (fun r => length (snd r)) rs) * B /\ k <= n * n * (length ts + 1).
  Proof.
    intros Hb Hrs H. assert (Hfs : follow_set fuel p g = Val r) by (rewrite set_same, H; reflexivity). unfold work_set in H.
    apply bind_val in H. destruct H as ([st c0] & E1 & H). apply bind_val in H. destruct H as ([r0 k0] & E2 & H). injection H as <- <- <-.
    apply rules_turns in E1.
    - destruct E1 as [Hd H1]. split.
      + etransitivity; [exact H1|]. apply Nat.mul_le_mono_r. rewrite map_snd_enumerate. apply sum_incl; [apply rules_nodup|].
        intros [h b] Hin. apply in_iter_rules in Hin. apply Hrs. exact Hin.
      + apply follow_turns in E2; [|exact Hd]. pose proof (deps_few p _ Hd) as Hq. apply (follow_set_answer g Hb) in Hfs.
        assert (Hs : first_size r0 <= n * length ts).
        { destruct Hfs. apply sets_few.
          - rewrite <- (map_length fst). apply NoDup_incl_length; [exact ef_keys|]. intros v Hv. apply in_map_iff in Hv.
            destruct Hv as ([v' l] & <- & Hin). apply (in_mget _ _ _ ef_keys) in Hin. apply ef_key in Hin. apply (fkey_head g Hgood) in Hin.
            apply in_map_iff in Hin. destruct Hin as ([v2 bds] & Ev & Hin). cbn in Ev. subst v2.
            destruct (proj2 (good_ok g Hgood) v' bds Hin) as (_ & Hne & _). destruct bds as [|b bds]; [destruct (Hne eq_refl)|].
            apply (Hvs v' b). exists (b :: bds). split; [exact Hin|left; reflexivity].
          - intros v l Hin. apply (in_mget _ _ _ ef_keys) in Hin. rewrite <- (map_length (@Ter V T)).
            apply NoDup_incl_length; [exact (ef_nodup v l Hin)|]. intros x Hx. destruct (ef_sound v l x Hin Hx) as (t & -> & Hf).
            apply in_map. clear - Hf Hts. induction Hf as [h l v r t H1 H2|]; auto.
            apply start_occurs in H2. destruct H2 as [H2|(w & bd & H2 & H3)]; [|eauto].
            eapply Hts; [exact H1|]. apply in_app_iff. right. right. exact H2. }
        pose proof (Nat.mul_le_mono_l _ _ n Hs). nia.
    - intros h b Hin. rewrite map_snd_enumerate in Hin. apply in_iter_rules in Hin. exact Hin.
    - split; [constructor|]. intros h ds [].
  Qed.
End Follow.
