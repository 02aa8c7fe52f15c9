(** The parse table: what the insertions of [new_slr] leave behind. *)
From Verif Require Import Base GrammarModel CfsmModel SlrModel SpecCfg GrammarProofs FirstProofs FollowProofs GrammarTotal
  ItemProofs CfsmProofs CfsmCorrect.

Lemma nth_resize {A} n (l : list (list A)) i : nth i (resize n l) [] = nth i l [].
Proof.
  unfold resize. destruct (Nat.lt_ge_cases i (length l)) as [H|H].
  - rewrite app_nth1; auto.
  - rewrite app_nth2, (nth_overflow l); auto.
    generalize (i - length l). generalize (S n - length l). clear. induction n; intros [|k]; cbn; auto.
Qed.

Lemma resize_length {A} n (l : list (list A)) : length (resize n l) = Nat.max (S n) (length l).
Proof. unfold resize. rewrite app_length, repeat_length. lia. Qed.

Lemma set_row_length {A} n (row : list A) l : n < length l -> length (set_row n row l) = length l.
Proof.
  intros H. unfold set_row. rewrite app_length, firstn_length. cbn [length]. rewrite skipn_length. lia.
Qed.

Lemma nth_set_row_same {A} n (row : list A) l : n < length l -> nth n (set_row n row l) [] = row.
Proof.
  intros H. unfold set_row. rewrite app_nth2; rewrite firstn_length; [|lia].
  replace (n - Nat.min n (length l)) with 0 by lia. reflexivity.
Qed.

Lemma nth_set_row_other {A} n i (row : list A) l : n < length l -> i <> n -> nth i (set_row n row l) [] = nth i l [].
Proof.
  intros H Hi. unfold set_row. destruct (Nat.lt_ge_cases i n) as [Hn|Hn].
  - rewrite app_nth1; [|rewrite firstn_length; lia].
    rewrite <- (firstn_skipn n l) at 2. rewrite app_nth1; [auto|rewrite firstn_length; lia].
  - rewrite app_nth2; rewrite firstn_length; [|lia].
    replace (Nat.min n (length l)) with n by lia.
    destruct (i - n) as [|k] eqn:E; [lia|]. cbn [nth].
    rewrite <- (firstn_skipn (S n) l) at 2. rewrite app_nth2; rewrite firstn_length; [|lia].
    f_equal. lia.
Qed.

Lemma permutation_flat_map {A B C} (f : A -> list C) (h : B -> list C) l l' :
  Forall2 (fun x y => Permutation (f x) (h y)) l l' -> Permutation (flat_map f l) (flat_map h l').
Proof. induction 1; cbn; auto. apply Permutation_app; auto. Qed.

Lemma permutation_flat_map_arg {A C} (f : A -> list C) l l' :
  Permutation l l' -> Permutation (flat_map f l) (flat_map f l').
Proof.
  induction 1 as [|x l l' H IH|x y l|l l' l2 H IH H' IH']; cbn; auto.
  - apply Permutation_app_head; auto.
  - rewrite !app_assoc. apply Permutation_app_tail, Permutation_app_comm.
  - eapply Permutation_trans; eauto.
Qed.

Section Table.
  Context {V T : Type} {dv : DecEq V} {dt : DecEq T}.
  Notation sym := (symbol V T).
  Notation itm := (item V T).
  Notation act := (key T * action V)%type.
  Variable teq : T -> T -> bool.

  (** ** Rows *)

  (** A row built by insertions: no later key equals an earlier one. *)
  Fixpoint fresh_after (old : list act) (l : list act) : Prop :=
    match l with
    | [] => True
    | (k, a) :: r => row_get teq k old = None /\ fresh_after (old ++ [(k, a)]) r
    end.

  Lemma row_get_app k (l l' : list act) :
    row_get teq k (l ++ l') = match row_get teq k l with Some a => Some a | None => row_get teq k l' end.
  Proof. induction l as [|[k' a] l IH]; cbn [row_get app]; auto. destruct (key_eq teq k k'); auto. Qed.

  Lemma row_get_in k a (l : list act) : row_get teq k l = Some a -> exists k', key_eq teq k k' = true /\ In (k', a) l.
  Proof.
    induction l as [|[k' a'] l IH]; cbn [row_get]; [discriminate|]. destruct (key_eq teq k k') eqn:E.
    - intros [= <-]. exists k'. split; auto. left; auto.
    - intros H. destruct (IH H) as (k2 & H1 & H2). exists k2. split; auto. right; auto.
  Qed.

  Lemma row_get_none k (l : list act) : row_get teq k l = None <-> forall k' a, In (k', a) l -> key_eq teq k k' = false.
  Proof.
    induction l as [|[k1 a1] l IH]; cbn [row_get]; [split; [intros _ ? ? []|auto]|].
    destruct (key_eq teq k k1) eqn:E; split.
    - discriminate.
    - intros H. rewrite (H k1 a1) in E; [discriminate|left; auto].
    - intros H k' a [[= <- <-]|Hin]; auto. apply IH with a; auto.
    - intros H. apply IH. intros k' a Hin. apply H with a. right; auto.
  Qed.

  (** [distinct l]: two entries of [l] at different places have different
      keys. *)
  Inductive distinct : list act -> Prop :=
  | distinct_nil : distinct []
  | distinct_cons : forall k a l, (forall k' a', In (k', a') l -> key_eq teq k k' = false) -> distinct l ->
      distinct ((k, a) :: l).

  Hypothesis Hteq : lawful teq.

  Lemma key_eq_refl k : key_eq teq k k = true.
  Proof. destruct Hteq as (H & _). destruct k; cbn; auto. Qed.
  Lemma key_eq_sym k k' : key_eq teq k k' = key_eq teq k' k.
  Proof.
    destruct Hteq as (_ & Hs & _). destruct k as [t|], k' as [t'|]; cbn; auto.
    destruct (teq t t') eqn:E; destruct (teq t' t) eqn:E'; auto.
    - apply Hs in E. congruence.
    - apply Hs in E'. congruence.
  Qed.
  Lemma key_eq_trans k1 k2 k3 : key_eq teq k1 k2 = true -> key_eq teq k2 k3 = true -> key_eq teq k1 k3 = true.
  Proof.
    destruct Hteq as (_ & _ & Ht). destruct k1 as [t1|], k2 as [t2|], k3 as [t3|]; cbn; try discriminate; auto.
    apply Ht.
  Qed.

  Lemma distinct_app l l' : distinct (l ++ l') <->
    distinct l /\ distinct l' /\ forall k a k' a', In (k, a) l -> In (k', a') l' -> key_eq teq k k' = false.
  Proof.
    induction l as [|[k a] l IH]; cbn [app].
    - split; [intros H; split; [constructor|split; [auto|intros ? ? ? ? []]]|tauto].
    - split.
      + intros H. inversion H as [|? ? ? H1 H2]; subst. apply IH in H2. destruct H2 as (H2 & H3 & H4). split; [|split; auto].
        * constructor; auto. intros k' a' Hin. apply (H1 k' a'). apply in_app_iff; auto.
        * intros k1 a1 k' a' [[= <- <-]|Hin] Hin'; [|apply (H4 k1 a1 k' a'); auto].
          apply (H1 k' a'). apply in_app_iff; auto.
      + intros (H1 & H2 & H3). inversion H1 as [|? ? ? H4 H5]; subst. constructor.
        * intros k' a' Hin. apply in_app_iff in Hin. destruct Hin as [Hin|Hin]; [apply (H4 k' a'); auto|].
          apply (H3 k a k' a'); auto. left; auto.
        * apply IH. split; auto. split; auto. intros k1 a1 k' a' Hin. apply (H3 k1 a1 k' a'). right; auto.
  Qed.

  Lemma distinct_perm l l' : Permutation l l' -> distinct l -> distinct l'.
  Proof.
    induction 1 as [|[k a] l l' H IH|[k1 a1] [k2 a2] l|l l' l2 H IH H' IH']; auto.
    - intros Hd. inversion Hd as [|? ? ? H1 H2]; subst. constructor; auto.
      intros k' a' Hin. apply (H1 k' a'). eapply Permutation_in; [symmetry; eauto|auto].
    - intros Hd. inversion Hd as [|? ? ? H1 H2]; subst. inversion H2 as [|? ? ? H3 H4]; subst.
      constructor; [|constructor; auto].
      + intros k' a' [[= <- <-]|Hin]; [|apply (H3 k' a'); auto]. rewrite key_eq_sym. apply (H1 k1 a1). left; auto.
      + intros k' a' Hin. apply (H1 k' a'). right; auto.
  Qed.

  Lemma fresh_distinct old l : distinct old -> (fresh_after old l <-> distinct (old ++ l)).
  Proof.
    revert old. induction l as [|[k a] l IH]; intros old Hd; cbn [fresh_after].
    - rewrite app_nil_r. tauto.
    - assert (Hone : row_get teq k old = None <-> distinct (old ++ [(k, a)])).
      { rewrite row_get_none, distinct_app. split.
        - intros H. split; auto. split; [constructor; [intros ? ? []|constructor]|].
          intros k1 a1 k' a' Hin [[= <- <-]|[]]. rewrite key_eq_sym. apply (H k1 a1); auto.
        - intros (_ & _ & H) k' a' Hin. rewrite key_eq_sym. apply (H k' a' k a); auto. left; auto. }
      replace (old ++ (k, a) :: l) with ((old ++ [(k, a)]) ++ l) by (rewrite <- app_assoc; reflexivity). split.
      + intros [H1 H2]. apply IH; auto. apply Hone; auto.
      + intros H. assert (Hd' : distinct (old ++ [(k, a)])) by (apply distinct_app in H; tauto).
        split; [apply Hone; auto|]. apply IH; auto.
  Qed.

  (** In a row with distinct keys [row_get] finds every entry. *)
  Lemma distinct_get k k' a l : distinct l -> In (k', a) l -> key_eq teq k k' = true -> row_get teq k l = Some a.
  Proof.
    induction 1 as [|k1 a1 l H1 H2 IH]; intros Hin E; [destruct Hin|]. cbn [row_get].
    destruct Hin as [[= -> ->]|Hin]; [rewrite E; auto|].
    destruct (key_eq teq k k1) eqn:E1; auto. exfalso.
    specialize (H1 _ _ Hin). rewrite key_eq_sym in E1. rewrite (key_eq_trans _ _ _ E1 E) in H1. discriminate.
  Qed.

  Lemma distinct_one k k' a a' l : distinct l -> In (k, a) l -> In (k', a') l -> key_eq teq k k' = true -> a = a'.
  Proof.
    intros Hd H1 H2 E. pose proof (distinct_get k k a l Hd H1 (key_eq_refl k)).
    pose proof (distinct_get k k' a' l Hd H2 E). congruence.
  Qed.

  (** ** Insertions into the action table *)

  Fixpoint add_acts (s : nat) (l : list act) (tb : list (list act)) : option (list (list act)) :=
    match l with
    | [] => Some tb
    | (k, a) :: r => match insert_action teq s k a tb with Some tb' => add_acts s r tb' | None => None end
    end.

  Lemma add_acts_app s l l' tb :
    add_acts s (l ++ l') tb = match add_acts s l tb with Some tb' => add_acts s l' tb' | None => None end.
  Proof.
    revert tb. induction l as [|[k a] l IH]; intros tb; cbn [add_acts app]; auto.
    destruct (insert_action teq s k a tb); auto.
  Qed.

  Lemma insert_action_spec s k (a : action V) (tb : list (list act)) :
    match insert_action teq s k a tb with
    | Some tb' => row_get teq k (nth s tb []) = None /\ nth s tb' [] = nth s tb [] ++ [(k, a)] /\
        (forall i, i <> s -> nth i tb' [] = nth i tb []) /\ length tb' = Nat.max (S s) (length tb)
    | None => row_get teq k (nth s tb []) <> None
    end.
  Proof.
    unfold insert_action. rewrite nth_resize. destruct (row_get teq k (nth s tb [])) as [b|]; [discriminate|].
    assert (Hs : s < length (resize s tb)) by (rewrite resize_length; lia).
    split; auto. split; [|split].
    - rewrite nth_set_row_same; auto.
    - intros i Hi. rewrite nth_set_row_other; auto. apply nth_resize.
    - rewrite set_row_length; auto. apply resize_length.
  Qed.

  Lemma add_acts_spec s l : forall tb,
    match add_acts s l tb with
    | Some tb' => fresh_after (nth s tb []) l /\ nth s tb' [] = nth s tb [] ++ l /\
        (forall i, i <> s -> nth i tb' [] = nth i tb []) /\
        length tb' = match l with [] => length tb | _ => Nat.max (S s) (length tb) end
    | None => ~ fresh_after (nth s tb []) l
    end.
  Proof.
    induction l as [|[k a] l IH]; intros tb; cbn [add_acts fresh_after].
    - rewrite app_nil_r. auto.
    - pose proof (insert_action_spec s k a tb) as H. destruct (insert_action teq s k a tb) as [tb'|]; [|tauto].
      destruct H as (H1 & H2 & H3 & H4). specialize (IH tb'). destruct (add_acts s l tb') as [tb2|].
      + destruct IH as (I1 & I2 & I3 & I4). rewrite H2 in I1, I2. split; [auto|]. split; [|split].
        * rewrite I2, <- app_assoc. reflexivity.
        * intros i Hi. rewrite I3, H3; auto.
        * rewrite I4, H4. destruct l; lia.
      + rewrite H2 in IH. tauto.
  Qed.

  (** ** Insertions into the goto table *)

  Lemma insert_goto_spec s (v : V) d (tb : list (list (V * nat))) : (forall d', mget v (nth s tb []) = Some d' -> d' = d) ->
    exists tb', insert_goto s v d tb = Val tb' /\
      (forall u, mget u (nth s tb' []) = if eqb u v then Some d else mget u (nth s tb [])) /\
      (forall i, i <> s -> nth i tb' [] = nth i tb []) /\ length tb' = Nat.max (S s) (length tb).
  Proof.
    intros Hd. unfold insert_goto. rewrite nth_resize.
    assert (Hs : s < length (resize s tb)) by (rewrite resize_length; lia).
    exists (set_row s (mupdate v 0 (fun _ => d) (nth s tb [])) (resize s tb)). split; [|split; [|split]].
    - destruct (mget v (nth s tb [])) as [d'|]; auto. rewrite (Hd d' eq_refl), Nat.eqb_refl. auto.
    - intros u. rewrite nth_set_row_same; auto. apply mget_mupdate.
    - intros i Hi. rewrite nth_set_row_other; auto. apply nth_resize.
    - rewrite set_row_length; auto. apply resize_length.
  Qed.

  (** ** The items of one state *)

  Section Items.
  Variable g : grammar V T.
  Variable fs : list (V * list sym).

  Definition reduce_key (h : V) (n : nat) (x : sym) : list act :=
    match x with Ter t => [(Some t, Reduce h n)] | _ => [] end.

  (** What one item asks for; [ord] is the iteration order of the FOLLOW set. *)
  Definition item_acts (ord : list sym -> list sym) (trans : list (sym * nat)) (it : itm) : list act :=
    let '(h, ib) := it in
    match cursor_symbol ib with
    | Some (Ter t) => match mget (Ter t) trans with Some d => [(Some t, Shift d)] | None => [] end
    | Some _ => []
    | None =>
        match mget h fs with
        | None => []
        | Some l =>
            flat_map (reduce_key h (length (ib_body ib))) (ord l) ++
            if eqb h (g_start g) then [(None, Accept h (length (ib_body ib)))] else []
        end
    end.

  Definition state_acts (st : cstate V T) : list act :=
    flat_map (item_acts (fun l => l) (cs_trans st)) (cs_items st).

  Lemma item_acts_perm ord trans it : (forall l, Permutation (ord l) l) ->
    Permutation (item_acts ord trans it) (item_acts (fun l => l) trans it).
  Proof.
    intros Ho. destruct it as [h ib]. unfold item_acts. destruct (cursor_symbol ib) as [[t|v|]|]; auto.
    destruct (mget h fs) as [l|]; auto. apply Permutation_app_tail. apply permutation_flat_map_arg. auto.
  Qed.

  Lemma insert_reduces_acts s h n l : forall tb, (forall x, In x l -> exists t, x = Ter t) ->
    insert_reduces teq s h n l tb = Val (add_acts s (flat_map (reduce_key h n) l) tb).
  Proof.
    induction l as [|x l IH]; intros tb Hl; cbn [insert_reduces flat_map]; auto.
    destruct (Hl x (or_introl eq_refl)) as (t & ->). cbn [reduce_key app add_acts].
    destruct (insert_action teq s (Some t) (Reduce h n) tb); auto. apply IH. intros y Hy. apply Hl. right; auto.
  Qed.

  Context {ho : HashOrder}.

  Definition ordered_acts (p : list nat) (trans : list (sym * nat)) (items : list (nat * itm)) : list act :=
    flat_map (fun x => item_acts (hash_at (fst x :: p)) trans (snd x)) items.

  Definition goto_row_ok (trans : list (sym * nat)) (row : list (V * nat)) : Prop :=
    forall v d, mget v row = Some d -> mget (Var v) trans = Some d.

  Hypothesis Hfs : forall v l x, mget v fs = Some l -> In x l -> exists t, x = Ter t.

  Lemma table_items_spec p st items : forall ac gt,
    (forall i h ib s, In (i, (h, ib)) items -> cursor_symbol ib = Some s -> s <> Eps /\ In s (map fst (cs_trans st))) ->
    goto_row_ok (cs_trans st) (nth (cs_id st) gt []) ->
    exists o, table_items teq p g fs st items (ac, gt) = Val o /\
      match o with
      | None => add_acts (cs_id st) (ordered_acts p (cs_trans st) items) ac = None
      | Some (ac', gt') =>
          add_acts (cs_id st) (ordered_acts p (cs_trans st) items) ac = Some ac' /\
          goto_row_ok (cs_trans st) (nth (cs_id st) gt' []) /\
          (forall v d, mget v (nth (cs_id st) gt []) = Some d -> mget v (nth (cs_id st) gt' []) = Some d) /\
          (forall i h ib v, In (i, (h, ib)) items -> cursor_symbol ib = Some (Var v) ->
             mget v (nth (cs_id st) gt' []) <> None) /\
          (forall i, i <> cs_id st -> nth i gt' [] = nth i gt []) /\
          (length gt' = length gt \/
           (length gt' = Nat.max (S (cs_id st)) (length gt) /\ exists i h ib v, In (i, (h, ib)) items /\ cursor_symbol ib = Some (Var v))) /\
          (forall i h ib v, In (i, (h, ib)) items -> cursor_symbol ib = Some (Var v) -> cs_id st < length gt')
      end.
  Proof.
    induction items as [|[i [h ib]] items IH]; intros ac gt Hc Hg.
    - exists (Some (ac, gt)). split; [reflexivity|]. cbn [ordered_acts flat_map add_acts].
      split; [reflexivity|]. split; [exact Hg|]. split; [auto|]. split; [intros ? ? ? ? []|]. split; [auto|].
      split; [auto|intros ? ? ? ? []].
    - assert (Hc' : forall i h ib s, In (i, (h, ib)) items -> cursor_symbol ib = Some s -> s <> Eps /\ In s (map fst (cs_trans st))).
      { intros i' h' ib' s Hin. apply (Hc i' h' ib' s). right; auto. }
      cbn [table_items ordered_acts flat_map fst snd]. fold (ordered_acts p (cs_trans st) items).
      unfold item_acts at 1 2. rewrite add_acts_app.
      destruct (cursor_symbol ib) as [[t|v|]|] eqn:Ec.
      + destruct (Hc i h ib (Ter t) (or_introl eq_refl) Ec) as [_ Hk]. apply key_mget in Hk. destruct Hk as (d & Ed).
        rewrite Ed. cbn [of_option bind add_acts].
        destruct (insert_action teq (cs_id st) (Some t) (Shift d) ac) as [ac1|].
        * destruct (IH ac1 gt Hc' Hg) as (o & E & H). exists o. split; [exact E|]. destruct o as [[ac' gt']|]; [|auto].
          destruct H as (H1 & H2 & H3 & H4 & H5 & H6 & H7). split; [auto|]. split; [auto|]. split; [auto|].
          split; [|split; [auto|split]].
          -- intros i' h' ib' v [[= <- <- <-]|Hin] Hv; [congruence|]. apply (H4 i' h' ib' v); auto.
          -- destruct H6 as [H6|(H6 & i' & h' & ib' & v & H8 & H9)]; [auto|]. right. split; [auto|].
             exists i', h', ib', v. split; [right; auto|auto].
          -- intros i' h' ib' v [[= <- <- <-]|Hin] Hv; [congruence|]. apply (H7 i' h' ib' v); auto.
        * exists None. auto.
      + destruct (Hc i h ib (Var v) (or_introl eq_refl) Ec) as [_ Hk]. apply key_mget in Hk. destruct Hk as (d & Ed).
        rewrite Ed. cbn [of_option bind add_acts fst snd].
        destruct (insert_goto_spec (cs_id st) v d gt) as (gt1 & -> & G1 & G2 & G3).
        { intros d' H. apply Hg in H. congruence. }
        cbn [bind].
        assert (Hg1 : goto_row_ok (cs_trans st) (nth (cs_id st) gt1 [])).
        { intros u d'. rewrite G1. destruct (eqb_spec u v) as [->|Hn]; [intros [= <-]; auto|apply Hg]. }
        destruct (IH ac gt1 Hc' Hg1) as (o & E & H). exists o. split; [exact E|]. destruct o as [[ac' gt']|]; [|auto].
        destruct H as (H1 & H2 & H3 & H4 & H5 & H6 & H7). split; [auto|]. split; [auto|].
        assert (Hlen : cs_id st < length gt') by (destruct H6 as [H6|(H6 & _)]; lia).
        split; [|split; [|split; [|split]]].
        * intros u d' Hu. apply H3. rewrite G1. destruct (eqb_spec u v) as [->|Hn]; [|auto]. apply Hg in Hu. congruence.
        * intros i' h' ib' u [[= <- <- <-]|Hin] Hu; [|apply (H4 i' h' ib' u); auto].
          assert (u = v) as -> by congruence. rewrite (H3 v d); [discriminate|]. rewrite G1, eqb_refl. auto.
        * intros j Hj. rewrite H5, G2; auto.
        * right. split; [destruct H6 as [H6|(H6 & _)]; lia|]. exists i, h, ib, v. split; [left; auto|auto].
        * intros. auto.
      + destruct (Hc i h ib Eps (or_introl eq_refl) Ec) as [Hk _]. congruence.
      + assert (Hskip : forall ac1, exists o, table_items teq p g fs st items (ac1, gt) = Val o /\
          match o with
          | None => add_acts (cs_id st) (ordered_acts p (cs_trans st) items) ac1 = None
          | Some (ac', gt') =>
            add_acts (cs_id st) (ordered_acts p (cs_trans st) items) ac1 = Some ac' /\
            goto_row_ok (cs_trans st) (nth (cs_id st) gt' []) /\
            (forall v d, mget v (nth (cs_id st) gt []) = Some d -> mget v (nth (cs_id st) gt' []) = Some d) /\
            (forall i' h' ib' v, In (i', (h', ib')) ((i, (h, ib)) :: items) -> cursor_symbol ib' = Some (Var v) ->
               mget v (nth (cs_id st) gt' []) <> None) /\
            (forall i, i <> cs_id st -> nth i gt' [] = nth i gt []) /\
            (length gt' = length gt \/
             (length gt' = Nat.max (S (cs_id st)) (length gt) /\
              exists i' h' ib' v, In (i', (h', ib')) ((i, (h, ib)) :: items) /\ cursor_symbol ib' = Some (Var v))) /\
            (forall i' h' ib' v, In (i', (h', ib')) ((i, (h, ib)) :: items) -> cursor_symbol ib' = Some (Var v) -> cs_id st < length gt')
          end).
        { intros ac1. destruct (IH ac1 gt Hc' Hg) as (o & E & H). exists o. split; [exact E|]. destruct o as [[ac' gt']|]; [|auto].
          destruct H as (H1 & H2 & H3 & H4 & H5 & H6 & H7). split; [auto|]. split; [auto|]. split; [auto|].
          split; [|split; [auto|split]].
          - intros i' h' ib' v [[= <- <- <-]|Hin] Hv; [congruence|]. apply (H4 i' h' ib' v); auto.
          - destruct H6 as [H6|(H6 & i' & h' & ib' & v & H8 & H9)]; [auto|]. right. split; [auto|].
            exists i', h', ib', v. split; [right; auto|auto].
          - intros i' h' ib' v [[= <- <- <-]|Hin] Hv; [congruence|]. apply (H7 i' h' ib' v); auto. }
        destruct (mget h fs) as [l|] eqn:El; [|cbn [add_acts]; apply Hskip].
        rewrite (insert_reduces_acts _ _ _ _ ac).
        2:{ intros x Hx. apply in_hash_at in Hx. eapply Hfs; eauto. }
        cbn [bind]. rewrite add_acts_app.
        destruct (add_acts (cs_id st) (flat_map (reduce_key h (length (ib_body ib))) (hash_at (i :: p) l)) ac) as [ac1|];
          [|exists None; auto].
        destruct (eqb h (g_start g)); [|cbn [add_acts]; apply Hskip].
        cbn [add_acts]. destruct (insert_action teq (cs_id st) None _ ac1) as [ac2|]; [apply Hskip|exists None; auto].
  Qed.

  Lemma ordered_acts_perm p q st :
    Permutation (ordered_acts p (cs_trans st) (enumerate (hash_at q (cs_items st)))) (state_acts st).
  Proof.
    unfold state_acts. transitivity (flat_map (item_acts (fun l => l) (cs_trans st)) (hash_at q (cs_items st))).
    - rewrite <- (map_snd_enumerate (hash_at q (cs_items st))) at 2.
      unfold ordered_acts. apply permutation_flat_map.
      generalize (enumerate (hash_at q (cs_items st))) as l. induction l as [|[i it] l IH]; cbn; constructor; auto.
      apply item_acts_perm. intros l'. apply hash_at_perm.
    - apply permutation_flat_map_arg. apply hash_at_perm.
  Qed.

  (** ** All states *)

  (** The transitions of a state lead somewhere for each symbol after a
      cursor. *)
  Definition state_ready (st : cstate V T) : Prop :=
    NoDup (map fst (cs_trans st)) /\
    (forall s, In s (map fst (cs_trans st)) <-> exists h ib, In (h, ib) (cs_items st) /\ cursor_symbol ib = Some s) /\
    forall h ib, In (h, ib) (cs_items st) -> cursor_symbol ib <> Some Eps.

  Lemma table_states_spec p sts : forall ac gt,
    NoDup (map cs_id sts) -> (forall st, In st sts -> state_ready st) ->
    (forall st, In st sts -> nth (cs_id st) ac [] = []) -> (forall st, In st sts -> nth (cs_id st) gt [] = []) ->
    exists o, table_states teq p g fs sts (ac, gt) = Val o /\
      match o with
      | None => exists st, In st sts /\ ~ distinct (state_acts st)
      | Some (ac', gt') =>
          (forall st, In st sts -> Permutation (nth (cs_id st) ac' []) (state_acts st) /\ distinct (nth (cs_id st) ac' [])) /\
          (forall i, ~ In i (map cs_id sts) -> nth i ac' [] = nth i ac []) /\
          (forall i, i < length ac' <-> i < length ac \/ exists st, In st sts /\ i <= cs_id st /\ state_acts st <> []) /\
          (forall st v d, In st sts -> mget v (nth (cs_id st) gt' []) = Some d <-> In (Var v, d) (cs_trans st)) /\
          (forall i, ~ In i (map cs_id sts) -> nth i gt' [] = nth i gt []) /\
          (forall i, i < length gt' <-> i < length gt \/ exists st v d, In st sts /\ i <= cs_id st /\ In (Var v, d) (cs_trans st))
      end.
  Proof.
    induction sts as [|st sts IH]; intros ac gt Hn Hr Ha Hg; cbn [table_states].
    - eexists. split; [reflexivity|]. split; [intros ? []|]. split; [auto|]. split.
      + intros i. split; [auto|intros [?|(? & [] & _)]; auto].
      + split; [intros ? ? ? []|]. split; [auto|]. intros i. split; [auto|intros [?|(? & ? & ? & [] & _)]; auto].
    - cbn [map] in Hn. inversion Hn as [|? ? Hx Hn']; subst.
      destruct (Hr st (or_introl eq_refl)) as (R1 & R2 & R3).
      set (its := enumerate (hash_at (0 :: cs_id st :: p) (cs_items st))).
      assert (Hits : forall it, In it (map snd its) <-> In it (cs_items st)).
      { intros it. unfold its. rewrite map_snd_enumerate. apply in_hash_at. }
      assert (Hits' : forall i it, In (i, it) its -> In it (cs_items st)).
      { intros i it H. apply Hits. change it with (snd (i, it)). apply in_map; auto. }
      assert (Hits2 : forall it, In it (cs_items st) -> exists i, In (i, it) its).
      { intros it H. apply Hits in H. apply in_map_iff in H. destruct H as ([i it'] & E & H). cbn in E. subst it'. eauto. }
      destruct (table_items_spec (1 :: cs_id st :: p) st its ac gt) as (o & E & H).
      { intros i h ib s Hin Hc. apply Hits' in Hin. split; [intros ->; eapply R3; eauto|]. apply R2. eauto. }
      { rewrite (Hg st (or_introl eq_refl)). intros v d. discriminate. }
      match goal with |- context [bind ?x _] => replace x with (Val o) by (symmetry; exact E) end.
      cbn [bind]. clear E.
      pose proof (ordered_acts_perm (1 :: cs_id st :: p) (0 :: cs_id st :: p) st) as Hperm. fold its in Hperm.
      set (acts := ordered_acts (1 :: cs_id st :: p) (cs_trans st) its) in *.
      pose proof (add_acts_spec (cs_id st) acts ac) as Hadd.
      rewrite (Ha st (or_introl eq_refl)) in Hadd. cbn [app] in Hadd.
      assert (Hfd : fresh_after [] acts <-> distinct acts) by (apply (fresh_distinct [] acts); constructor).
      destruct o as [[ac1 gt1]|].
      2:{ exists None. split; [reflexivity|]. rewrite H in Hadd. exists st. split; [left; auto|].
          intros Hd. apply Hadd, Hfd. eapply distinct_perm; [symmetry; eauto|auto]. }
      destruct H as (H1 & H2 & H3 & H4 & H5 & H6 & H7). rewrite H1 in Hadd. destruct Hadd as (A1 & A2 & A3 & A4).
      apply Hfd in A1.
      assert (Hne : forall st', In st' sts -> cs_id st' <> cs_id st).
      { intros st' Hin E. apply Hx. rewrite <- E. apply in_map; auto. }
      destruct (IH ac1 gt1) as (o & E & H).
      { auto. } { intros st' Hin. apply Hr. right; auto. }
      { intros st' Hin. rewrite A3; auto. apply Ha. right; auto. }
      { intros st' Hin. rewrite H5; auto. apply Hg. right; auto. }
      exists o. split; [exact E|]. destruct o as [[ac2 gt2]|].
      2:{ destruct H as (st' & Hin & Hd). exists st'. split; [right; auto|auto]. }
      destruct H as (I1 & I2 & I3 & I4 & I5 & I6). split; [|split; [|split; [|split; [|split]]]].
      + intros st' [<-|Hin]; auto. rewrite I2, A2; auto.
      + intros i Hi. cbn [map In] in Hi. rewrite I2, A3; auto.
      + intros i. rewrite I3, A4. split.
        * intros [Hi|(st' & Hin & Hi)]; [|right; exists st'; split; [right; auto|auto]].
          destruct acts as [|a acts'] eqn:Ea; [auto|].
          destruct (Nat.lt_ge_cases i (length ac)) as [Hi'|Hi']; [auto|].
          right. exists st. split; [left; auto|]. split; [lia|]. intros E0. rewrite E0 in Hperm.
          apply Permutation_sym, Permutation_nil in Hperm. discriminate.
        * intros [Hi|(st' & [<-|Hin] & Hi & Hs)].
          -- left. destruct acts; lia.
          -- left. destruct acts as [|a acts'] eqn:Ea; [|lia].
             apply Permutation_nil in Hperm. congruence.
          -- right. eauto.
      + intros st' v d [<-|Hin]; auto. rewrite I5; auto.
        split.
        * intros Hv. apply H2 in Hv. apply mget_in. auto.
        * intros Hv. pose proof (in_mget _ _ _ R1 Hv) as Hv'.
          assert (Hk : In (Var v) (map fst (cs_trans st))) by (change (Var v) with (fst (Var v : sym, d)); apply in_map; auto).
          apply R2 in Hk. destruct Hk as (h & ib & Hin & Hc). apply Hits2 in Hin. destruct Hin as (i & Hin).
          pose proof (H4 i h ib v Hin Hc) as H8. destruct (mget v (nth (cs_id st) gt1 [])) as [d'|] eqn:E'; [|congruence].
          apply H2 in E'. congruence.
      + intros i Hi. cbn [map In] in Hi. rewrite I5, H5; auto.
      + intros i. rewrite I6. split.
        * intros [Hi|(st' & v & d & Hin & Hi)]; [|right; exists st', v, d; split; [right; auto|auto]].
          destruct H6 as [H6|(H6 & i' & h & ib & v & Hin & Hc)]; [left; lia|].
          destruct (Nat.lt_ge_cases i (length gt)) as [Hi'|Hi']; [auto|].
          right. apply Hits' in Hin.
          assert (Hk : In (Var v) (map fst (cs_trans st))) by (apply R2; eauto).
          apply in_map_iff in Hk. destruct Hk as ([s d] & E' & Hk). cbn in E'. subst s.
          exists st, v, d. split; [left; auto|]. split; [lia|auto].
        * intros [Hi|(st' & v & d & [<-|Hin] & Hi & Hs)].
          -- left. destruct H6 as [H6|(H6 & _)]; lia.
          -- left.
             assert (Hk : In (Var v) (map fst (cs_trans st))) by (change (Var v) with (fst (Var v : sym, d)); apply in_map; auto).
             apply R2 in Hk. destruct Hk as (h & ib & Hin & Hc). apply Hits2 in Hin. destruct Hin as (i' & Hin).
             pose proof (H7 i' h ib v Hin Hc). lia.
          -- right. eauto 8.
  Qed.
  End Items.

  (** ** The table of an automaton *)

  Record table_ok (g : grammar V T) (c : cfsm V T) (fs : list (V * list sym)) (tb : table V T) : Prop := {
    to_grammar : tb_grammar tb = g;
    to_row : forall st, In st (cf_states c) -> Permutation (nth (cs_id st) (tb_action tb) []) (state_acts g fs st);
    to_distinct : forall st, In st (cf_states c) -> distinct (nth (cs_id st) (tb_action tb) []);
    to_len : forall i, i < length (tb_action tb) <-> exists st, In st (cf_states c) /\ i <= cs_id st /\ state_acts g fs st <> [];
    to_goto : forall st v d, In st (cf_states c) ->
      mget v (nth (cs_id st) (tb_goto tb) []) = Some d <-> In (Var v, d) (cs_trans st);
    to_glen : forall i, i < length (tb_goto tb) <->
      exists st v d, In st (cf_states c) /\ i <= cs_id st /\ In (Var v, d) (cs_trans st)
  }.

  Lemma cfsm_ready g c st : cfsm_ok g c -> In st (cf_states c) -> state_ready st.
  Proof.
    intros Hc Hin. destruct (ok_trans _ _ Hc st Hin) as (H1 & H2 & _). split; auto. split; auto.
    intros h ib H. destruct (ok_items _ _ Hc st Hin) as (_ & H3). destruct (H3 _ H) as (_ & _ & H4). exact H4.
  Qed.

  Lemma new_slr_spec {ho : HashOrder} g c fuel p fs : cfsm_ok g c -> follow_set fuel (0 :: p) g = Val fs ->
    exact_follow g fs ->
    exists o, new_slr teq fuel p c = Val o /\
      match o with
      | None => exists st, In st (cf_states c) /\ ~ distinct (state_acts g fs st)
      | Some tb => table_ok g c fs tb
      end.
  Proof.
    intros Hc Ef Hf. unfold new_slr. rewrite (ok_grammar _ _ Hc), Ef. cbn [bind].
    destruct (table_states_spec g fs) with (p := 1 :: p) (sts := cf_states c) (ac := @nil (list act)) (gt := @nil (list (V * nat)))
      as (o & E & H).
    - intros v l x H1 H2. destruct (ef_sound _ _ Hf v l x H1 H2) as (t & -> & _). eauto.
    - apply (ids_nodup g c Hc).
    - intros st. apply cfsm_ready with g; auto.
    - intros st _. destruct (cs_id st); auto.
    - intros st _. destruct (cs_id st); auto.
    - rewrite E. cbn [bind]. destruct o as [[ac gt]|]; [|exists None; auto].
      destruct H as (H1 & H2 & H3 & H4 & H5 & H6). eexists. split; [reflexivity|]. constructor; cbn [tb_grammar tb_action tb_goto].
      + reflexivity.
      + intros st Hin. apply H1; auto.
      + intros st Hin. apply H1; auto.
      + intros i. rewrite H3. cbn [length]. split; [intros [?|?]; [lia|auto]|auto].
      + auto.
      + intros i. rewrite H6. cbn [length]. split; [intros [?|?]; [lia|auto]|auto].
  Qed.
End Table.
