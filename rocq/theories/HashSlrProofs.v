(** The parser with hash tables behaves as the one of SlrModel.v. *)
From Verif Require Import Base GrammarModel CfsmModel SlrModel HashModel SpecHash TableProofs HashProofs.

Lemma map_resize {A B} (f : list A -> list B) n l : f [] = [] -> map f (resize n l) = resize n (map f l).
Proof. intros E. unfold resize. rewrite map_app, map_length. f_equal. induction (S n - length l) as [|m IH]; cbn; [reflexivity|]. rewrite E, IH. reflexivity. Qed.
Lemma map_set_row {A B} (f : list A -> list B) n row l : map f (set_row n row l) = set_row n (f row) (map f l).
Proof. unfold set_row. rewrite map_app. cbn [map]. rewrite firstn_map, skipn_map. reflexivity. Qed.
Lemma nth_map_nil {A B} (f : list A -> list B) n l : f [] = [] -> nth n (map f l) [] = f (nth n l []).
Proof. intros E. rewrite <- E at 1. apply map_nth. Qed.

Section SlrProofs.
  Context {V T : Type} {dv : DecEq V} {dt : DecEq T}.
  Context (teq teq0 : T -> T -> bool) (wt : T -> list word) (wv : V -> list word).
  Context (H : bool -> nat -> list word -> N) (probe : list N -> N -> list nat).
  Context {ho : HashOrder}.
  Hypothesis Hfinds : finds probe.
  Hypothesis Heq : equivalence teq0.
  Hypothesis HA : forall s k k', key_eq teq0 k k' = true -> key_hash wt H s k = key_hash wt H s k' /\ key_eq teq k k' = true.
  Hypothesis HB : forall s hs k k' i, In i (probe hs (key_hash wt H s k)) -> nth_error hs i = Some (key_hash wt H s k') ->
    key_eq teq k k' = true -> key_eq teq0 k k' = true.

  Lemma key_equivalence : equivalence (key_eq teq0).
  Proof.
    destruct Heq as [R [S Tr]]. repeat split.
    - intros [x|]; cbn; auto.
    - intros [x|] [y|]; cbn; auto.
    - intros [x|] [y|] [z|]; cbn; eauto; discriminate.
  Qed.
  Lemma eqb_equivalence {A} `{DecEq A} : equivalence (eqb (A := A)).
  Proof.
    repeat split.
    - intros x. now apply eqb_eq.
    - intros x y E. apply eqb_eq in E. subst. now apply eqb_eq.
    - intros x y z E1 E2. apply eqb_eq in E1, E2. subst. now apply eqb_eq.
  Qed.

  Definition awf (tb : h_actions V T) : Prop := forall s, hwf (key_eq teq0) (key_hash wt H s) (nth s tb []).
  Definition gwf (tb : h_gotos V) : Prop := forall s, hwf (eqb (A := V)) (var_hash wv H s) (nth s tb []).
  Definition plain {A B} (tb : list (hmap A B)) : list (list (A * B)) := map (map snd) tb.

  Lemma row_get_aget k (row : list (key T * action V)) : row_get teq0 k row = aget (key_eq teq0) k row.
  Proof. induction row as [|[k' a] r IH]; cbn; [reflexivity|]. now rewrite IH. Qed.
  Lemma mget_aget {A B} `{DecEq A} (k : A) (l : list (A * B)) : mget k l = aget eqb k l.
  Proof. induction l as [|[k' a] r IH]; cbn; [reflexivity|]. now rewrite IH. Qed.

  Lemma h_row_get_ok s k (row : hmap (key T) (action V)) : hwf (key_eq teq0) (key_hash wt H s) row ->
    h_row_get teq wt H probe s k row = row_get teq0 k (map snd row).
  Proof.
    intros W. rewrite row_get_aget. unfold h_row_get.
    apply (h_get_aget (key_eq teq) (key_eq teq0)); [exact Hfinds|exact key_equivalence|apply HA|apply HB|exact W].
  Qed.
  Lemma h_goto_get_ok s v row : hwf eqb (var_hash wv H s) row -> h_goto_get wv H probe s v row = mget v (map snd row).
  Proof.
    intros W. rewrite mget_aget. unfold h_goto_get.
    apply (h_get_aget eqb eqb); [exact Hfinds|apply eqb_equivalence| |auto|exact W].
    intros k k' E. split; [|exact E]. apply eqb_eq in E. now subst.
  Qed.

  Lemma awf_nth_error tb s row : awf tb -> nth_error tb s = Some row -> hwf (key_eq teq0) (key_hash wt H s) row.
  Proof. intros W E. rewrite <- (nth_error_nth tb s [] E). apply W. Qed.
  Lemma gwf_nth_error tb s row : gwf tb -> nth_error tb s = Some row -> hwf eqb (var_hash wv H s) row.
  Proof. intros W E. rewrite <- (nth_error_nth tb s [] E). apply W. Qed.

  Lemma nth_set_resize {A} s (row : list A) tb i : nth i (set_row s row (resize s tb)) [] = if Nat.eqb i s then row else nth i tb [].
  Proof.
    assert (L : s < length (resize s tb)) by (rewrite resize_length; lia).
    destruct (Nat.eqb_spec i s) as [->|N].
    - apply nth_set_row_same. exact L.
    - rewrite nth_set_row_other by assumption. apply nth_resize.
  Qed.

  Definition ract (o : option (h_actions V T)) (o' : option (action_table (V := V) (T := T))) : Prop :=
    match o, o' with
    | Some tb, Some tb' => awf tb /\ tb' = plain tb
    | None, None => True
    | _, _ => False
    end.

  Lemma insert_action_ok s k a tb : awf tb ->
    ract (h_insert_action teq wt H probe s k a tb) (insert_action teq0 s k a (plain tb)).
  Proof.
    intros W. unfold h_insert_action, insert_action, plain.
    rewrite <- map_resize by reflexivity. rewrite nth_map_nil by reflexivity.
    rewrite !nth_resize. rewrite (h_row_get_ok s k _ (W s)).
    destruct (row_get teq0 k (map snd (nth s tb []))) eqn:E; [exact I|]. split.
    - intros i. rewrite nth_set_resize. destruct (Nat.eqb_spec i s) as [->|N]; [|apply W].
      apply hwf_snoc; [exact key_equivalence|apply W|].
      intros e He. destruct (key_eq teq0 k (fst (snd e))) eqn:Ek; [|reflexivity]. exfalso.
      rewrite row_get_aget in E. clear - E He Ek. induction (nth s tb []) as [|[h [k' b]] r IH]; [destruct He|].
      cbn in E. destruct (key_eq teq0 k k') eqn:E1; [discriminate|].
      destruct He as [<-|He]; [cbn in Ek; congruence|auto].
    - unfold plain. rewrite map_set_row, map_app. reflexivity.
  Qed.

  Lemma mupdate_none v d (l : list (V * nat)) : mget v l = None -> mupdate v 0 (fun _ => d) l = l ++ [(v, d)].
  Proof. induction l as [|[k b] r IH]; cbn; [reflexivity|]. destruct (eqb v k); [discriminate|]. intros E. now rewrite IH. Qed.
  Lemma mupdate_at v d b l1 l2 : mget v l1 = None ->
    mupdate v 0 (fun _ => d) (l1 ++ (v, b) :: l2) = (l1 ++ (v, d) :: l2 : list (V * nat)).
  Proof.
    induction l1 as [|[k' b'] r IH]; cbn.
    - intros _. assert (E : eqb v v = true) by now apply eqb_eq. rewrite E. reflexivity.
    - destruct (eqb v k'); [discriminate|]. intros E. now rewrite IH.
  Qed.

  Lemma h_insert_plain s v d row : hwf eqb (var_hash wv H s) row ->
    map snd (h_insert eqb (var_hash wv H s) probe v d row) = mupdate v 0 (fun _ => d) (map snd row).
  Proof.
    intros W.
    assert (HA' : forall k k', eqb k k' = true -> var_hash wv H s k = var_hash wv H s k' /\ eqb k k' = true).
    { intros k k' E. split; [|exact E]. apply eqb_eq in E. now subst. }
    unfold h_insert. destruct (h_find eqb (var_hash wv H s) probe v row) as [i|] eqn:E.
    - destruct (h_find_some eqb eqb _ _ (fun _ _ _ _ _ _ E => E) _ _ _ W E) as [k' [b [Ei Ek]]].
      apply eqb_eq in Ek. subst k'. rewrite Ei. destruct (split_at _ _ _ Ei) as [Em _].
      remember (firstn i row) as l1. remember (skipn (S i) row) as l2. clear Heql1 Heql2 Ei E. subst row.
      rewrite !map_app. cbn [map snd app]. symmetry. apply mupdate_at.
      rewrite mget_aget. apply aget_none. intros e He. apply in_map_iff in He. destruct He as [e' [<- He]].
      apply (hwf_others eqb _ _ _ _ _ _ W). auto.
    - rewrite map_app. symmetry. apply mupdate_none. rewrite mget_aget. apply aget_none.
      intros e He. apply in_map_iff in He. destruct He as [e' [<- He]].
      exact (h_find_none eqb eqb _ _ Hfinds HA' _ _ W E _ He).
  Qed.

  Lemma h_insert_wf s v d (row : hmap V nat) : hwf eqb (var_hash wv H s) row -> hwf eqb (var_hash wv H s) (h_insert eqb (var_hash wv H s) probe v d row).
  Proof.
    intros W. apply (h_insert_ok eqb eqb); [exact Hfinds|apply eqb_equivalence| |auto|exact W].
    intros k k' E. split; [|exact E]. apply eqb_eq in E. now subst.
  Qed.

  Definition rres {A B} (R : A -> B -> Prop) (x : res A) (y : res B) : Prop :=
    match x, y with
    | Val a, Val b => R a b
    | Panic, Panic => True
    | Diverge, Diverge => True
    | _, _ => False
    end.

  Lemma rres_bind {A B A' B'} (R : A -> B -> Prop) (R' : A' -> B' -> Prop) x y f g :
    rres R x y -> (forall a b, R a b -> rres R' (f a) (g b)) -> rres R' (bind x f) (bind y g).
  Proof. destruct x, y; cbn; auto; intros []. Qed.
  Lemma rres_bind_same {A A' B'} (R' : A' -> B' -> Prop) (x : res A) f g :
    (forall a, rres R' (f a) (g a)) -> rres R' (bind x f) (bind x g).
  Proof. destruct x; cbn; auto. Qed.

  Lemma insert_goto_ok s v d tb : gwf tb ->
    rres (fun a b => gwf a /\ b = plain a) (h_insert_goto wv H probe s v d tb) (insert_goto s v d (plain tb)).
  Proof.
    intros W. unfold h_insert_goto, insert_goto, plain.
    rewrite <- map_resize by reflexivity. rewrite nth_map_nil by reflexivity. rewrite nth_resize.
    rewrite (h_goto_get_ok s v _ (W s)).
    assert (R : gwf (set_row s (h_insert eqb (var_hash wv H s) probe v d (nth s tb [])) (resize s tb)) /\
                set_row s (mupdate v 0 (fun _ => d) (map snd (nth s tb []))) (map (map snd) (resize s tb)) =
                map (map snd) (set_row s (h_insert eqb (var_hash wv H s) probe v d (nth s tb [])) (resize s tb))).
    { split.
      - intros i. rewrite nth_set_resize. destruct (Nat.eqb_spec i s) as [->|N]; [apply h_insert_wf|]; apply W.
      - rewrite map_set_row. rewrite (h_insert_plain s v d _ (W s)). reflexivity. }
    destruct (mget v (map snd (nth s tb []))) as [d'|]; [destruct (Nat.eqb d' d)|]; cbn; auto.
  Qed.

  Lemma insert_reduces_ok s head amount follow : forall tb, awf tb ->
    rres ract (h_insert_reduces teq wt H probe s head amount follow tb) (insert_reduces teq0 s head amount follow (plain tb)).
  Proof.
    induction follow as [|[t|v|] r IH]; intros tb W; cbn [h_insert_reduces insert_reduces]; [cbn; auto| |exact I|auto].
    pose proof (insert_action_ok s (Some t) (Reduce head amount) tb W) as R.
    destruct (h_insert_action teq wt H probe s (Some t) (Reduce head amount) tb) as [tb'|],
             (insert_action teq0 s (Some t) (Reduce head amount) (plain tb)) as [tb''|]; cbn in R; try contradiction; [|exact I].
    destruct R as [W' ->]. apply IH. exact W'.
  Qed.

  Definition rtbs (x : h_actions V T * h_gotos V) (y : action_table (V := V) (T := T) * goto_table (V := V)) : Prop :=
    awf (fst x) /\ gwf (snd x) /\ y = (plain (fst x), plain (snd x)).
  Definition ropt {A B} (R : A -> B -> Prop) (x : option A) (y : option B) : Prop :=
    match x, y with Some a, Some b => R a b | None, None => True | _, _ => False end.

  Lemma table_items_ok p g fs st items : forall tbs tbs', rtbs tbs tbs' ->
    rres (ropt rtbs) (h_table_items teq wt wv H probe p g fs st items tbs) (table_items teq0 p g fs st items tbs').
  Proof.
    induction items as [|[i [head ib]] r IH]; intros [ac gt] tbs' [Wa [Wg ->]]; cbn [fst snd] in *.
    - cbn. split; [|split]; auto.
    - cbn [h_table_items table_items]. destruct (cursor_symbol ib) as [[t|v|]|].
      + apply rres_bind_same. intros d. cbn [fst snd].
        pose proof (insert_action_ok (cs_id st) (Some t) (Shift d) ac Wa) as R.
        destruct (h_insert_action teq wt H probe (cs_id st) (Some t) (Shift d) ac) as [tb'|],
                 (insert_action teq0 (cs_id st) (Some t) (Shift d) (plain ac)) as [tb''|]; cbn in R; try contradiction; [|exact I].
        destruct R as [W' ->]. apply IH. split; [|split]; auto.
      + apply rres_bind_same. intros d. cbn [fst snd]. eapply rres_bind; [apply insert_goto_ok; exact Wg|].
        intros a b [W' ->]. apply IH. split; [|split]; auto.
      + exact I.
      + destruct (mget head fs) as [follow|]; [|apply IH; split; [|split]; auto].
        cbn [fst snd]. eapply rres_bind; [apply insert_reduces_ok; exact Wa|].
        intros [a|] [b|] R; cbn in R; try contradiction; [|exact I]. destruct R as [W' ->].
        destruct (eqb head (g_start g)); [|apply IH; split; [|split]; auto].
        pose proof (insert_action_ok (cs_id st) None (Accept head (length (ib_body ib))) a W') as R.
        destruct (h_insert_action teq wt H probe (cs_id st) None (Accept head (length (ib_body ib))) a) as [tb'|],
                 (insert_action teq0 (cs_id st) None (Accept head (length (ib_body ib))) (plain a)) as [tb''|]; cbn in R; try contradiction; [|exact I].
        destruct R as [W'' ->]. apply IH. split; [|split]; auto.
  Qed.

  Lemma table_states_ok p g fs sts : forall tbs tbs', rtbs tbs tbs' ->
    rres (ropt rtbs) (h_table_states teq wt wv H probe p g fs sts tbs) (table_states teq0 p g fs sts tbs').
  Proof.
    induction sts as [|st r IH]; intros tbs tbs' R; cbn [h_table_states table_states]; [exact R|].
    eapply rres_bind; [apply table_items_ok; exact R|]. intros [a|] [b|] R'; cbn in R'; try contradiction; [|exact I]. apply IH. exact R'.
  Qed.

  Definition rtable (x : h_table V T) (y : table V T) : Prop :=
    rtbs (ht_action x, ht_goto x) (tb_action y, tb_goto y) /\ tb_grammar y = ht_grammar x.

  Lemma slr_new_ok fuel p g : rres rtable (h_slr_new teq wt wv H probe fuel p g) (slr_new teq0 fuel p g).
  Proof.
    unfold h_slr_new, slr_new. apply rres_bind_same. intros c. unfold h_new_slr, new_slr.
    eapply (rres_bind (ropt rtable)).
    - apply rres_bind_same. intros fs. eapply rres_bind; [apply table_states_ok|].
      + split; [|split]; try (intros s; destruct s; apply hwf_nil). reflexivity.
      + intros [[a ga]|] [[b gb]|] R; cbn in R; try contradiction; [|exact I]. split; [exact R|reflexivity].
    - intros [a|] [b|] R; cbn in R; try contradiction; [exact R|exact I].
  Qed.

  Lemma plain_nth_error {A B} (tb : list (hmap A B)) i : nth_error (plain tb) i = option_map (map snd) (nth_error tb i).
  Proof. apply nth_error_map. Qed.

  Lemma handle_token_ok x y token stack cur : rtable x y ->
    h_handle_token teq wt wv H probe x token stack cur = handle_token teq0 y token stack cur.
  Proof.
    intros [[Wa [Wg E]] _]. cbn [fst snd] in *. injection E as Ea Eg.
    unfold h_handle_token, handle_token. rewrite Ea, plain_nth_error.
    destruct (nth_error (ht_action x) cur) as [row|] eqn:Er; cbn [option_map of_option bind]; [|reflexivity].
    rewrite (h_row_get_ok cur token row (awf_nth_error _ _ _ Wa Er)).
    destruct (row_get teq0 token (map snd row)) as [[d|v amount|v amount]|]; try reflexivity.
    destruct (drain amount stack) as [[popped rest]| |]; cbn [bind]; try reflexivity.
    destruct (of_option (hd_error rest)) as [top| |]; cbn [bind]; try reflexivity.
    rewrite Eg, plain_nth_error. destruct (nth_error (ht_goto x) (snd top)) as [grow|] eqn:Egr; cbn [option_map of_option bind]; [|reflexivity].
    rewrite (h_goto_get_ok (snd top) v grow (gwf_nth_error _ _ _ Wg Egr)). reflexivity.
  Qed.

  Lemma eof_loop_ok x y fuel : rtable x y -> forall stack cur,
    h_eof_loop teq wt wv H probe fuel x stack cur = eof_loop teq0 fuel y stack cur.
  Proof.
    intros R. induction fuel as [|f IH]; intros stack cur; cbn [h_eof_loop eof_loop]; [reflexivity|].
    rewrite (handle_token_ok x y None stack cur R). destruct (handle_token teq0 y None stack cur) as [[[[[tk st] pn] [|]]|]| |]; cbn [bind]; auto.
  Qed.

  Lemma parse_from_ok x y : rtable x y -> forall L (next : L -> res (option T * L)) fuel inp,
    h_parse_from teq wt wv H probe next fuel x inp = parse_from teq0 next fuel y inp.
  Proof.
    intros R L next fuel inp. unfold h_parse_from, parse_from. destruct R as [R Eg]. rewrite <- Eg.
    assert (R' : rtable x y) by (split; assumption). clear R Eg.
    generalize (@None T) as tok. generalize [(Node (Var (g_start (tb_grammar y))) ([] : list (node V T)), 0)] as stack. generalize 0 as cur. revert inp.
    induction fuel as [|f IH]; intros inp cur stack tok; cbn [h_parse_loop parse_loop]; [reflexivity|].
    destruct (match tok with Some t => Val (Some t, inp) | None => next inp end) as [[[t|] inp']| |]; cbn [bind]; try reflexivity.
    - rewrite (handle_token_ok x y (Some t) stack cur R').
      destruct (handle_token teq0 y (Some t) stack cur) as [[[[[tk st] pn] [|]]|]| |]; cbn [bind]; auto.
    - apply eof_loop_ok. exact R'.
  Qed.
End SlrProofs.
