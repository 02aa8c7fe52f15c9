(** FOLLOW sets: structural characterisation and correctness of the work
    list. *)
From Verif Require Import Base GrammarModel CfsmModel SlrModel SpecCfg GrammarProofs FirstProofs.

Lemma app_split {A} (a b c d : list A) : a ++ b = c ++ d ->
  (exists l, a = c ++ l /\ d = l ++ b) \/ (exists l, c = a ++ l /\ b = l ++ d).
Proof.
  revert c. induction a as [|x a IH]; intros c H.
  - right. exists c. auto.
  - destruct c as [|y c].
    + left. exists (x :: a). auto.
    + injection H as <- H. apply IH in H. destruct H as [(l & -> & ->)|(l & -> & ->)].
      * left. exists l. auto.
      * right. exists l. auto.
Qed.

(** An occurrence of [x] in an append of two lists. *)
Lemma app_split_cons {A} (a b l : list A) x r : a ++ b = l ++ x :: r ->
  (exists r1, a = l ++ x :: r1 /\ r = r1 ++ b) \/ (exists l1, l = a ++ l1 /\ b = l1 ++ x :: r).
Proof.
  intros H. apply app_split in H. destruct H as [([|y k] & H1 & H2)|(k & H1 & H2)].
  - right. exists []. rewrite app_nil_r in *. subst. auto.
  - injection H2 as <- ->. left. eauto.
  - right. eauto.
Qed.

Section Derivations.
  Context {V T : Type}.
  Implicit Types (g : grammar V T) (t : T) (v : V).
  Notation sym := (symbol V T).

  Inductive followb g : V -> T -> Prop :=
  | follow_direct : forall h l v r t, rule g h (l ++ Var v :: r) -> startb g r t -> followb g v t
  | follow_up : forall h l v r t, rule g h (l ++ Var v :: r) -> nullb g r -> followb g h t -> followb g v t.

  Lemma start_step g x y t : step g x y -> startb g y t -> startb g x t.
  Proof.
    intros Hs Hy. apply start_steps in Hy. destruct Hy as (r & Hy). apply start_steps. exists r.
    eapply steps_trans; [apply step_steps; eauto|auto].
  Qed.

  Lemma follow_form g x y : steps g [Var x] y ->
    forall l v r t, y = l ++ Var v :: r -> startb g r t -> followb g v t.
  Proof.
    intros H. remember [Var x] as z eqn:Ez. induction H as [z|z y w H IH Hs]; intros l v r t E Hr.
    - subst z. destruct l as [|? [|]]; try discriminate. injection E as <- <-. inversion Hr.
    - specialize (IH Ez). destruct Hs as [l0 u bd r0 Hu|l0 r0].
      + apply app_split_cons in E. destruct E as [(r1 & -> & ->)|(l1 & -> & E)].
        * apply (IH l v (r1 ++ Var u :: r0)); [rewrite <- app_assoc; reflexivity|].
          eapply start_step; [|exact Hr]. constructor. auto.
        * apply app_split_cons in E. destruct E as [(r1 & -> & ->)|(l2 & -> & E)].
          -- apply start_app in Hr. destruct Hr as [Hr|[Hn Hr]].
             ++ eapply follow_direct; eauto.
             ++ eapply follow_up; eauto.
          -- apply (IH (l0 ++ Var u :: l2) v r); auto. rewrite <- app_assoc. cbn. rewrite E. reflexivity.
      + apply app_split_cons in E. destruct E as [(r1 & -> & ->)|(l1 & -> & E)].
        * apply (IH l v (r1 ++ Eps :: r0)); [rewrite <- app_assoc; reflexivity|].
          eapply start_step; [|exact Hr]. constructor.
        * apply (IH (l0 ++ Eps :: l1) v r); auto. rewrite <- app_assoc. cbn. rewrite E. reflexivity.
  Qed.

  Lemma follow_steps g v t : followb g v t <-> followed_by g v t.
  Proof.
    unfold followed_by. split.
    - induction 1 as [h l v r t Hr Hs|h l v r t Hr Hn Hf IH].
      + apply start_steps in Hs. destruct Hs as (r' & Hs). exists h, l, r'. split; [eauto|].
        eapply steps_trans; [apply step_steps; pose proof (step_rule g [] h _ [] Hr) as H;
                             cbn in H; rewrite app_nil_r in H; exact H|].
        pose proof (steps_ctx g (l ++ [Var v]) [] _ _ Hs) as H. rewrite !app_nil_r, <- !app_assoc in H. exact H.
      + destruct IH as (x & l' & r' & Hx & IH). exists x, (l' ++ l), r'. split; auto.
        eapply steps_trans; [exact IH|].
        eapply steps_trans; [apply step_steps; constructor; eauto|].
        apply null_steps in Hn. pose proof (steps_ctx g (l' ++ l ++ [Var v]) (Ter t :: r') _ _ Hn) as H.
        rewrite <- !app_assoc in *. cbn in *. exact H.
    - intros (x & l & r & _ & H). eapply follow_form; [exact H|reflexivity|constructor].
  Qed.
End Derivations.

Section Follow.
  Context {V T : Type} {dv : DecEq V} {dt : DecEq T} {ho : HashOrder}.
  Notation sym := (symbol V T).
  Notation bod := (body V T).
  Notation sets := (list (V * list sym)).
  Notation wst := (@wstate V T).
  Implicit Types (st : wst) (m : sets) (v h : V).
  Variable g : grammar V T.
  Hypothesis Hgood : good g.

  (** ** The first phase *)

  Definition elem m v (x : sym) : Prop := exists l, mget v m = Some l /\ In x l.
  Definition dep (deps : list (V * list V)) h v : Prop := exists l, mget h deps = Some l /\ In v l.

  Definition sets_ok m : Prop := NoDup (map fst m) /\ forall v l, In (v, l) m -> NoDup l.
  Definition deps_ok (deps : list (V * list V)) : Prop := NoDup (map fst deps).

  Lemma elem_extend m k v syms x :
    elem (mupdate k [] (set_extend syms) m) v x <-> elem m v x \/ (v = k /\ In x syms).
  Proof.
    unfold elem. rewrite mget_mupdate. destruct (eqb_spec v k) as [->|Hne].
    - split.
      + intros (l & E & Hx). injection E as <-. apply in_set_extend in Hx. destruct Hx as [Hx|Hx]; auto.
        left. destruct (mget k m) as [l|]; [eauto|destruct Hx].
      + intros [(l & E & Hx)|[_ Hx]]; eexists; (split; [reflexivity|]); apply in_set_extend; auto.
        right. rewrite E. auto.
    - split; [auto|]. intros [H|[H _]]; [auto|congruence].
  Qed.

  Lemma sets_ok_extend m k syms : sets_ok m -> sets_ok (mupdate k [] (set_extend syms) m).
  Proof.
    intros [H1 H2]. split; [apply mupdate_nodup; auto|].
    intros v l Hl. apply in_mupdate in Hl. destruct Hl as [Hl|(-> & [->|(b & Hb & ->)])]; eauto.
    - apply nodup_set_extend. constructor.
    - apply nodup_set_extend. eauto.
  Qed.

  Lemma dep_insert deps k w h v :
    dep (mupdate k [] (set_insert w) deps) h v <-> dep deps h v \/ (h = k /\ v = w).
  Proof.
    unfold dep. rewrite mget_mupdate. destruct (eqb_spec h k) as [->|Hne].
    - split.
      + intros (l & E & Hx). injection E as <-. apply in_set_insert in Hx. destruct Hx as [Hx|Hx]; auto.
        left. destruct (mget k deps) as [l|]; [eauto|destruct Hx].
      + intros [(l & E & Hx)|[_ Hx]]; eexists; (split; [reflexivity|]); apply in_set_insert; auto.
        right. rewrite E. auto.
    - split; [auto|]. intros [H|[H _]]; [auto|congruence].
  Qed.

  (** What a family of occurrences contributes to a state: [R h v r] says that
      [v] occurs in a body of [h] with [r] after it. *)
  Record contributes (R : V -> V -> bod -> Prop) st st' : Prop := {
    ct_elem : forall v x, elem (w_result st') v x <->
                elem (w_result st) v x \/ exists h r t, R h v r /\ startb g r t /\ x = Ter t;
    ct_key : forall v, In v (map fst (w_result st')) <->
                In v (map fst (w_result st)) \/ exists h r, R h v r /\ r <> [];
    ct_dep : forall h v, dep (w_deps st') h v <->
                dep (w_deps st) h v \/ exists r, R h v r /\ nullb g r;
    ct_sets : sets_ok (w_result st) -> sets_ok (w_result st');
    ct_deps : deps_ok (w_deps st) -> deps_ok (w_deps st')
  }.

  Lemma contributes_refl st : contributes (fun _ _ _ => False) st st.
  Proof.
    split; auto; intros; split; auto; (intros [H|H]; [auto|]); decompose [ex and] H; tauto.
  Qed.

  Lemma contributes_trans R1 R2 st1 st2 st3 :
    contributes R1 st1 st2 -> contributes R2 st2 st3 -> contributes (fun h v r => R1 h v r \/ R2 h v r) st1 st3.
  Proof.
    intros [] []. split; auto.
    - intros v x. rewrite ct_elem1, ct_elem0. split.
      + intros [[H|(h & r & t & H)]|(h & r & t & H)]; auto; right; exists h, r, t; tauto.
      + intros [H|(h & r & t & [H|H] & H')]; auto; [left; right|right]; exists h, r, t; auto.
    - intros v. rewrite ct_key1, ct_key0. split.
      + intros [[H|(h & r & H)]|(h & r & H)]; auto; right; exists h, r; tauto.
      + intros [H|(h & r & [H|H] & H')]; auto; [left; right|right]; exists h, r; auto.
    - intros h v. rewrite ct_dep1, ct_dep0. split.
      + intros [[H|(r & H)]|(r & H)]; auto; right; exists r; tauto.
      + intros [H|(r & [H|H] & H')]; auto; [left; right|right]; exists r; auto.
  Qed.

  Lemma contributes_ext (R1 R2 : V -> V -> bod -> Prop) st st' :
    (forall h v r, R1 h v r <-> R2 h v r) -> contributes R1 st st' -> contributes R2 st st'.
  Proof.
    intros HR []. split; auto.
    - intros v x. rewrite ct_elem0. split; (intros [H|(h & r & t & H & H')]; [auto|right; exists h, r, t; apply HR in H; auto]).
    - intros v. rewrite ct_key0. split; (intros [H|(h & r & H & H')]; [auto|right; exists h, r; apply HR in H; auto]).
    - intros h v. rewrite ct_dep0. split; (intros [H|(r & H & H')]; [auto|right; exists r; apply HR in H; auto]).
  Qed.

  (** Occurrences in a body suffix. *)
  Definition occurs (head : V) (rest : bod) (h v : V) (r : bod) : Prop :=
    h = head /\ exists l, rest = l ++ Var v :: r.

  Lemma occurs_cons head s tl h v r :
    occurs head (s :: tl) h v r <-> (h = head /\ s = Var v /\ r = tl) \/ occurs head tl h v r.
  Proof.
    unfold occurs. split.
    - intros (E & [|x l] & H); injection H as -> ->; [auto|]. right. eauto.
    - intros [(E & -> & ->)|(E & l & ->)]; (split; [exact E|]); [exists []; auto|exists (s :: l); auto].
  Qed.

  Lemma occurs_nil head h v r : ~ occurs head [] h v r.
  Proof. intros (_ & [|] & H); discriminate. Qed.

  Lemma follow_scan_spec head rest : forall p st,
    (forall x, In (Var x) rest -> exists b, rule g x b) ->
    exists n st', (forall fuel, n <= fuel -> follow_scan fuel p g head rest st = Val st') /\
      contributes (occurs head rest) st st'.
  Proof.
    induction rest as [|s tl IH]; intros p st Hcl.
    - exists 0, st. split; [intros [|fuel]; reflexivity|].
      eapply contributes_ext; [|apply contributes_refl]. intros h v r. split; [tauto|]. apply occurs_nil.
    - assert (Hcl' : forall x, In (Var x) tl -> exists b, rule g x b) by (intros; apply Hcl; right; auto).
      assert (Hskip : (forall u, s <> Var u) -> (forall fuel, follow_scan fuel p g head (s :: tl) st = follow_scan fuel p g head tl st) ->
                exists n st', (forall fuel, n <= fuel -> follow_scan fuel p g head (s :: tl) st = Val st') /\
                  contributes (occurs head (s :: tl)) st st').
      { intros Hs Hf. destruct (IH p st Hcl') as (n & st' & E & Hct). exists n, st'. split.
        - intros fuel Hfuel. rewrite Hf. auto.
        - eapply contributes_ext; [|exact Hct]. intros h v r. rewrite occurs_cons.
          split; [auto|]. intros [(_ & H & _)|H]; [destruct (Hs v); auto|auto]. }
      destruct s as [t|u|].
      + apply Hskip; [discriminate|]. intros [|fuel]; reflexivity.
      + clear Hskip. destruct tl as [|a tl].
        * exists 0, (add_follow_dep head u st). split; [intros [|fuel]; reflexivity|].
          eapply (contributes_ext (fun h v r => h = head /\ v = u /\ r = [])).
          { intros h v r. rewrite occurs_cons. split.
            - intros (H1 & -> & H3). auto.
            - intros [(H1 & H2 & H3)|H]; [injection H2; auto|destruct (occurs_nil _ _ _ _ H)]. }
          split; cbn [add_follow_dep w_result w_deps]; auto.
          -- intros v x. split; auto. intros [H|(h & r & t & (_ & _ & ->) & Hs & _)]; auto. inversion Hs.
          -- intros v. split; auto. intros [H|(h & r & (_ & _ & ->) & Hs)]; auto. congruence.
          -- intros h v. rewrite dep_insert. split; (intros [H|H]; [auto|right]).
             ++ exists []. split; [tauto|constructor].
             ++ destruct H as (r & H & _). tauto.
          -- apply mupdate_nodup.
        * set (tl' := a :: tl) in *.
          destruct (first_body_exact g Hgood (length tl' :: p) tl') as (n1 & f & Ef & Hf1 & Hf2 & Hf3).
          { unfold tl'; discriminate. }
          { auto. }
          set (st1 := if memb Eps f then add_follow_dep head u st else st).
          set (st2 := {| w_result := mupdate u [] (set_extend (filter (fun s => negb (is_eps s)) f)) (w_result st1);
                         w_deps := w_deps st1 |} : wst).
          destruct (IH p st2 Hcl') as (n2 & st' & E2 & Hct).
          exists (n1 + n2), st'. split.
          { intros fuel Hfuel. unfold tl'. cbn [follow_scan]. fold tl'.
            rewrite Ef by lia. cbn [bind]. fold st1. fold st2. apply E2. lia. }
          eapply (contributes_ext (fun h v r => (h = head /\ v = u /\ r = tl') \/ occurs head tl' h v r)).
          { intros h v r. rewrite (occurs_cons head _ tl'). split; (intros [H|H]; [left|right; auto]).
            - destruct H as (H1 & -> & H3). auto.
            - destruct H as (H1 & H2 & H3). injection H2; auto. }
          apply (contributes_trans _ _ st st2 st'); auto.
          assert (Hr1 : w_result st1 = w_result st) by (unfold st1; destruct (memb Eps f); reflexivity).
          assert (Hin : forall x, In x (filter (fun s => negb (is_eps s)) f) <-> exists t, startb g tl' t /\ x = Ter t).
          { intros x. rewrite filter_In. split.
            - intros (H1 & H2). destruct x as [t|v|]; cbn in H2; try discriminate.
              + apply Hf1 in H1. destruct H1 as (b & <- & H1). eauto.
              + destruct (Hf3 v H1).
            - intros (t & H1 & ->). split; [|reflexivity]. apply Hf1. eauto. }
          split; unfold st2; cbn [w_result w_deps].
          -- intros v x. rewrite elem_extend, Hr1, Hin. split; (intros [H|H]; [auto|right]).
             ++ destruct H as (-> & t & H1 & H2). exists head, tl', t. auto.
             ++ destruct H as (h & r & t & (-> & -> & ->) & H2 & H3). eauto.
          -- intros v. rewrite in_mupdate_keys, Hr1. split; (intros [H|H]; [|auto]).
             ++ right. exists head, tl'. split; [auto|unfold tl'; discriminate].
             ++ auto.
             ++ destruct H as (h & r & (_ & -> & _) & _). auto.
          -- intros h v. unfold st1. destruct (memb Eps f) eqn:Em; cbn [add_follow_dep w_deps].
             ++ rewrite dep_insert. split; (intros [H|H]; [auto|right]).
                ** destruct H as (-> & ->). exists tl'. split; auto.
                   apply memb_in, Hf2 in Em. destruct Em as (b & <- & Hb). auto.
                ** destruct H as (r & H & _). tauto.
             ++ split; [auto|]. intros [H|(r & (_ & _ & ->) & Hn)]; auto.
                apply memb_not_in in Em. destruct Em. apply Hf2. eauto.
          -- intros Hok. apply sets_ok_extend. rewrite Hr1. auto.
          -- unfold st1. destruct (memb Eps f); cbn [add_follow_dep w_deps]; auto. apply mupdate_nodup.
      + apply Hskip; [discriminate|]. intros [|fuel]; reflexivity.
  Qed.

  Lemma follow_rules_spec rs : forall p st,
    (forall h b x, In (h, b) (map snd rs) -> In (Var x) b -> exists b', rule g x b') ->
    exists n st', (forall fuel, n <= fuel -> follow_rules fuel p g rs st = Val st') /\
      contributes (fun h v r => exists b, In (h, b) (map snd rs) /\ occurs h b h v r) st st'.
  Proof.
    induction rs as [|(i & head & bd) rs IH]; intros p st Hcl.
    - exists 0, st. split; [intros [|]; reflexivity|].
      eapply contributes_ext; [|apply contributes_refl]. cbn. firstorder.
    - destruct (follow_scan_spec head bd (i :: p) st) as (n1 & st1 & E1 & Hc1).
      { intros x Hx. apply (Hcl head bd x); [left; reflexivity|auto]. }
      destruct (IH p st1) as (n2 & st2 & E2 & Hc2).
      { intros h b x Hb. apply (Hcl h b x). right; auto. }
      exists (n1 + n2), st2. split.
      + intros fuel Hf. cbn [follow_rules]. rewrite E1 by lia. cbn [bind]. apply E2. lia.
      + eapply contributes_ext; [|exact (contributes_trans _ _ st st1 st2 Hc1 Hc2)].
        intros h v r. cbn. split.
        * intros [H|(b & H1 & H2)]; [|eauto]. destruct H as (-> & H). exists bd. split; [auto|split; auto].
        * intros (b & [H1|H1] & H2); [injection H1 as -> ->; auto|eauto].
  Qed.

  Lemma in_iter_rules p h b : In (h, b) (iter_rules p g) <-> rule g h b.
  Proof.
    unfold iter_rules, rule. rewrite in_flat_map. split.
    - intros ([i [h' bds]] & H1 & H2). cbn in H2. apply in_map_iff in H2. destruct H2 as (b' & E & Hb).
      injection E as -> ->. apply in_hash_at in Hb. exists bds. split; auto.
      apply (in_hash_at (0 :: p)). apply in_enumerate. apply in_map_iff. eexists; split; [|exact H1]. reflexivity.
    - intros (bds & H1 & H2). apply (in_hash_at (0 :: p)) in H1. apply in_enumerate in H1.
      apply in_map_iff in H1. destruct H1 as ([i e] & E & H1). cbn in E. subst e.
      exists (i, (h, bds)). split; auto. cbn. apply in_map. apply in_hash_at. auto.
  Qed.

  Lemma in_iter_deps p deps lhs rhs : deps_ok deps -> In (lhs, rhs) (iter_deps p deps) <-> dep deps rhs lhs.
  Proof.
    intros Hok. unfold iter_deps, dep. rewrite in_flat_map. split.
    - intros ([i [h ds]] & H1 & H2). cbn in H2. apply in_map_iff in H2. destruct H2 as (b' & E & Hb).
      injection E as -> ->. apply in_hash_at in Hb. exists ds. split; auto.
      apply in_mget; auto.
      apply (in_hash_at (3 :: p)). apply in_enumerate. apply in_map_iff. eexists; split; [|exact H1]. reflexivity.
    - intros (ds & H1 & H2). apply mget_in in H1. apply (in_hash_at (3 :: p)) in H1. apply in_enumerate in H1.
      apply in_map_iff in H1. destruct H1 as ([i e] & E & H1). cbn in E. subst e.
      exists (i, (rhs, ds)). split; auto. cbn. apply in_map_iff. exists lhs. split; auto. apply in_hash_at. auto.
  Qed.

  (** ** The second phase *)

  (** The variables that may get an entry. *)
  Inductive fkey : V -> Prop :=
  | fkey_direct : forall h l v r, rule g h (l ++ Var v :: r) -> r <> [] -> fkey v
  | fkey_up : forall h l v r, rule g h (l ++ Var v :: r) -> nullb g r -> fkey h -> fkey v.

  Lemma follow_key v t : followb g v t -> fkey v.
  Proof.
    induction 1 as [h l v r t H1 H2|h l v r t H1 H2 _ IH].
    - eapply fkey_direct; eauto. intros ->. inversion H2.
    - eapply fkey_up; eauto.
  Qed.

  Lemma first_size_extend m v syms :
    let old := match mget v m with Some l => l | None => [] end in
    first_size (mupdate v [] (set_extend syms) m) + length old = first_size m + length (set_extend syms old).
  Proof.
    cbn zeta. unfold first_size, list_sum.
    induction m as [|[k l] m IH]; cbn [mupdate map fold_right snd mget length]; [lia|].
    destruct (eqb_spec v k) as [->|Hne]; cbn [map fold_right snd]; lia.
  Qed.

  Variable p : list nat.
  Variable deps : list (V * list V).
  Hypothesis Hdeps : forall h v, dep deps h v <-> exists l r, rule g h (l ++ Var v :: r) /\ nullb g r.
  Variable m0 : sets.

  Record linv (queue : list (V * V)) m : Prop := {
    l_ok : sets_ok m;
    l_sound : forall v x, elem m v x -> exists t, x = Ter t /\ followb g v t;
    l_key : forall v, In v (map fst m) -> fkey v;
    l_queue : forall lhs rhs, In (lhs, rhs) queue -> dep deps rhs lhs;
    l_base : forall v x, elem m0 v x -> elem m v x;
    l_bkey : forall v, In v (map fst m0) -> In v (map fst m);
    l_next : forall lhs rhs, dep deps rhs lhs -> In rhs (map fst m0) -> In (lhs, rhs) queue \/ In lhs (map fst m);
    l_comp : forall lhs rhs, dep deps rhs lhs -> In (lhs, rhs) queue \/ forall x, elem m rhs x -> elem m lhs x
  }.

  Definition lbound : nat := length (g_rules g) * length (universe g []).

  Lemma fkey_head v : fkey v -> In v (map fst (g_rules g)).
  Proof.
    intros H. assert (E : exists h l r, rule g h (l ++ Var v :: r)) by (destruct H; eauto).
    destruct E as (h & l & r & E). destruct (good_closed g Hgood h _ v E) as (b & bds & H1 & _).
    - apply in_app_iff. right. left. auto.
    - change v with (fst (v, bds)). apply in_map. auto.
  Qed.

  Lemma follow_universe v t : followb g v t -> In (Ter t) (universe g []).
  Proof.
    induction 1 as [h l v r t H1 H2|]; auto.
    apply start_occurs in H2. destruct H2 as [H2|(w & bd & H2 & H3)].
    - eapply rule_universe; eauto. apply in_app_iff. right. right. auto.
    - eapply rule_universe; eauto.
  Qed.

  Lemma linv_bound q m : linv q m -> first_size m <= lbound.
  Proof.
    intros []. unfold lbound.
    assert (H2 : length m <= length (g_rules g)).
    { rewrite <- (map_length fst m), <- (map_length fst (g_rules g)). apply NoDup_incl_length; [apply l_ok0|].
      intros v Hv. apply fkey_head. auto. }
    assert (H3 : first_size m <= length m * length (universe g [])).
    { assert (Hall : forall v l, In (v, l) m -> length l <= length (universe g [])).
      { intros v l Hl. apply NoDup_incl_length; [eapply (proj2 l_ok0); eauto|].
        intros x Hx. destruct (l_sound0 v x) as (t & -> & Ht).
        - exists l. split; auto. apply in_mget; auto. apply l_ok0.
        - eapply follow_universe; eauto. }
      unfold first_size, list_sum. clear -Hall. induction m as [|[v l] m IH]; cbn [map fold_right snd length]; [lia|].
      assert (length l <= length (universe g [])) by (eapply Hall; left; reflexivity).
      assert (fold_right Nat.add 0 (map (fun e : V * list sym => length (snd e)) m) <= length m * length (universe g [])).
      { apply IH. intros v' l' H'. eapply Hall. right. eauto. }
      lia. }
    pose proof (Nat.mul_le_mono_r _ _ (length (universe g [])) H2). lia.
  Qed.

  Lemma follow_loop_spec n : forall k queue m,
    linv queue m -> lbound - first_size m <= n -> length queue <= k ->
    exists f m', (forall fuel, f <= fuel -> follow_loop fuel p deps queue m = Val m') /\ linv [] m'.
  Proof.
    induction n as [n IHn] using lt_wf_ind. induction k as [|k IHk]; intros queue m Hi Hn Hk.
    - destruct queue; [|cbn in Hk; lia]. exists 0, m. split; auto. intros [|]; reflexivity.
    - destruct queue as [|[lhs rhs] rest]; [exists 0, m; split; auto; intros [|]; reflexivity|].
      cbn in Hk. assert (Hd : dep deps rhs lhs) by (apply (l_queue _ _ Hi); left; auto).
      destruct (mget rhs m) as [fr|] eqn:Er.
      + set (old := match mget lhs m with Some l => l | None => [] end).
        set (m1 := mupdate lhs [] (set_extend fr) m).
        assert (Hfr : forall x, In x fr -> elem m rhs x) by (intros x Hx; exists fr; auto).
        assert (He : forall v x, elem m1 v x <-> elem m v x \/ (v = lhs /\ In x fr)) by (intros; apply elem_extend).
        pose proof (first_size_extend m lhs fr) as Hsz. cbn zeta in Hsz. fold m1 old in Hsz.
        set (more := if Nat.eqb (length old) (length (set_extend fr old)) then []
                     else match mget lhs deps with
                          | Some ds => map (fun d => (d, lhs)) (hash_at (first_size m1 :: 5 :: p) ds)
                          | None => []
                          end).
        assert (Hm0 : length old = length (set_extend fr old) -> more = []).
        { unfold more. intros ->. rewrite Nat.eqb_refl. reflexivity. }
        assert (Hm1 : length old <> length (set_extend fr old) -> forall a, dep deps lhs a -> In (a, lhs) more).
        { unfold more. intros Hne a (ds & E & Ha). apply Nat.eqb_neq in Hne. rewrite Hne, E.
          apply in_map_iff. exists a. split; auto. apply in_hash_at. auto. }
        assert (Hmore : forall a b, In (a, b) more -> b = lhs /\ dep deps lhs a).
        { intros a b. unfold more. destruct (Nat.eqb _ _); [intros []|].
          destruct (mget lhs deps) as [ds|] eqn:Eds; [|intros []].
          intros H. apply in_map_iff in H. destruct H as (d & E & H). injection E as -> ->.
          apply in_hash_at in H. split; auto. exists ds. auto. }
        assert (Hi1 : linv (rest ++ more) m1).
        { destruct Hi. split.
          - apply sets_ok_extend; auto.
          - intros v x H. apply He in H. destruct H as [H|[-> H]]; auto.
            destruct (l_sound0 rhs x) as (t & -> & Ht); auto. exists t. split; auto.
            apply Hdeps in Hd. destruct Hd as (l & r & Hr & Hn'). eapply follow_up; eauto.
          - intros v H. unfold m1 in H. apply in_mupdate_keys in H. destruct H as [->|H]; auto.
            apply Hdeps in Hd. destruct Hd as (l & r & Hr & Hn'). eapply fkey_up; eauto.
            apply l_key0. eapply mget_some_key; eauto.
          - intros a b H. apply in_app_iff in H. destruct H as [H|H]; [apply l_queue0; right; auto|].
            apply Hmore in H. destruct H as [-> H]. auto.
          - intros v x H. apply He. auto.
          - intros v H. unfold m1. apply in_mupdate_keys. auto.
          - intros a b Hab Hb. unfold m1. rewrite in_mupdate_keys. destruct (l_next0 a b Hab Hb) as [[H|H]|H]; auto.
            + injection H as -> ->. auto.
            + left. apply in_app_iff. auto.
          - intros a b Hab.
            destruct (dec_of b lhs) as [->|Hne].
            + destruct (Nat.eq_dec (length old) (length (set_extend fr old))) as [El|El].
              * assert (Hsame : forall x, In x fr -> elem m lhs x).
                { intros x Hx. apply set_extend_same in El. assert (Hx' : In x old).
                  { rewrite <- El. apply in_set_extend. auto. }
                  unfold old in Hx'. destruct (mget lhs m) as [l|] eqn:E; [exists l; auto|destruct Hx']. }
                destruct (l_comp0 a lhs Hab) as [[H|H]|H].
                -- injection H as -> ->. right. intros x Hx. apply He.
                   apply He in Hx. left. destruct Hx as [Hx|[_ Hx]]; auto.
                -- left. apply in_app_iff. auto.
                -- right. intros x Hx. apply He in Hx. apply He. left. apply H. destruct Hx as [Hx|[_ Hx]]; auto.
              * left. apply in_app_iff. right. auto.
            + destruct (l_comp0 a b Hab) as [[H|H]|H].
              * injection H as -> ->. right. intros x Hx. apply He in Hx. destruct Hx as [Hx|[Hx _]]; [|congruence].
                apply He. right. split; auto. destruct Hx as (l & E & Hx). congruence.
              * left. apply in_app_iff. auto.
              * right. intros x Hx. apply He in Hx. destruct Hx as [Hx|[Hx _]]; [|congruence].
                apply He. left. auto. }
        assert (Hrec : exists f m', (forall fuel, f <= fuel -> follow_loop fuel p deps (rest ++ more) m1 = Val m') /\ linv [] m').
        { pose proof (linv_bound _ _ Hi1) as Hb. pose proof (set_extend_length fr old) as Hl.
          destruct (Nat.eq_dec (length old) (length (set_extend fr old))) as [El|El].
          - apply IHk; auto; [lia|]. rewrite (Hm0 El), app_nil_r. lia.
          - eapply (IHn (lbound - first_size m1)); auto; try lia. }
        destruct Hrec as (f & m' & Ef & Hm'). exists (S f), m'. split; auto.
        intros [|fuel] Hfuel; [lia|]. cbn [follow_loop]. rewrite Er. fold old m1. fold more. apply Ef. lia.
      + destruct (IHk rest m) as (f & m' & Ef & Hm').
        * destruct Hi. split; auto.
          -- intros a b H. apply l_queue0. right; auto.
          -- intros a b Hab Hb. destruct (l_next0 a b Hab Hb) as [[H|H]|H]; auto. injection H as -> ->.
             apply l_bkey0 in Hb. apply mget_none in Er. contradiction.
          -- intros a b Hab. destruct (l_comp0 a b Hab) as [[H|H]|H]; auto.
             injection H as -> ->. right. intros x (l & E & _). congruence.
        * auto.
        * lia.
        * exists (S f), m'. split; auto. intros [|fuel] Hfuel; [lia|]. cbn [follow_loop]. rewrite Er. apply Ef. lia.
  Qed.
End Follow.

(** ** [follow_set] *)
Section FollowSet.
  Context {V T : Type} {dv : DecEq V} {dt : DecEq T}.
  Variable g : grammar V T.
  Hypothesis Hgood : good g.

  (** What is certain about the computed sets. *)
  Record exact_follow (fs : list (V * list (symbol V T))) : Prop := {
    ef_keys : NoDup (map fst fs);
    ef_nodup : forall v l, mget v fs = Some l -> NoDup l;
    ef_sound : forall v l x, mget v fs = Some l -> In x l -> exists t, x = Ter t /\ followb g v t;
    ef_complete : forall v t, followb g v t -> exists l, mget v fs = Some l /\ In (Ter t) l;
    ef_key : forall v l, mget v fs = Some l -> fkey g v;
    ef_direct : forall h l v r, rule g h (l ++ Var v :: r) -> r <> [] -> mget v fs <> None;
    ef_next : forall h l v h' l' r, rule g h (l ++ [Var v]) -> rule g h' (l' ++ Var h :: r) -> r <> [] -> mget v fs <> None
  }.

  Lemma follow_set_exact {ho : HashOrder} p :
    exists n fs, (forall fuel, n <= fuel -> follow_set fuel p g = Val fs) /\ exact_follow fs.
  Proof.
    destruct (follow_rules_spec g Hgood (enumerate (iter_rules p g)) (2 :: p)
                {| w_result := []; w_deps := [] |}) as (n1 & st & E1 & Hc).
    { intros h b x H Hx. rewrite map_snd_enumerate in H. apply in_iter_rules in H.
      eapply (good_closed g Hgood); eauto. }
    assert (Hocc : forall h v r, (exists b, In (h, b) (map snd (enumerate (iter_rules p g))) /\ occurs h b h v r) <->
                     exists l, rule g h (l ++ Var v :: r)).
    { intros h v r. rewrite map_snd_enumerate. split.
      - intros (b & H1 & (_ & l & ->)). exists l. apply in_iter_rules in H1. auto.
      - intros (l & H). exists (l ++ Var v :: r). split; [apply in_iter_rules; auto|]. split; eauto. }
    eapply contributes_ext in Hc; [|exact Hocc]. clear Hocc.
    destruct Hc as [Hel Hk Hdep Hsets Hdok].
    assert (Hd : forall h v, dep (w_deps st) h v <-> exists l r, rule g h (l ++ Var v :: r) /\ nullb g r).
    { intros h v. rewrite Hdep. cbn. split.
      - intros [(l & H & _)|(r & (l & H) & H')]; [discriminate|eauto].
      - intros (l & r & H & H'). right. eauto. }
    assert (Hok : deps_ok (w_deps st)) by (apply Hdok; constructor).
    assert (Hi : linv g (w_deps st) (w_result st) (iter_deps p (w_deps st)) (w_result st)).
    { split; auto.
      - apply Hsets. split; [constructor|intros v l []].
      - intros v x H. apply Hel in H. destruct H as [(l & H & _)|(h & r & t & (l & H1) & H2 & H3)]; [discriminate|].
        exists t. split; auto. eapply follow_direct; eauto.
      - intros v H. apply Hk in H. destruct H as [[]|(h & r & (l & H1) & H2)]. eapply fkey_direct; eauto.
      - intros lhs rhs H. eapply in_iter_deps; eauto.
      - intros lhs rhs H _. left. eapply in_iter_deps; eauto.
      - intros lhs rhs H. left. eapply in_iter_deps; eauto. }
    destruct (follow_loop_spec g Hgood p (w_deps st) Hd (w_result st) _ _ _ _ Hi (le_n _) (le_n _))
      as (n2 & fs & E2 & []).
    exists (n1 + n2), fs. split.
    - intros fuel Hf. unfold follow_set. rewrite E1 by lia. cbn [bind]. apply E2. lia.
    - destruct l_ok0 as [Hn1 Hn2]. split.
      + auto.
      + intros v l H. eapply Hn2. apply mget_in. eauto.
      + intros v l x H Hx. apply l_sound0. exists l. auto.
      + intros v t H. change (elem fs v (Ter t)). induction H as [h l v r t H1 H2|h l v r t H1 H2 H3 IH].
        * apply l_base0. apply Hel. right. exists h, r, t. eauto.
        * destruct (l_comp0 v h) as [[]|Hc]; [apply Hd; eauto|]. auto.
      + intros v l H. apply l_key0. eapply mget_some_key; eauto.
      + intros h l v r H1 H2 H3. apply mget_none in H3. apply H3. apply l_bkey0. apply Hk. right. eauto.
      + intros h l v h' l' r H1 H2 H3 H4. apply mget_none in H4. apply H4. destruct (l_next0 v h) as [[]|H]; auto.
        * apply Hd. exists l, []. split; [exact H1|constructor].
        * apply Hk. right. eauto.
  Qed.
End FollowSet.
