(** Proofs about HashModel.v. *)
From Verif Require Import Base GrammarModel CfsmModel SlrModel PtrModel ExprModel HashModel SpecHash TableProofs.

Lemma nth_error_map_some {A B} (f : A -> B) l i y : nth_error (map f l) i = Some y -> exists x, nth_error l i = Some x /\ y = f x.
Proof.
  rewrite nth_error_map. destruct (nth_error l i) as [x|]; cbn; intros E; [|discriminate].
  injection E as <-. eauto.
Qed.

Section MapProofs.
  Context {K B : Type} (keq keq0 : K -> K -> bool) (hash : K -> N) (probe : list N -> N -> list nat).
  Hypothesis Hfinds : finds probe.
  Hypothesis Heq : equivalence keq0.
  Hypothesis HA : forall k k', keq0 k k' = true -> hash k = hash k' /\ keq k k' = true.
  Hypothesis HB : forall hs k k' i, In i (probe hs (hash k)) -> nth_error hs i = Some (hash k') -> keq k k' = true -> keq0 k k' = true.

  Fixpoint aget (k : K) (l : list (K * B)) : option B :=
    match l with
    | [] => None
    | (k', b) :: r => if keq0 k k' then Some b else aget k r
    end.

  Definition hwf (m : hmap K B) : Prop :=
    (forall e, In e m -> fst e = hash (fst (snd e))) /\
    (forall i j e e', nth_error m i = Some e -> nth_error m j = Some e' -> keq0 (fst (snd e)) (fst (snd e')) = true -> i = j).

  Lemma hwf_nil : hwf [].
  Proof. split; [intros e []|intros [|i] j e e' E; discriminate]. Qed.

  Lemma h_search_some k (m : hmap K B) is i : h_search keq k m is = Some i ->
    In i is /\ exists e, nth_error m i = Some e /\ keq k (fst (snd e)) = true.
  Proof.
    induction is as [|j r IH]; cbn; [discriminate|].
    destruct (nth_error m j) as [[h [k' b]]|] eqn:E.
    - destruct (keq k k') eqn:Ek.
      + intros E1. injection E1 as <-. split; [now left|]. exists (h, (k', b)). auto.
      + intros E1. destruct (IH E1) as [H1 H2]. auto.
    - intros E1. destruct (IH E1) as [H1 H2]. auto.
  Qed.

  Lemma h_search_none k (m : hmap K B) is : h_search keq k m is = None ->
    forall i e, In i is -> nth_error m i = Some e -> keq k (fst (snd e)) = false.
  Proof.
    induction is as [|j r IH]; cbn; [intros _ i e []|].
    destruct (nth_error m j) as [[h [k' b]]|] eqn:E.
    - destruct (keq k k') eqn:Ek; [discriminate|].
      intros E1 i e [->|Hi] Ei; [|eauto]. rewrite E in Ei. injection Ei as <-. exact Ek.
    - intros E1 i e [->|Hi] Ei; [congruence|eauto].
  Qed.

  Lemma h_find_some k m i : hwf m -> h_find keq hash probe k m = Some i ->
    exists k' b, nth_error m i = Some (hash k', (k', b)) /\ keq0 k k' = true.
  Proof.
    intros [W1 W2] E. unfold h_find in E. destruct (h_search_some _ _ _ _ E) as [Hi [[h [k' b]] [Ei Ek]]].
    pose proof (W1 _ (nth_error_In _ _ Ei)) as Eh. cbn in Eh, Ek. subst h.
    exists k', b. split; [exact Ei|].
    apply (HB _ _ _ _ Hi); [|exact Ek]. rewrite nth_error_map, Ei. reflexivity.
  Qed.

  Lemma h_find_none k m : hwf m -> h_find keq hash probe k m = None -> forall e, In e m -> keq0 k (fst (snd e)) = false.
  Proof.
    intros [W1 W2] E e He. destruct (keq0 k (fst (snd e))) eqn:Ek; [|reflexivity].
    destruct (HA _ _ Ek) as [Eh Ek']. destruct (In_nth_error _ _ He) as [i Ei].
    pose proof (W1 _ He) as E1.
    assert (Hi : In i (probe (map fst m) (hash k))).
    { apply Hfinds. rewrite nth_error_map, Ei. cbn. congruence. }
    rewrite (h_search_none _ _ _ E _ _ Hi Ei) in Ek'. discriminate.
  Qed.

  Lemma aget_none k l : (forall e, In e l -> keq0 k (fst e) = false) -> aget k l = None.
  Proof.
    induction l as [|[k' b] r IH]; cbn; [reflexivity|]. intros Hl.
    rewrite (Hl (k', b) (or_introl eq_refl) : keq0 k k' = false). apply IH. intros e He. apply Hl. now right.
  Qed.

  Lemma aget_at k l i k' b : nth_error l i = Some (k', b) -> keq0 k k' = true ->
    (forall j e, nth_error l j = Some e -> keq0 k (fst e) = true -> j = i) -> aget k l = Some b.
  Proof.
    revert i. induction l as [|[k1 b1] r IH]; intros [|i] E Ek U; try discriminate; cbn in E |- *.
    - injection E as -> ->. rewrite Ek. reflexivity.
    - destruct (keq0 k k1) eqn:E1.
      + discriminate (U 0 (k1, b1) eq_refl E1).
      + apply (IH i E Ek). intros j e Ej Ee. specialize (U (S j) e Ej Ee). congruence.
  Qed.

  Lemma h_get_aget k m : hwf m -> h_get keq hash probe k m = aget k (map snd m).
  Proof.
    intros W. unfold h_get. destruct (h_find keq hash probe k m) as [i|] eqn:E.
    - destruct (h_find_some _ _ _ W E) as [k' [b [Ei Ek]]]. rewrite Ei. symmetry.
      apply (aget_at _ _ i k'); [rewrite nth_error_map, Ei; reflexivity|exact Ek|].
      intros j e Ej Ee. apply nth_error_map_some in Ej. destruct Ej as [[h e'] [Ej ->]]. cbn in Ee.
      destruct W as [_ W2]. apply (W2 _ _ _ _ Ej Ei). cbn. destruct Heq as [_ [S Tr]]. apply (Tr _ k); [now apply S|exact Ek].
    - symmetry. apply aget_none. intros e He. apply in_map_iff in He. destruct He as [e' [<- He]].
      exact (h_find_none _ _ W E _ He).
  Qed.

  Lemma hwf_snoc k b m : hwf m -> (forall e, In e m -> keq0 k (fst (snd e)) = false) -> hwf (m ++ [(hash k, (k, b))]).
  Proof.
    intros [W1 W2] N. split.
    - intros e He. apply in_app_or in He. destruct He as [He|[<-|[]]]; [auto|reflexivity].
    - assert (P : forall i e, nth_error (m ++ [(hash k, (k, b))]) i = Some e ->
                  (nth_error m i = Some e) \/ (i = length m /\ e = (hash k, (k, b)))).
      { intros i e E. destruct (Nat.lt_ge_cases i (length m)) as [L|L].
        - rewrite nth_error_app1 in E by exact L. auto.
        - rewrite nth_error_app2 in E by exact L. right. destruct (i - length m) as [|d] eqn:D.
          + injection E as <-. split; [lia|reflexivity].
          + destruct d; discriminate. }
      destruct Heq as [R [S Tr]].
      intros i j e e' Ei Ej Ek. destruct (P _ _ Ei) as [Ei'|[-> ->]], (P _ _ Ej) as [Ej'|[-> ->]].
      + eapply W2; eauto.
      + cbn in Ek. apply S in Ek. rewrite (N _ (nth_error_In _ _ Ei')) in Ek. discriminate.
      + cbn in Ek. rewrite (N _ (nth_error_In _ _ Ej')) in Ek. discriminate.
      + reflexivity.
  Qed.

  Lemma aget_app k l l' : aget k (l ++ l') = match aget k l with Some b => Some b | None => aget k l' end.
  Proof. induction l as [|[k' b] r IH]; cbn; [reflexivity|]. destruct (keq0 k k'); auto. Qed.

  Lemma split_at {A} (l : list A) i x : nth_error l i = Some x ->
    l = firstn i l ++ x :: skipn (S i) l /\ length (firstn i l) = i.
  Proof.
    revert i. induction l as [|a r IH]; intros [|i] E; try discriminate; cbn in E.
    - injection E as ->. split; reflexivity.
    - destruct (IH _ E) as [E1 E2]. split; cbn; [f_equal; exact E1|now rewrite E2].
  Qed.

  (** Replacing the value of one entry. *)
  Lemma hwf_replace l1 l2 h k b b' : hwf (l1 ++ (h, (k, b)) :: l2) -> hwf (l1 ++ (h, (k, b')) :: l2).
  Proof.
    intros [W1 W2]. split.
    - intros e He. apply in_app_or in He. destruct He as [He|[<-|He]].
      + apply W1. apply in_or_app. auto.
      + apply (W1 (h, (k, b))). apply in_or_app. right. now left.
      + apply W1. apply in_or_app. right. now right.
    - assert (P : forall i e, nth_error (l1 ++ (h, (k, b')) :: l2) i = Some e ->
                  exists e', nth_error (l1 ++ (h, (k, b)) :: l2) i = Some e' /\ fst (snd e') = fst (snd e)).
      { intros i e E. destruct (Nat.lt_ge_cases i (length l1)) as [L|L].
        - rewrite nth_error_app1 in E |- * by exact L. eauto.
        - rewrite nth_error_app2 in E |- * by exact L. destruct (i - length l1) as [|d]; cbn in E |- *.
          + injection E as <-. eauto.
          + eauto. }
      intros i j e e' Ei Ej Ek. destruct (P _ _ Ei) as [f [Fi Ef]], (P _ _ Ej) as [f' [Fj Ef']].
      rewrite <- Ef, <- Ef' in Ek. eapply W2; eauto.
  Qed.

  Lemma hwf_drop l1 l2 x : hwf (l1 ++ x :: l2) -> hwf (l1 ++ l2).
  Proof.
    intros [W1 W2]. split.
    - intros e He. apply W1. apply in_app_or in He. apply in_or_app. destruct He; [auto|right; now right].
    - set (up := fun i => if i <? length l1 then i else S i).
      assert (P : forall i e, nth_error (l1 ++ l2) i = Some e -> nth_error (l1 ++ x :: l2) (up i) = Some e).
      { intros i e E. unfold up. destruct (Nat.ltb_spec i (length l1)) as [L|L].
        - rewrite nth_error_app1 in E |- * by lia. exact E.
        - rewrite nth_error_app2 in E by lia. rewrite nth_error_app2 by lia.
          replace (S i - length l1) with (S (i - length l1)) by lia. exact E. }
      intros i j e e' Ei Ej Ek. pose proof (W2 _ _ _ _ (P _ _ Ei) (P _ _ Ej) Ek) as U. unfold up in U.
      destruct (Nat.ltb_spec i (length l1)), (Nat.ltb_spec j (length l1)); lia.
  Qed.

  Lemma aget_eq k k' l : keq0 k k' = true -> aget k l = aget k' l.
  Proof.
    intros E. destruct Heq as [_ [S Tr]]. induction l as [|[k1 b1] r IH]; cbn; [reflexivity|].
    destruct (keq0 k k1) eqn:E1, (keq0 k' k1) eqn:E2; auto.
    - rewrite (Tr k' k k1 (S _ _ E) E1) in E2. discriminate.
    - rewrite (Tr k k' k1 E E2) in E1. discriminate.
  Qed.

  (** The entries other than the one of a key do not have it. *)
  Lemma hwf_others l1 l2 h k b : hwf (l1 ++ (h, (k, b)) :: l2) ->
    (forall e, In e l1 \/ In e l2 -> keq0 k (fst (snd e)) = false).
  Proof.
    intros [W1 W2] e He. destruct (keq0 k (fst (snd e))) eqn:Ek; [|reflexivity]. exfalso.
    assert (E0 : nth_error (l1 ++ (h, (k, b)) :: l2) (length l1) = Some (h, (k, b))).
    { rewrite nth_error_app2 by lia. rewrite Nat.sub_diag. reflexivity. }
    destruct He as [He|He]; apply In_nth_error in He; destruct He as [i Ei].
    - assert (L : i < length l1) by (apply nth_error_Some; congruence).
      assert (i = length l1); [|lia]. symmetry. eapply W2; [exact E0| |exact Ek].
      rewrite nth_error_app1 by exact L. exact Ei.
    - assert (S i + length l1 = length l1); [|lia]. symmetry. eapply W2; [exact E0| |exact Ek].
      rewrite nth_error_app2 by lia. replace (S i + length l1 - length l1) with (S i) by lia. exact Ei.
  Qed.

  Lemma keq0_sym_false x y : keq0 x y = false -> keq0 y x = false.
  Proof. destruct Heq as [_ [S _]]. intros E. destruct (keq0 y x) eqn:E1; [|reflexivity]. rewrite (S _ _ E1) in E. discriminate. Qed.
  Lemma keq0_trans_false k x y : keq0 k x = true -> keq0 x y = keq0 k y.
  Proof.
    destruct Heq as [_ [S Tr]]. intros E. destruct (keq0 x y) eqn:E1.
    - symmetry. eapply Tr; eauto.
    - destruct (keq0 k y) eqn:E2; [|reflexivity]. rewrite (Tr x k y (S _ _ E) E2) in E1. discriminate.
  Qed.

  Lemma h_insert_ok k b m : hwf m ->
    hwf (h_insert keq hash probe k b m) /\
    forall x, aget x (map snd (h_insert keq hash probe k b m)) = if keq0 k x then Some b else aget x (map snd m).
  Proof.
    intros W. unfold h_insert. destruct (h_find keq hash probe k m) as [i|] eqn:E.
    - destruct (h_find_some _ _ _ W E) as [k' [b0 [Ei Ek]]]. rewrite Ei.
      destruct (split_at _ _ _ Ei) as [Em _]. remember (firstn i m) as l1. remember (skipn (S i) m) as l2.
      clear Heql1 Heql2 Ei E. subst m. cbn [app]. split; [eapply hwf_replace; exact W|].
      intros x. rewrite !map_app. cbn [map snd]. rewrite !aget_app. cbn [aget].
      destruct (keq0 k x) eqn:Ex.
      + rewrite (aget_none x (map snd l1)).
        * rewrite <- (keq0_trans_false k k' x Ek) in Ex. destruct Heq as [_ [S _]]. apply S in Ex. rewrite Ex. reflexivity.
        * intros e He. apply in_map_iff in He. destruct He as [e' [<- He]].
          pose proof (hwf_others _ _ _ _ _ W e' (or_introl He)) as N.
          rewrite (keq0_trans_false k' x); [exact N|]. rewrite (keq0_trans_false k k' x Ek). exact Ex.
      + replace (keq0 x k') with false; [reflexivity|]. symmetry. apply keq0_sym_false.
        rewrite (keq0_trans_false k k' x Ek). exact Ex.
    - pose proof (h_find_none _ _ W E) as N. split; [apply hwf_snoc; assumption|].
      intros x. rewrite map_app, aget_app. cbn [map snd aget].
      destruct (keq0 k x) eqn:Ex.
      + rewrite aget_none.
        * destruct Heq as [_ [S _]]. rewrite (S _ _ Ex). reflexivity.
        * intros e He. apply in_map_iff in He. destruct He as [e' [<- He]].
          rewrite (keq0_trans_false k x _ Ex). apply N. exact He.
      + rewrite (keq0_sym_false _ _ Ex). destruct (aget x (map snd m)); reflexivity.
  Qed.

  Lemma h_remove_ok k m : hwf m ->
    hwf (h_remove keq hash probe k m) /\
    forall x, aget x (map snd (h_remove keq hash probe k m)) = if keq0 k x then None else aget x (map snd m).
  Proof.
    intros W. unfold h_remove. destruct (h_find keq hash probe k m) as [i|] eqn:E.
    - destruct (h_find_some _ _ _ W E) as [k' [b0 [Ei Ek]]].
      destruct (split_at _ _ _ Ei) as [Em _]. remember (firstn i m) as l1. remember (skipn (S i) m) as l2.
      clear Heql1 Heql2 Ei E. subst m. split; [eapply hwf_drop; exact W|].
      intros x. rewrite !map_app. cbn [map snd]. rewrite !aget_app. cbn [aget].
      destruct (keq0 k x) eqn:Ex.
      + assert (N : forall l, (forall e, In e l -> In e l1 \/ In e l2) -> aget x (map snd l) = None).
        { intros l Hl. apply aget_none. intros e He. apply in_map_iff in He. destruct He as [e' [<- He]].
          pose proof (hwf_others _ _ _ _ _ W e' (Hl _ He)) as N.
          rewrite (keq0_trans_false k' x); [exact N|]. rewrite (keq0_trans_false k k' x Ek). exact Ex. }
        rewrite (N l1) by auto. apply N. auto.
      + replace (keq0 x k') with false; [reflexivity|]. symmetry. apply keq0_sym_false.
        rewrite (keq0_trans_false k k' x Ek). exact Ex.
    - split; [exact W|]. intros x. destruct (keq0 k x) eqn:Ex; [|reflexivity].
      apply aget_none. intros e He. apply in_map_iff in He. destruct He as [e' [<- He]].
      rewrite (keq0_trans_false k x _ Ex). apply (h_find_none _ _ W E). exact He.
  Qed.

  Lemma h_run_ok ops : forall m f, hwf m -> (forall x, aget x (map snd m) = f x) -> h_run keq hash probe m ops = map_run keq0 f ops.
  Proof.
    induction ops as [|[k [[b|]|]] r IH]; intros m f W F; cbn [h_run map_run]; [reflexivity| | |];
      rewrite (h_get_aget _ _ W), F; f_equal.
    - destruct (h_insert_ok k b m W) as [W' F']. apply IH; [exact W'|]. intros x. rewrite F', F. reflexivity.
    - destruct (h_remove_ok k m W) as [W' F']. apply IH; [exact W'|]. intros x. rewrite F', F. reflexivity.
    - apply IH; assumption.
  Qed.
End MapProofs.
