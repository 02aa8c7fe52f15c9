(** No name is asked for twice. *)
From Coq Require Import Sorted FinFun.
From Verif Require Import Base GrammarModel CfsmModel SlrModel GrammarProofs FollowProofs OrderModel OrderProofs.

(** The names that end with [p]. *)
Definition under (p : list nat) : names := fun k => exists q, k = q ++ p.
Definition only {A} (c : prog A) (S : names) (Q : A -> Prop) : Prop := frugal S Q (fun _ _ => False) c.

Lemma under_inj p i j k : under (i :: p) k -> under (j :: p) k -> i = j.
Proof.
  intros (q & ->) (q' & E). assert (H : length q = length q').
  { apply (f_equal (@length nat)) in E. rewrite !app_length in E. cbn in E. lia. }
  revert q' E H. induction q as [|x q IH]; intros [|y q'] E H; cbn in *; try discriminate; [congruence|]. injection E as _ E. eapply IH; eauto.
Qed.
Lemma under_tail p i k : under (i :: p) k -> under p k.
Proof. intros (q & ->). exists (q ++ [i]). rewrite <- app_assoc. reflexivity. Qed.
Lemma under_here p : under p p.
Proof. exists []. reflexivity. Qed.
Lemma under_cons p i k : under p k -> under p (i :: k).
Proof. intros (q & ->). exists (i :: q). reflexivity. Qed.
Lemma under_short p k : under p k -> length p <= length k.
Proof. intros (q & ->). rewrite app_length. lia. Qed.

Lemma only_bind {A B} (c : prog A) (f : A -> prog B) (S S1 S2 : names) Q Q' R' : only c S1 Q ->
  (forall a, Q a -> frugal S2 Q' R' (f a)) -> (forall k, S1 k -> S2 k -> False) -> (forall k, S1 k \/ S2 k -> S k) ->
  frugal S Q' R' (pbind c f).
Proof.
  intros Hc Hf Hd HS. eapply frugal_mono with (S := fun k => S1 k \/ S2 k) (Q := Q') (R := R'); [|exact HS|auto|auto].
  eapply frugal_bind; [apply (frugal_frame c S1 S2 Q _ Hc Hd)|].
  intros a Ha. eapply frugal_mono; [exact (Hf a Ha)|auto|auto|auto].
Qed.

Lemma over_bind {A B} (r : res A) (f : A -> prog B) (S : names) Q R : (forall a, r = Val a -> frugal S Q R (f a)) ->
  frugal S Q R (pbind (Over r) f).
Proof. destruct r; cbn; auto. Qed.

Lemma only_ask {X} k (l : list X) : only (ask k l) (fun k' => k' = k) (fun l' => Permutation l' l).
Proof. unfold only. cbn. split; [reflexivity|]. intros l' Hl. split; [assumption|]. intros _ []. Qed.

Lemma only_more {A} (c : prog A) (S S' : names) Q (Q' : A -> Prop) : only c S Q -> (forall k, S k -> S' k) -> (forall a, Q a -> Q' a) -> only c S' Q'.
Proof. intros H HS HQ. eapply frugal_mono; [exact H|assumption|assumption|intros a k _ []]. Qed.

Lemma only_ret {A} (a : A) (S : names) (Q : A -> Prop) : Q a -> only (ret a) S Q.
Proof. intros H. cbn. split; [assumption|]. intros k []. Qed.

Lemma only_each {J X Y} (k : J -> list nat) (h : J -> X -> Y) s l : NoDup (map k l) ->
  only (ask_each k h s l) (fun x => In x (map k l)) (fun _ => True).
Proof.
  induction l as [|e l IH]; cbn [ask_each map]; intros Hn; [apply only_ret; exact I|].
  apply NoDup_cons_iff in Hn as [Hk Hn]. eapply only_bind; [apply only_ask| | |].
  - intros xs _. eapply only_bind with (S := fun x => In x (map k l)) (S2 := fun _ => False); [exact (IH Hn)| | |].
    + intros ys _. apply only_ret. exact I.
    + auto.
    + intros x [H|[]]. assumption.
  - intros x -> H. contradiction.
  - cbn. intros x [->|H]; auto.
Qed.

Lemma nodup_enumerate {A} (l : list A) : NoDup (map fst (enumerate l)).
Proof.
  assert (E : map fst (enumerate l) = seq 0 (length l)); [|rewrite E; apply seq_NoDup].
  unfold enumerate. generalize 0. induction l as [|x l IH]; intros n; [reflexivity|]. cbn. f_equal. apply IH.
Qed.

Lemma nodup_keys {A} (i : nat) p (l : list A) : NoDup (map (fun e => fst e :: i :: p) (enumerate l)).
Proof.
  rewrite <- (map_map fst (fun n => n :: i :: p)). apply Injective_map_NoDup; [|apply nodup_enumerate]. intros x y E. congruence.
Qed.

Lemma each_under {X Y A} (i : nat) p (h : nat * A -> X -> Y) s (l : list A) :
  only (ask_each (fun e => fst e :: i :: p) h s (enumerate l)) (under (i :: p)) (fun _ => True).
Proof.
  eapply only_more; [apply only_each, nodup_keys| |auto]. intros k H. apply in_map_iff in H as (e & <- & _). apply under_cons, under_here.
Qed.

Section Names.
  Context {V T : Type} {dv : DecEq V} {dt : DecEq T}.
  Implicit Types g : grammar V T.

  Lemma size_extend (m : list (V * list (symbol V T))) v syms :
    let old := match mget v m with Some l => l | None => [] end in
    first_size (mupdate v [] (set_extend syms) m) + length old = first_size m + length (set_extend syms old).
  Proof.
    cbn zeta. unfold first_size, list_sum.
    induction m as [|[k l] m IH]; cbn [mupdate map fold_right snd mget length]; [lia|].
    destruct (eqb_spec v k) as [->|Hne]; cbn [map fold_right snd]; lia.
  Qed.

  (** ** FIRST *)

  Definition fkeys p (st : fstate (V := V) (T := T)) : names := fun k =>
    (exists n, k = n :: 1 :: p /\ length (f_visited st) <= n) \/ (exists n, k = n :: 2 :: p /\ first_size (f_first st) < n).

  Lemma fkeys_less p st st' k : length (f_visited st) <= length (f_visited st') -> first_size (f_first st) <= first_size (f_first st') ->
    fkeys p st' k -> fkeys p st k.
  Proof. intros H1 H2 [(n & -> & Hn)|(n & -> & Hn)]; [left|right]; exists n; (split; [reflexivity|lia]). Qed.

  Lemma frugal_extend p o syms st : frugal (fkeys p st) (fun _ => True) (fkeys p) (o_extend p o syms st).
  Proof.
    unfold o_extend. destruct o as [v|]; cbv zeta; [|cbn [frugal ret]; split; [exact I|intros k; apply fkeys_less; cbn [f_visited f_first]; lia]].
    pose proof (size_extend (f_first st) v syms) as Hs. cbn zeta in Hs.
    pose proof (set_extend_length syms (match mget v (f_first st) with Some l => l | None => [] end)) as Hl.
    destruct (Nat.eqb_spec (length match mget v (f_first st) with Some l => l | None => [] end)
      (length (set_extend syms match mget v (f_first st) with Some l => l | None => [] end))) as [E|E].
    - cbn [frugal ret]. split; [exact I|]. intros k. apply fkeys_less; cbn [f_visited f_first]; lia.
    - destruct (mget v (f_deps st)) as [ds|]; cbn [pbind ask ret frugal].
      + split; [right; eexists; split; [reflexivity|lia]|]. intros l' _. split; [exact I|]. intros k Hk. split.
        * revert Hk. apply fkeys_less; cbn [f_visited f_first]; lia.
        * intros ->. destruct Hk as [(n & E' & _)|(n & E' & Hn)]; [discriminate|]. injection E' as <-. cbn [f_first] in Hn. lia.
      + split; [exact I|]. intros k. apply fkeys_less; cbn [f_visited f_first]; lia.
  Qed.

  Lemma frugal_scan p g o : forall rest st, frugal (fkeys p st) (fun _ => True) (fkeys p) (o_scan p g o rest st).
  Proof.
    induction rest as [|[t|v|] tl IH]; intros st; cbn [o_scan]; [cbn; auto|apply frugal_extend| |].
    - cbv zeta. change (fkeys p st) with (fkeys p (add_dependency v o (Var v :: tl) st)). generalize (add_dependency v o (Var v :: tl) st). clear st.
      intros st. destruct (memb v (f_visited st)).
      + destruct (mget v (f_first st)) as [fv|]; [|cbn; auto]. eapply frugal_bind; [apply frugal_extend|]. intros st2 _.
        destruct (memb Eps fv); [apply IH|cbn; auto].
      + apply over_bind. intros bs _. cbn [pbind ask ret frugal]. split; [left; eexists; split; [reflexivity|lia]|].
        intros l' _. split; [exact I|]. intros k Hk. split.
        * revert Hk. apply fkeys_less; cbn [f_visited f_first]; rewrite ?app_length; lia.
        * intros ->. destruct Hk as [(n & E' & Hn)|(n & E' & _)]; [|discriminate]. injection E' as <-. cbn [f_visited] in Hn. rewrite app_length in Hn. cbn [length] in Hn. lia.
    - destruct tl; [apply frugal_extend|apply IH].
  Qed.

  Lemma frugal_entry p g o : forall bs st, frugal (fkeys p st) (fun _ => True) (fkeys p) (o_entry p g o bs st).
  Proof.
    induction bs as [|b bs IH]; intros st; cbn [o_entry]; [cbn; auto|]. eapply frugal_bind; [apply frugal_scan|]. intros st' _. apply IH.
  Qed.

  Lemma frugal_first_loop p g : forall fuel st, frugal (fkeys p st) (fun _ => True) (fkeys p) (o_first_loop fuel p g st).
  Proof.
    induction fuel as [|fuel IH]; intros st; cbn [o_first_loop]; destruct (f_pending st) as [|[o bs] rest]; try (cbn; auto; fail).
    eapply frugal_bind; [eapply frugal_mono; [apply frugal_entry|intros k H; exact H|intros a H; exact H|intros a k _ H; exact H]|].
    intros st' _. apply IH.
  Qed.

  Lemma fkeys_under p st k : fkeys p st k -> under (1 :: p) k \/ under (2 :: p) k.
  Proof. intros [(n & -> & _)|(n & -> & _)]; [left|right]; apply under_cons, under_here. Qed.

  Lemma only_bodies fuel p g o bs : only (o_bodies fuel p g o bs) (fun k => under (1 :: p) k \/ under (2 :: p) k) (fun _ => True).
  Proof.
    unfold o_bodies. eapply frugal_bind; [eapply frugal_mono; [apply frugal_first_loop|apply fkeys_under|intros a H; exact H|intros a k _ H; exact H]|].
    intros st _. cbn. split; [exact I|]. intros k [].
  Qed.

  Lemma only_first fuel p g v : only (o_first fuel p g v) (under p) (fun _ => True).
  Proof.
    unfold o_first. apply over_bind. intros bs _. eapply only_bind; [apply only_ask|intros l _; apply only_bodies| |].
    - cbn. intros k -> [H|H]; [apply (under_inj _ 0) in H|apply (under_inj _ 0) in H]; try discriminate; apply under_here.
    - intros k [->|[H|H]]; [apply under_cons, under_here|exact (under_tail _ _ _ H)|exact (under_tail _ _ _ H)].
  Qed.

  (** ** FOLLOW *)

  Lemma only_follow_scan fuel p g h : forall rest st,
    only (o_follow_scan fuel p g h rest st) (fun k => exists n, n < length rest /\ under (n :: p) k) (fun _ => True).
  Proof.
    induction rest as [|s tl IH]; intros st; [apply only_ret; exact I|].
    assert (Hm : forall st, only (o_follow_scan fuel p g h tl st) (fun k => exists n, n < length (s :: tl) /\ under (n :: p) k) (fun _ => True)).
    { intros st'. eapply only_more; [apply IH| |auto]. intros k (n & Hn & Hu). exists n. split; [cbn; lia|assumption]. }
    destruct s as [t|v|]; cbn [o_follow_scan]; [apply Hm| |apply Hm]. destruct tl as [|s tl]; [apply only_ret; exact I|].
    eapply only_bind; [apply only_bodies|intros f _; apply IH| |].
    - intros k H (n & Hn & Hu). assert (Hk : under (length (s :: tl) :: p) k) by (destruct H as [H|H]; exact (under_tail _ _ _ H)).
      pose proof (under_inj _ _ _ _ Hk Hu). lia.
    - intros k [H|(n & Hn & Hu)]; [|exists n; split; [cbn in *; lia|assumption]].
      exists (length (s :: tl)). split; [cbn; lia|]. destruct H as [H|H]; exact (under_tail _ _ _ H).
  Qed.

  Lemma only_follow_rules fuel p g : forall rs st, NoDup (map fst rs) ->
    only (o_follow_rules fuel p g rs st) (fun k => exists i, In i (map fst rs) /\ under (i :: p) k) (fun _ => True).
  Proof.
    induction rs as [|[i [h bd]] rs IH]; intros st Hn; [apply only_ret; exact I|]. cbn [o_follow_rules].
    cbn [map fst] in Hn. apply NoDup_cons_iff in Hn as [Hi Hn].
    eapply only_bind; [apply only_follow_scan|intros st' _; apply (IH st' Hn)| |].
    - intros k (n & _ & Hu) (j & Hj & Hv). apply under_tail in Hu. pose proof (under_inj _ _ _ _ Hu Hv). subst j. contradiction.
    - intros k [(n & _ & Hu)|(j & Hj & Hv)]; [exists i|exists j]; (split; [cbn; auto|]); [exact (under_tail _ _ _ Hu)|assumption].
  Qed.

  Lemma frugal_follow_loop p deps : forall fuel queue (m : list (V * list (symbol V T))),
    only (o_follow_loop fuel p deps queue m) (fun k => exists n, k = n :: 5 :: p /\ first_size m < n) (fun _ => True).
  Proof.
    induction fuel as [|fuel IH]; intros queue m; cbn [o_follow_loop]; destruct queue as [|[lhs rhs] rest]; try exact I; try (apply only_ret; exact I).
    destruct (mget rhs m) as [fr|]; [|apply IH]. cbv zeta.
    pose proof (size_extend m lhs fr) as Hs. cbn zeta in Hs.
    pose proof (set_extend_length fr (match mget lhs m with Some l => l | None => [] end)) as Hl.
    assert (Hm : forall q, only (o_follow_loop fuel p deps q (mupdate lhs [] (set_extend fr) m)) (fun k => exists n, k = n :: 5 :: p /\ first_size m < n) (fun _ => True)).
    { intros q. eapply only_more; [apply IH| |auto]. intros k (n & -> & Hn). exists n. split; [reflexivity|lia]. }
    destruct (Nat.eqb_spec (length match mget lhs m with Some l => l | None => [] end)
      (length (set_extend fr match mget lhs m with Some l => l | None => [] end))) as [E|E]; [apply Hm|].
    destruct (mget lhs deps) as [ds|]; [|apply Hm].
    cbn [pbind ask ret]. unfold only. cbn [frugal]. split; [eexists; split; [reflexivity|lia]|]. intros l' _.
    eapply frugal_mono; [apply (IH (rest ++ map (fun d => (d, lhs)) l'))| |auto|auto].
    cbn. intros k (n & -> & Hn). split; [exists n; split; [reflexivity|lia]|]. intros E'. injection E' as ->. lia.
  Qed.

  Lemma only_follow_set fuel p g : only (o_follow_set fuel p g) (under p) (fun _ => True).
  Proof.
    unfold o_follow_set, o_iter_rules, o_iter_deps.
    eapply only_bind with (S1 := fun k => under (0 :: p) k \/ under (1 :: p) k) (S2 := fun k => exists i, 2 <= i /\ under (i :: p) k).
    - eapply only_bind with (S2 := under (1 :: p)) (Q' := fun _ => True); [apply only_ask|intros rs _; apply each_under| |].
      + intros k -> H. apply (under_inj _ 0) in H; [discriminate|apply under_here].
      + intros k [->|H]; [left; apply under_here|right; assumption].
    - intros rs _. eapply only_bind with (S2 := fun k => exists i, 3 <= i /\ under (i :: p) k); [apply only_follow_rules, nodup_enumerate| | |].
      + intros st _. eapply only_bind with (S1 := fun k => under (3 :: p) k \/ under (4 :: p) k).
        * eapply only_bind with (S2 := under (4 :: p)) (Q' := fun _ => True); [apply only_ask|intros ds _; apply each_under| |].
          -- intros k -> H. apply (under_inj _ 3) in H; [discriminate|apply under_here].
          -- intros k [->|H]; [left; apply under_here|right; assumption].
        * intros ds _. apply frugal_follow_loop.
        * intros k H (n & -> & _). assert (H5 : under (5 :: p) (n :: 5 :: p)) by (apply under_cons, under_here).
          destruct H as [H|H]; pose proof (under_inj _ _ _ _ H H5); discriminate.
        * intros k [[H|H]|(n & -> & _)]; [exists 3|exists 4|exists 5]; (split; [lia|]); [assumption|assumption|apply under_cons, under_here].
      + intros k (i & _ & H) (j & Hj & H'). apply under_tail in H. pose proof (under_inj _ _ _ _ H H'). lia.
      + intros k [(i & _ & H)|(i & Hi & H)]; [exists 2; split; [lia|exact (under_tail _ _ _ H)]|exists i; split; [lia|assumption]].
    - intros k H (i & Hi & H'). destruct H as [H|H]; pose proof (under_inj _ _ _ _ H H'); lia.
    - intros k [[H|H]|(i & _ & H)]; exact (under_tail _ _ _ H).
  Qed.

  (** ** The automaton *)

  Lemma only_items_loop p g : forall fuel k queue items,
    only (o_items_loop fuel k p g queue items) (fun x => exists n, x = n :: 1 :: p /\ k <= n) (fun _ => True).
  Proof.
    induction fuel as [|fuel IH]; intros k queue items; cbn [o_items_loop]; destruct queue as [|ib rest]; try exact I; try (apply only_ret; exact I).
    apply over_bind. intros [h|] _.
    - apply over_bind. intros bs _. eapply only_bind; [apply only_ask| | |].
      + intros bs' _. destruct (closure_insert _ _ _ _) as [q i]. apply IH.
      + cbn. intros x -> (n & E & Hn). injection E as <-. lia.
      + intros x [->|(n & -> & Hn)]; [exists k|exists n]; (split; [reflexivity|lia]).
    - eapply only_more; [apply IH| |auto]. intros x (n & -> & Hn). exists n. split; [reflexivity|lia].
  Qed.

  Lemma only_complete fuel p items g : only (o_complete fuel p items g) (under p) (fun _ => True).
  Proof.
    unfold o_complete. eapply only_bind; [apply only_ask|intros its _; apply only_items_loop| |].
    - cbn. intros k -> (n & E & _). apply (f_equal (@length nat)) in E. cbn in E. lia.
    - intros k [->|(n & -> & _)]; [apply under_cons, under_here|apply under_cons, under_cons, under_here].
  Qed.

  Lemma only_group_items p (items : item_set V T) : only (o_group_items p items) (fun k => k = 0 :: p \/ k = 1 :: p) (fun _ => True).
  Proof.
    unfold o_group_items. eapply only_bind; [apply only_ask|intros its _; eapply only_more; [apply only_ask|intros k H; exact H|auto]| |].
    - cbn. intros k -> E. discriminate.
    - auto.
  Qed.

  Lemma only_cfsm_groups fuel p g added : forall groups trans next pending, NoDup (map fst groups) ->
    only (o_cfsm_groups fuel p g added groups trans next pending) (fun k => exists i, In i (map fst groups) /\ under (i :: 2 :: p) k) (fun _ => True).
  Proof.
    induction groups as [|[i [s group]] groups IH]; intros trans next pending Hn; cbn [o_cfsm_groups]; [apply only_ret; exact I|]. cbv zeta.
    cbn [map fst] in Hn. apply NoDup_cons_iff in Hn as [Hi Hn].
    eapply only_bind; [apply only_complete|intros items _; destruct (find _ added); apply (IH _ _ _ Hn)| |].
    - intros k H (j & Hj & H'). pose proof (under_inj _ _ _ _ H H'). subst j. contradiction.
    - intros k [H|(j & Hj & H)]; [exists i|exists j]; (split; [cbn; auto|assumption]).
  Qed.

  Definition before (a b : cstate V T) : Prop := cs_id a < cs_id b.

  Lemma in_add_state (s : cstate V T) l x : In x (add_state s l) -> x = s \/ In x l.
  Proof.
    induction l as [|y l IH]; cbn [add_state]; [intros [H|[]]; auto|]. destruct (cs_id s =? cs_id y); [auto|]. destruct (cs_id s <? cs_id y); cbn.
    - intros [H|H]; auto.
    - intros [H|H]; [auto|]. destruct (IH H); auto.
  Qed.

  Lemma add_sorted (s : cstate V T) l : StronglySorted before l -> StronglySorted before (add_state s l).
  Proof.
    induction 1 as [|x l Hl IH Hx]; cbn [add_state]; [repeat constructor|]. destruct (Nat.eqb_spec (cs_id s) (cs_id x)) as [E|E]; [constructor; assumption|].
    destruct (Nat.ltb_spec (cs_id s) (cs_id x)) as [L|L].
    - constructor; [constructor; assumption|]. constructor; [exact L|]. eapply Forall_impl; [|exact Hx]. unfold before. intros y Hy. lia.
    - constructor; [assumption|]. rewrite Forall_forall in *. intros y Hy. apply in_add_state in Hy as [->|Hy]; [unfold before; lia|auto].
  Qed.

  Lemma sorted_nodup (l : list (cstate V T)) : StronglySorted before l -> NoDup (map cs_id l).
  Proof.
    induction 1 as [|x l Hl IH Hx]; cbn; constructor; [|assumption]. intros H. apply in_map_iff in H as (y & E & Hy).
    rewrite Forall_forall in Hx. specialize (Hx y Hy). unfold before in Hx. lia.
  Qed.

  Lemma only_cfsm_loop p g : forall fuel k added next pending, StronglySorted before added ->
    only (o_cfsm_loop fuel k p g added next pending) (fun x => exists n, k <= n /\ under (n :: 3 :: p) x) (fun l => NoDup (map cs_id l)).
  Proof.
    induction fuel as [|fuel IH]; intros k added next pending Hs; cbn [o_cfsm_loop]; destruct pending as [|st rest]; try exact I;
      try (apply only_ret; apply sorted_nodup; assumption).
    eapply only_bind with (S2 := fun x => under (2 :: k :: 3 :: p) x \/ exists n, S k <= n /\ under (n :: 3 :: p) x); [apply only_group_items| | |].
    - intros gs _. eapply only_bind; [apply only_cfsm_groups, nodup_enumerate| | |].
      + intros [[trans next'] pending'] _. apply (IH (S k)). apply add_sorted. assumption.
      + intros x (i & _ & H) (n & Hn & H'). apply under_tail, under_tail in H. pose proof (under_inj _ _ _ _ H H'). lia.
      + intros x [(i & _ & H)|H]; [left; exact (under_tail _ _ _ H)|right; assumption].
    - intros x H H'. assert (Hx : under (0 :: k :: 3 :: p) x \/ under (1 :: k :: 3 :: p) x) by (destruct H as [->| ->]; [left|right]; apply under_here).
      destruct H' as [H'|(n & Hn & H')].
      + destruct Hx as [Hx|Hx]; pose proof (under_inj _ _ _ _ Hx H'); discriminate.
      + destruct Hx as [Hx|Hx]; apply under_tail in Hx; pose proof (under_inj _ _ _ _ Hx H'); lia.
    - intros x [H|[H|(n & Hn & H)]]; [exists k|exists k|exists n]; (split; [lia|]).
      + destruct H as [->| ->]; apply under_cons, under_here.
      + exact (under_tail _ _ _ H).
      + assumption.
  Qed.

  Lemma only_from_grammar fuel p g : only (o_from_grammar fuel p g) (under p) (fun c => NoDup (map cs_id (cf_states c))).
  Proof.
    unfold o_from_grammar. apply over_bind. intros bds _.
    eapply only_bind with (S2 := under (3 :: p)); [apply only_complete| | |].
    - intros items _. eapply frugal_bind with (Q := fun l => NoDup (map cs_id l)) (R := fun _ _ => False).
      + eapply only_more; [apply only_cfsm_loop; constructor| |auto]. intros x (n & _ & H). exact (under_tail _ _ _ H).
      + intros states Hn. unfold cfsm_build. destruct (memb _ _); [|exact I]. destruct (forallb _ _); [|exact I].
        apply only_ret. exact Hn.
    - intros k H H'. pose proof (under_inj _ _ _ _ H H'). discriminate.
    - intros k [H|H]; exact (under_tail _ _ _ H).
  Qed.

  (** ** The table *)

  Variable teq : T -> T -> bool.

  Lemma only_table_items p g fs st : forall items tbs, NoDup (map fst items) ->
    only (o_table_items teq p g fs st items tbs) (fun k => exists i, In i (map fst items) /\ k = i :: p) (fun _ => True).
  Proof.
    induction items as [|[i [h ib]] items IH]; intros tbs Hn; cbn [o_table_items]; [apply only_ret; exact I|].
    cbn [map fst] in Hn. apply NoDup_cons_iff in Hn as [Hi Hn].
    assert (Hm : forall tbs, only (o_table_items teq p g fs st items tbs) (fun k => exists j, In j (map fst ((i, (h, ib)) :: items)) /\ k = j :: p) (fun _ => True)).
    { intros tbs'. eapply only_more; [apply IH; assumption| |auto]. intros k (j & Hj & ->). exists j. cbn. auto. }
    destruct (cursor_symbol ib) as [[t|v|]|]; try exact I.
    - apply over_bind. intros d _. destruct (insert_action _ _ _ _ _); [apply Hm|apply only_ret; exact I].
    - apply over_bind. intros d _. apply over_bind. intros gt _. apply Hm.
    - destruct (mget h fs) as [fl|]; [|apply Hm]. eapply only_bind with (S2 := fun k => exists j, In j (map fst items) /\ k = j :: p); [apply only_ask| | |].
      + intros fl' _. apply over_bind. intros [ac|] _; [|apply only_ret; exact I].
        destruct (eqb h (g_start g)); [|apply IH; assumption]. destruct (insert_action _ _ _ _ _); [apply IH; assumption|apply only_ret; exact I].
      + cbn. intros k -> (j & Hj & E). injection E as ->. contradiction.
      + intros k [->|(j & Hj & ->)]; [exists i|exists j]; cbn; auto.
  Qed.

  Lemma only_table_states p g fs : forall sts tbs, NoDup (map cs_id sts) ->
    only (o_table_states teq p g fs sts tbs) (fun k => exists i, In i (map cs_id sts) /\ under (i :: p) k) (fun _ => True).
  Proof.
    induction sts as [|st sts IH]; intros tbs Hn; cbn [o_table_states]; [apply only_ret; exact I|].
    cbn [map] in Hn. apply NoDup_cons_iff in Hn as [Hi Hn].
    eapply only_bind with (S2 := fun k => under (1 :: cs_id st :: p) k \/ exists i, In i (map cs_id sts) /\ under (i :: p) k); [apply only_ask| | |].
    - intros its _. eapply only_bind; [apply only_table_items, nodup_enumerate| | |].
      + intros [tbs'|] _; [apply IH; assumption|apply only_ret; exact I].
      + intros k (i & _ & ->) (j & Hj & H). assert (H' : under (cs_id st :: p) (i :: 1 :: cs_id st :: p)) by (apply under_cons, under_cons, under_here).
        pose proof (under_inj _ _ _ _ H H'). subst j. contradiction.
      + intros k [(i & _ & ->)|H]; [left; apply under_cons, under_here|right; assumption].
    - cbn. intros k -> [H|(j & Hj & H)].
      + apply (under_inj _ 0) in H; [discriminate|apply under_here].
      + assert (H' : under (cs_id st :: p) (0 :: cs_id st :: p)) by (apply under_cons, under_here).
        pose proof (under_inj _ _ _ _ H H'). subst j. contradiction.
    - intros k [->|[H|(j & Hj & H)]]; [exists (cs_id st)|exists (cs_id st)|exists j]; (split; [cbn; auto|]).
      + apply under_cons, under_here.
      + exact (under_tail _ _ _ H).
      + assumption.
  Qed.

  Lemma only_new_slr fuel p (c : cfsm V T) : NoDup (map cs_id (cf_states c)) -> only (o_new_slr teq fuel p c) (under p) (fun _ => True).
  Proof.
    intros Hn. unfold o_new_slr. eapply only_bind with (S2 := under (1 :: p)); [apply only_follow_set| | |].
    - intros fs _. eapply frugal_bind with (Q := fun _ => True) (R := fun _ _ => False).
      + eapply only_more; [apply only_table_states; assumption| |auto]. intros k (i & _ & H). exact (under_tail _ _ _ H).
      + intros o _. apply only_ret. exact I.
    - intros k H H'. pose proof (under_inj _ _ _ _ H H'). discriminate.
    - intros k [H|H]; exact (under_tail _ _ _ H).
  Qed.

  Lemma only_slr_new fuel p g : only (o_slr_new teq fuel p g) (under p) (fun _ => True).
  Proof.
    unfold o_slr_new. eapply only_bind with (S2 := under (1 :: p)); [apply only_from_grammar| | |].
    - intros c Hn. eapply frugal_bind with (Q := fun _ => True) (R := fun _ _ => False); [apply only_new_slr; assumption|].
      intros [tb|] _; [apply only_ret; exact I|exact I].
    - intros k H H'. pose proof (under_inj _ _ _ _ H H'). discriminate.
    - intros k [H|H]; exact (under_tail _ _ _ H).
  Qed.
End Names.
