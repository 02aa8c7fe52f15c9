(** The pumping lemma for the trees of a grammar. *)
From Verif Require Import Base GrammarModel SpecCfg SlrMoves.

(** ** Lists with a repeated entry *)
Lemma dup_nat : forall (l : list nat) k, (forall i, In i l -> i < k) -> k < length l ->
  exists a p q r, l = p ++ a :: q ++ a :: r.
Proof.
  intros l k Hl Hk. assert (D : forall m : list nat, NoDup m \/ exists a p q r, m = p ++ a :: q ++ a :: r).
  { induction m as [|x m IH]; [left; constructor|]. destruct IH as [IH|(a & p & q & r & ->)].
    - destruct (in_dec Nat.eq_dec x m) as [Hx|Hx]; [|left; constructor; auto]. right.
      apply in_split in Hx. destruct Hx as (q & r & ->). exists x, [], q, r. reflexivity.
    - right. exists a, (x :: p), q, r. reflexivity. }
  destruct (D l) as [Hn|H]; [|exact H]. exfalso.
  assert (length l <= length (seq 0 k)); [|rewrite seq_length in *; lia].
  apply NoDup_incl_length; [exact Hn|]. intros i Hi. apply in_seq. specialize (Hl i Hi). lia.
Qed.

Lemma dup_list {A} (l vs : list A) : incl l vs -> length vs < length l -> exists a p q r, l = p ++ a :: q ++ a :: r.
Proof.
  intros Hi Hlen. assert (E : exists is, Forall2 (fun i a => nth_error vs i = Some a) is l).
  { clear Hlen. induction l as [|a l IH]; [exists []; constructor|].
    destruct IH as (is & H); [intros x Hx; apply Hi; right; exact Hx|].
    destruct (In_nth_error vs a) as (i & Ei); [apply Hi; left; reflexivity|]. exists (i :: is). constructor; assumption. }
  destruct E as (is & E). destruct (dup_nat is (length vs)) as (i & p & q & r & ->).
  - intros i Hin. apply in_split in Hin. destruct Hin as (p & q & ->). apply Forall2_app_inv_l in E.
    destruct E as (l1 & l2 & _ & E & _). inversion E as [|? a ? ? Ea]; subst. apply nth_error_Some. rewrite Ea. discriminate.
  - apply forall2_length in E. lia.
  - apply Forall2_app_inv_l in E. destruct E as (l1 & l2 & E1 & E2 & ->). inversion E2 as [|? a ? l3 Ea E3]; subst.
    apply Forall2_app_inv_l in E3. destruct E3 as (l4 & l5 & E4 & E5 & ->). inversion E5 as [|? b ? l6 Eb E6]; subst.
    assert (a = b) as <- by congruence. exists a, l1, l4, l6. reflexivity.
Qed.


Lemma app_eq_nil_dec {A} (v y : list A) : {v ++ y = []} + {v ++ y <> []}.
Proof. destruct (v ++ y); [left; reflexivity|right; discriminate]. Qed.

Lemma filter_length_le' {A} (f : A -> bool) l : length (filter f l) <= length l.
Proof. induction l as [|a l IH]; cbn; [lia|]. destruct (f a); cbn; lia. Qed.

Section Pump.
  Context {W T : Type}.
  Notation tr := (@tree W T).
  Variable teq : T -> T -> bool.
  Variable g : grammar W T.

  Fixpoint size (x : tr) : nat := match x with Leaf _ => 1 | Branch _ cs => S (list_sum (map size cs)) end.
  Fixpoint high (x : tr) : nat := match x with Leaf _ => 0 | Branch _ cs => S (list_max (map high cs)) end.

  Definition heads : list W := map fst (g_rules g).
  Definition widest : nat := S (list_max (flat_map (fun r => map (@length _) (snd r)) (g_rules g))).

  Lemma rule_head v bd : rule g v bd -> In v heads.
  Proof. intros (bds & H & _). apply (in_map fst) in H. exact H. Qed.
  Lemma rule_wide v bd : rule g v bd -> length bd <= widest.
  Proof.
    intros (bds & H & Hb). unfold widest. apply le_S.
    assert (F := proj1 (list_max_le _ _) (le_n (list_max (flat_map (fun r => map (@length _) (snd r)) (g_rules g))))).
    rewrite Forall_forall in F. apply F. apply in_flat_map. exists (v, bds). split; [exact H|]. apply in_map. exact Hb.
  Qed.

  (** A tree of little height has few leaves. *)
  Lemma few_leaves x : derivation g teq x -> length (leaves x) <= widest ^ high x.
  Proof.
    induction x as [t|v cs IH] using tree_ind2; intros D; [cbn; lia|].
    inversion D as [|? bd ? Hr Hs Hd]; subst. cbn [high leaves].
    assert (L : length cs <= widest).
    { apply forall2_length in Hs. pose proof (rule_wide _ _ Hr). pose proof (filter_length_le' not_eps bd). lia. }
    assert (G : forall ds h, Forall (fun x => derivation g teq x -> length (leaves x) <= widest ^ high x) ds -> Forall (derivation g teq) ds ->
      list_max (map high ds) <= h -> length (flat_map leaves ds) <= length ds * widest ^ h).
    { clear. induction ds as [|d ds IHd]; intros h F1 F2 Hh; [cbn; lia|]. inversion F1; inversion F2; subst.
      change (Nat.max (high d) (list_max (map high ds)) <= h) in Hh. cbn [flat_map length Nat.mul]. rewrite app_length. pose proof (IHd h ltac:(assumption) ltac:(assumption) ltac:(lia)).
      pose proof (H1 ltac:(assumption)). assert (widest ^ high d <= widest ^ h) by (apply Nat.pow_le_mono_r; [unfold widest|]; lia). lia. }
    specialize (G cs _ IH Hd (le_n _)). cbn [Nat.pow]. eapply Nat.le_trans; [exact G|]. apply Nat.mul_le_mono_r. exact L.
  Qed.

  (** ** Subtrees that can be replaced *)
  Definition rooted (X : W) (x : tr) : Prop := exists cs, x = Branch X cs.

  Definition holds (x y : tr) (u z : list T) (n : nat) : Prop :=
    leaves x = u ++ leaves y ++ z /\ size x = n + size y /\
    forall X Y y', rooted X x -> rooted Y y -> derivation g teq y' -> rooted Y y' ->
      exists x', derivation g teq x' /\ rooted X x' /\ leaves x' = u ++ leaves y' ++ z /\ size x' = n + size y'.

  Lemma holds_refl x : holds x x [] [] 0.
  Proof.
    split; [cbn; symmetry; apply app_nil_r|]. split; [reflexivity|]. intros X Y y' (cs & ->) (cs' & E) D Hy. injection E as <- <-.
    exists y'. split; [exact D|]. split; [exact Hy|]. split; [cbn; symmetry; apply app_nil_r|reflexivity].
  Qed.

  Lemma holds_trans x Y y y2 u z u2 z2 n n2 : rooted Y y -> holds x y u z n -> holds y y2 u2 z2 n2 ->
    holds x y2 (u ++ u2) (z2 ++ z) (n + n2).
  Proof.
    intros HY (A1 & A2 & A3) (B1 & B2 & B3). split; [rewrite A1, B1, !app_assoc; reflexivity|]. split; [lia|].
    intros X Z y' HX HZ D Hy. destruct (B3 Y Z y' HY HZ D Hy) as (y1 & D1 & R1 & L1 & S1).
    destruct (A3 X Y y1 HX HY D1 R1) as (x1 & D2 & R2 & L2 & S2). exists x1. split; [exact D2|]. split; [exact R2|].
    split; [rewrite L2, L1, !app_assoc; reflexivity|lia].
  Qed.

  Lemma size_branch X l y r : size (Branch X (l ++ y :: r)) = S (list_sum (map size l) + list_sum (map size r)) + size y.
  Proof.
    change (S (list_sum (map size (l ++ y :: r))) = S (list_sum (map size l) + list_sum (map size r)) + size y).
    rewrite map_app, list_sum_app. change (list_sum (map size (y :: r))) with (size y + list_sum (map size r)). lia.
  Qed.

  Lemma holds_child X l y r : derivation g teq (Branch X (l ++ y :: r)) ->
    holds (Branch X (l ++ y :: r)) y (flat_map leaves l) (flat_map leaves r) (S (list_sum (map size l) + list_sum (map size r))).
  Proof.
    intros D. split; [cbn; rewrite flat_map_app; reflexivity|]. split; [apply size_branch|].
    intros X' Y y' (cs & E) (cs' & ->) Dy (cs2 & ->). injection E as <- _. inversion D as [|? bd ? Hr Hs Hd]; subst.
    exists (Branch X (l ++ Branch Y cs2 :: r)). split; [|split; [eexists; reflexivity|split; [cbn; rewrite flat_map_app; reflexivity|apply size_branch]]].
    apply (derivation_branch _ _ _ bd); [exact Hr| |].
    - apply Forall2_app_inv_r in Hs. destruct Hs as (b1 & b2 & S1 & S2 & ->). apply Forall2_app; [exact S1|].
      inversion S2 as [|s ? b3 ? Hx Hy]; subst. constructor; [|exact Hy]. destruct s; cbn in *; auto.
    - apply Forall_app in Hd. destruct Hd as (H1 & H2). inversion H2; subst. apply Forall_app. split; [exact H1|]. constructor; assumption.
  Qed.

  (** ** A path to a deepest leaf *)
  Inductive path : tr -> list (W * tr) -> Prop :=
  | path_one : forall X x, rooted X x -> derivation g teq x -> path x [(X, x)]
  | path_more : forall X x y l u z n, rooted X x -> derivation g teq x -> holds x y u z (S n) -> path y l -> path x ((X, x) :: l).

  Lemma max_in (l : list nat) : l <> [] -> In (list_max l) l.
  Proof.
    induction l as [|a l IH]; [contradiction|]. intros _. destruct l as [|b l]; [left; cbn; lia|].
    specialize (IH ltac:(discriminate)). change (list_max (a :: b :: l)) with (Nat.max a (list_max (b :: l))).
    destruct (Nat.max_spec a (list_max (b :: l))) as [[_ ->]|[_ ->]]; [right; exact IH|left; reflexivity].
  Qed.

  Lemma deepest v cs h : high (Branch v cs) = S (S h) -> exists l y r, cs = l ++ y :: r /\ high y = S h.
  Proof.
    cbn. intros E. injection E as E. assert (N : map high cs <> []) by (destruct cs; [discriminate|discriminate]).
    pose proof (max_in _ N) as Hi. rewrite E in Hi. apply in_map_iff in Hi. destruct Hi as (y & Ey & Hy).
    apply in_split in Hy. destruct Hy as (l & r & ->). exists l, y, r. auto.
  Qed.

  Lemma path_of h : forall x, derivation g teq x -> high x = S h -> exists l, path x l /\ length l = S h.
  Proof.
    induction h as [|h IH]; intros [t|v cs] D E; try discriminate.
    - exists [(v, Branch v cs)]. split; [constructor; [eexists; reflexivity|exact D]|reflexivity].
    - destruct (deepest _ _ _ E) as (l & y & r & -> & Ey). assert (Dy : derivation g teq y).
      { inversion D as [|? ? ? _ _ Hd]; subst. rewrite Forall_forall in Hd. apply Hd. apply in_or_app. right. left. reflexivity. }
      destruct (IH y Dy Ey) as (l' & Hp & Hl). exists ((v, Branch v (l ++ y :: r)) :: l'). split; [|cbn; lia].
      eapply path_more; [eexists; reflexivity|exact D|apply holds_child; exact D|exact Hp].
  Qed.

  Lemma path_first x l : path x l -> exists X l', l = (X, x) :: l' /\ rooted X x /\ derivation g teq x.
  Proof. intros [X y H1 H2|X y y' l' u z n H1 H2 _ _]; eauto 6. Qed.

  Lemma path_in x l : path x l -> forall q r A a, l = q ++ (A, a) :: r ->
    rooted A a /\ derivation g teq a /\ path a ((A, a) :: r) /\ exists u z n, holds x a u z n /\ (q <> [] -> 0 < n).
  Proof.
    induction 1 as [X x H1 H2|X x y l u z n H1 H2 H3 H4 IH]; intros q r A a E.
    - destruct q as [|p q]; [injection E as <- <- <-|injection E as _ E; destruct q; discriminate].
      split; [exact H1|]. split; [exact H2|]. split; [constructor; assumption|]. exists [], [], 0. split; [apply holds_refl|contradiction].
    - destruct q as [|p q].
      + injection E as <- <- <-. split; [exact H1|]. split; [exact H2|]. split; [eapply path_more; eassumption|].
        exists [], [], 0. split; [apply holds_refl|contradiction].
      + injection E as _ E. destruct (IH _ _ _ _ E) as (R & D & P & u' & z' & n' & Hh & _).
        destruct (path_first _ _ H4) as (Y & l' & _ & HY & _). split; [exact R|]. split; [exact D|]. split; [exact P|].
        exists (u ++ u'), (z' ++ z), (S n + n'). split; [eapply holds_trans; eassumption|lia].
  Qed.

  (** A subtree of each smaller height. *)
  Lemma lower h k : forall x, derivation g teq x -> high x = S h -> k <= h ->
    exists y, derivation g teq y /\ high y = S k /\ exists u z n, holds x y u z n.
  Proof.
    induction h as [|h IH]; intros x D E Hk.
    - exists x. split; [exact D|]. split; [rewrite E; f_equal; lia|]. exists [], [], 0. apply holds_refl.
    - destruct (Nat.eq_dec k (S h)) as [->|Hne].
      + exists x. split; [exact D|]. split; [exact E|]. exists [], [], 0. apply holds_refl.
      + destruct x as [t|v cs]; [discriminate|]. destruct (deepest _ _ _ E) as (l & y & r & -> & Ey). assert (Dy : derivation g teq y).
        { inversion D as [|? ? ? _ _ Hd]; subst. rewrite Forall_forall in Hd. apply Hd. apply in_or_app. right. left. reflexivity. }
        destruct (IH y Dy Ey ltac:(lia)) as (y' & D' & E' & u & z & n & Hh). exists y'. split; [exact D'|]. split; [exact E'|].
        assert (HY : exists Y, rooted Y y) by (destruct y as [t|Y c]; [discriminate|exists Y, c; reflexivity]). destruct HY as (Y & HY).
        eexists _, _, _. eapply holds_trans; [exact HY|apply holds_child; exact D|exact Hh].
  Qed.

  Definition bound : nat := S (widest ^ S (length heads)).

  Lemma repeated x X : derivation g teq x -> rooted X x -> bound <= length (leaves x) ->
    exists A a b u v w z n m, rooted A a /\ rooted A b /\ derivation g teq a /\ derivation g teq b /\
      holds x a u z n /\ holds a b v w m /\ 0 < m /\ length (leaves a) < bound.
  Proof.
    intros D HX Hb. assert (Hh : S (length heads) < high x).
    { destruct (Nat.lt_ge_cases (S (length heads)) (high x)) as [Hl|Hl]; [exact Hl|]. exfalso. pose proof (few_leaves x D).
      assert (widest ^ high x <= widest ^ S (length heads)) by (apply Nat.pow_le_mono_r; [unfold widest|]; lia). unfold bound in Hb. lia. }
    destruct (lower (pred (high x)) (length heads) x D ltac:(lia) ltac:(lia)) as (y & Dy & Ey & u & z & n & Hxy).
    destruct (path_of _ y Dy Ey) as (l & Hp & Hl). destruct (dup_list (map fst l) heads) as (A & p & q & r & E).
    - intros B HB. apply in_map_iff in HB. destruct HB as ((B' & b) & <- & HB). apply in_split in HB. destruct HB as (p & r & E).
      destruct (path_in _ _ Hp _ _ _ _ E) as ((cs & ->) & Db & _). inversion Db as [|? bd ? Hr _ _]; subst. eapply rule_head; exact Hr.
    - rewrite map_length. lia.
    - apply map_eq_app in E. destruct E as (p' & l1 & -> & _ & E). apply map_eq_cons in E. destruct E as ((A1 & a) & l2 & -> & E1 & E).
      apply map_eq_app in E. destruct E as (q' & l3 & -> & _ & E). apply map_eq_cons in E. destruct E as ((A2 & b) & l4 & -> & E2 & _).
      cbn in E1, E2. subst A1 A2. destruct (path_in _ _ Hp _ _ _ _ eq_refl) as (Ra & Da & Pa & u1 & z1 & n1 & Hya & _).
      destruct (path_in _ _ Pa ((A, a) :: q') l4 A b eq_refl) as (Rb & Dbb & _ & v & w & m & Hab & Hm).
      assert (HY : exists Y, rooted Y y) by (destruct y as [t|Y c]; [discriminate|exists Y, c; reflexivity]). destruct HY as (Y & HY).
      exists A, a, b, (u ++ u1), v, w, (z1 ++ z), (n + n1), m. repeat (split; [first [assumption|eapply holds_trans; eassumption|apply Hm; discriminate]|]).
      pose proof (few_leaves y Dy) as F. rewrite Ey in F. destruct Hya as (La & _). rewrite La, !app_length in F. unfold bound. lia.
  Qed.

  Lemma pump_tree k : forall x X, size x <= k -> derivation g teq x -> rooted X x -> bound <= length (leaves x) ->
    exists u v w y z, leaves x = u ++ v ++ w ++ y ++ z /\ length (v ++ w ++ y) < bound /\ v ++ y <> [] /\
      forall i, exists x', derivation g teq x' /\ rooted X x' /\ leaves x' = u ++ concat (repeat v i) ++ w ++ concat (repeat y i) ++ z.
  Proof.
    induction k as [|k IH]; intros x X Hk D HX Hb; [destruct x; cbn in Hk; lia|].
    destruct (repeated x X D HX Hb) as (A & a & b & u & v & y & z & n & m & Ra & Rb & Da & Db & (L1 & S1 & F1) & (L2 & S2 & F2) & Hm & Hlt).
    destruct (app_eq_nil_dec v y) as [Ee|Ee].
    - destruct (F1 X A b HX Ra Db Rb) as (x' & D' & R' & L' & S').
      assert (El : leaves x' = leaves x). { apply app_eq_nil in Ee. destruct Ee as (-> & ->). rewrite L', L1, L2. cbn. rewrite app_nil_r. reflexivity. }
      rewrite <- El. apply (IH x' X); [lia|exact D'|exact R'|rewrite El; exact Hb].
    - exists u, v, (leaves b), y, z. split; [rewrite L1, L2, <- !app_assoc; reflexivity|]. split; [rewrite L2 in Hlt; exact Hlt|]. split; [exact Ee|].
      intros i. assert (G : exists a', derivation g teq a' /\ rooted A a' /\ leaves a' = concat (repeat v i) ++ leaves b ++ concat (repeat y i)).
      { induction i as [|i (a' & Da' & Ra' & La')]; [exists b; cbn; rewrite app_nil_r; auto|].
        destruct (F2 A A a' Ra Rb Da' Ra') as (a2 & D2 & R2 & L3 & _). exists a2. split; [exact D2|]. split; [exact R2|]. rewrite L3, La'.
        assert (Ty : concat (repeat y i) ++ y = y ++ concat (repeat y i)) by (clear; induction i as [|i IHi]; cbn; [rewrite app_nil_r; reflexivity|rewrite <- app_assoc, IHi; reflexivity]).
        cbn. rewrite <- Ty, <- !app_assoc. reflexivity. }
      destruct G as (a' & Da' & Ra' & La'). destruct (F1 X A a' HX Ra Da' Ra') as (x' & D' & R' & L' & _).
      exists x'. split; [exact D'|]. split; [exact R'|]. rewrite L', La', <- !app_assoc. reflexivity.
  Qed.
End Pump.

(** ** The words a^n b^n c^n *)
Section Three.
  Context {T : Type} {dt : DecEq T}.
  Variables a b c : T.
  Hypothesis Hab : a <> b.
  Hypothesis Hac : a <> c.
  Hypothesis Hbc : b <> c.

  Definition three (n : nat) : list T := repeat a n ++ repeat b n ++ repeat c n.
  Fixpoint count (x : T) (l : list T) : nat := match l with [] => 0 | y :: l => (if eqb x y then 1 else 0) + count x l end.

  Lemma count_app x l l' : count x (l ++ l') = count x l + count x l'.
  Proof. induction l as [|y l IH]; cbn; [reflexivity|]. rewrite IH. lia. Qed.
  Lemma count_same x n : count x (repeat x n) = n.
  Proof. induction n as [|n IH]; cbn; [reflexivity|]. rewrite (proj2 (eqb_eq x x) eq_refl), IH. reflexivity. Qed.
  Lemma count_other x y n : x <> y -> count x (repeat y n) = 0.
  Proof. intros H. induction n as [|n IH]; cbn; [reflexivity|]. destruct (eqb x y) eqn:E; [apply eqb_eq in E; contradiction|exact IH]. Qed.
  Lemma count_in x l : 0 < count x l -> In x l.
  Proof. induction l as [|y l IH]; cbn; [lia|]. destruct (eqb x y) eqn:E; [apply eqb_eq in E; auto|]. intros H. right. apply IH. exact H. Qed.

  Lemma three_counts n : count a (three n) = n /\ count b (three n) = n /\ count c (three n) = n.
  Proof.
    unfold three. rewrite !count_app, !count_same, !count_other by congruence. lia.
  Qed.

  Lemma three_in n x : In x (three n) -> x = a \/ x = b \/ x = c.
  Proof. unfold three. rewrite !in_app_iff. intros [H|[H|H]]; apply repeat_spec in H; auto. Qed.

  Lemma counted l : (forall x, In x l -> x = a \/ x = b \/ x = c) -> count a l + count b l + count c l = length l.
  Proof.
    induction l as [|y l IH]; intros H; [reflexivity|]. cbn. rewrite <- IH by (intros x Hx; apply H; right; exact Hx).
    assert (E : forall x z, x <> z -> eqb x z = false) by (intros x z Hn; destruct (eqb x z) eqn:E; [apply eqb_eq in E; contradiction|reflexivity]).
    destruct (H y (or_introl eq_refl)) as [-> | [-> | ->]]; rewrite (proj2 (eqb_eq _ _) eq_refl), !E by congruence; lia.
  Qed.

  Lemma nth_a n i : nth_error (three n) i = Some a -> i < n.
  Proof.
    unfold three. intros H. destruct (Nat.lt_ge_cases i n) as [Hi|Hi]; [exact Hi|exfalso]. rewrite nth_error_app2 in H by (rewrite repeat_length; exact Hi).
    apply nth_error_In in H. apply in_app_or in H. destruct H as [H|H]; apply repeat_spec in H; congruence.
  Qed.
  Lemma nth_c n i : nth_error (three n) i = Some c -> 2 * n <= i.
  Proof.
    unfold three. intros H. destruct (Nat.lt_ge_cases i (2 * n)) as [Hi|Hi]; [exfalso|exact Hi]. rewrite app_assoc in H.
    rewrite nth_error_app1 in H by (rewrite app_length, !repeat_length; lia).
    apply nth_error_In in H. apply in_app_or in H. destruct H as [H|H]; apply repeat_spec in H; congruence.
  Qed.

  Lemma not_pumped (L : list T -> Prop) p : (forall ts, L ts <-> exists n, ts = three n) ->
    (forall ts, L ts -> p <= length ts -> exists u v w y z, ts = u ++ v ++ w ++ y ++ z /\ length (v ++ w ++ y) <= p /\ v ++ y <> [] /\
       forall i, L (u ++ concat (repeat v i) ++ w ++ concat (repeat y i) ++ z)) -> False.
  Proof.
    intros HL P. destruct (P (three p)) as (u & v & w & y & z & E & Hlen & Hne & Hi).
    - apply HL. eauto.
    - unfold three. rewrite !app_length, !repeat_length. lia.
    - specialize (Hi 2). apply HL in Hi. destruct Hi as (n & En). cbn in En. rewrite !app_nil_r, <- !app_assoc in En.
      destruct (three_counts p) as (A1 & A2 & A3). destruct (three_counts n) as (B1 & B2 & B3). rewrite <- En in B1, B2, B3. rewrite E in A1, A2, A3.
      rewrite !count_app in *. assert (Hc : count a (v ++ y) + count b (v ++ y) + count c (v ++ y) = length (v ++ y)).
      { apply counted. intros x Hx. apply (three_in p). rewrite E. rewrite !in_app_iff in *. tauto. }
      assert (0 < length (v ++ y)) by (destruct (v ++ y); [contradiction|cbn; lia]). rewrite !count_app in Hc.
      assert (Ha : In a (v ++ w ++ y)) by (assert (I : In a (v ++ y)) by (apply count_in; rewrite count_app; lia); rewrite !in_app_iff in *; tauto).
      assert (Hcc : In c (v ++ w ++ y)) by (assert (I : In c (v ++ y)) by (apply count_in; rewrite count_app; lia); rewrite !in_app_iff in *; tauto).
      assert (E' : three p = u ++ (v ++ w ++ y) ++ z) by (rewrite E, <- !app_assoc; reflexivity).
      assert (N : forall x, In x (v ++ w ++ y) -> exists j, j < length (v ++ w ++ y) /\ nth_error (three p) (length u + j) = Some x).
      { intros x Hx. apply In_nth_error in Hx. destruct Hx as (j & Hj). assert (Hl : j < length (v ++ w ++ y)) by (apply nth_error_Some; rewrite Hj; discriminate).
        exists j. split; [exact Hl|]. rewrite E', nth_error_app2 by lia. replace (length u + j - length u) with j by lia. rewrite nth_error_app1 by exact Hl. exact Hj. }
      destruct (N a Ha) as (i & Hi & Ni). destruct (N c Hcc) as (j & Hj & Nj). apply nth_a in Ni. apply nth_c in Nj. lia.
  Qed.
End Three.
