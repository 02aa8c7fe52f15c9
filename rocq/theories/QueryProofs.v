(** The search finds a text exactly if there is one. *)
From Verif Require Import Base RegexModel SpecRegex RegexProofs NfaModel SpecNfa NfaLangProofs NfaProofs GrammarModel SpecKleene KleeneProofs SpecQuery.
From Coq Require Import Lia.

(** ** Characters *)
Lemma changes_incl bs bs' P : incl bs bs' -> changes bs P -> changes bs' P.
Proof. intros Hi H x Hx. apply H. intros Hy. apply Hx, Hi, Hy. Qed.

Lemma changes_not bs P : changes bs P -> changes bs (fun c => negb (P c)).
Proof. intros H x Hx. rewrite (H x Hx). reflexivity. Qed.
Lemma changes_or bs P Q : changes bs P -> changes bs Q -> changes bs (fun c => P c || Q c).
Proof. intros H1 H2 x Hx. rewrite (H1 x Hx), (H2 x Hx). reflexivity. Qed.

Lemma changes_one m : changes [m; m + 1]%N (N.eqb m).
Proof.
  intros x Hx. destruct (N.eqb_spec m (x + 1)) as [->|H1]; [exfalso; apply Hx; left; reflexivity|].
  destruct (N.eqb_spec m x) as [->|H2]; [exfalso; apply Hx; right; left; reflexivity|reflexivity].
Qed.
Lemma changes_range a b : changes [a; b + 1]%N (fun c => (a <=? c)%N && (c <=? b)%N).
Proof.
  intros x Hx. assert (H1 : (a <> x + 1)%N) by (intros ->; apply Hx; left; reflexivity).
  assert (H2 : (x <> b)%N) by (intros ->; apply Hx; right; left; reflexivity).
  apply Bool.eq_iff_eq_true. rewrite !Bool.andb_true_iff, !N.leb_le. lia.
Qed.

(** One place for a range of characters. *)
Section Chars.
  Context {env : Env} (bs : list N) (Hbs : changes bs is_alphabetic).

  Lemma changes_class k : changes (class_cuts bs k) (class_contains k).
  Proof.
    assert (Hd : changes [48; 58]%N is_ascii_digit).
    { exact (changes_range 48 57). }
    assert (Hs : changes space_cuts is_whitespace).
    { intros x Hx. unfold space_cuts in Hx. cbn [In] in Hx. apply Bool.eq_iff_eq_true. unfold is_whitespace.
      rewrite !Bool.orb_true_iff, !Bool.andb_true_iff, !N.leb_le, !N.eqb_eq. lia. }
    destruct k; cbn [class_cuts]; [intros x _; reflexivity|exact Hbs|exact Hs|exact Hd|exact (changes_not _ _ Hbs)|exact (changes_not _ _ Hd)|exact (changes_not _ _ Hs)].
  Qed.
  Lemma changes_glit g : changes (glit_cuts bs g) (glit_contains g).
  Proof. destruct g as [m|k|a b]; cbn [glit_cuts glit_contains]; [apply changes_one|apply changes_class|apply changes_range]. Qed.
  Lemma changes_lit l : changes (lit_cuts bs l) (lit_contains l).
  Proof.
    destruct l as [m|k|n gs]; cbn [lit_cuts lit_contains]; [apply changes_one|apply changes_class|].
    assert (H : changes (flat_map (glit_cuts bs) gs) (fun c => existsb (fun g => glit_contains g c) gs)).
    { induction gs as [|g gs IH]; [intros x _; reflexivity|]. cbn [flat_map existsb]. apply changes_or.
      - apply (changes_incl (glit_cuts bs g)); [apply incl_appl, incl_refl|apply changes_glit].
      - apply (changes_incl _ _ _ (incl_appr _ (incl_refl _))). exact IH. }
    intros x Hx. unfold lit_contains. pose proof (H x Hx) as E. cbn beta in E. rewrite E. reflexivity.
  Qed.
End Chars.

(** Every character is like a place of a change before it. *)
Lemma like_one (bs : list N) (c : N) : exists b, In b (0%N :: bs) /\ forall P, changes bs P -> P c = P b.
Proof.
  induction c as [|c IH] using N.peano_ind; [exists 0%N; split; [left; reflexivity|reflexivity]|].
  rewrite <- N.add_1_r. destruct (in_dec N.eq_dec (c + 1)%N bs) as [Hi|Hi]; [exists (c + 1)%N; split; [right; exact Hi|reflexivity]|].
  destruct IH as (b & Hb & H). exists b. split; [exact Hb|]. intros P HP. rewrite (HP c Hi). apply H. exact HP.
Qed.

(** ** What is left *)
Fixpoint lits_of (r : rx) : list lit :=
  match r with
  | Zero | One => []
  | Sym l => [l]
  | Plus r s | Times r s => lits_of r ++ lits_of s
  | Star r => lits_of r
  end.

Lemma heads_tails r l p : In (l, p) (heads r) -> In p (tails r).
Proof.
  revert l p. induction r as [| |l0|r IHr s IHs|r IHr s IHs|r IHr]; intros l p; cbn [heads tails]; intros H; try destruct H as [H|[]]; try contradiction.
  - injection H as _ <-. left. reflexivity.
  - apply in_app_or in H. apply in_or_app. destruct H; eauto.
  - apply in_app_or in H. apply in_or_app. destruct H as [H|H].
    + left. apply in_map_iff in H. destruct H as ([l' p'] & E & H). cbn in E. injection E as <- <-. apply (in_map (fun x => Times x s)). eauto.
    + right. destruct (has_one r); [eauto|destruct H].
  - apply in_map_iff in H. destruct H as ([l' p'] & E & H). cbn in E. injection E as <- <-. apply (in_map (fun x => Times x (Star r))). eauto.
Qed.
Lemma tails_closed r : forall q l p, In q (tails r) -> In (l, p) (heads q) -> In p (tails r).
Proof.
  induction r as [| |l0|r IHr s IHs|r IHr s IHs|r IHr]; intros q l p; cbn [tails]; intros Hq H; try contradiction.
  - destruct Hq as [<-|[]]. destruct H.
  - apply in_app_or in Hq. apply in_or_app. destruct Hq; eauto.
  - apply in_app_or in Hq. apply in_or_app. destruct Hq as [Hq|Hq]; [|right; eauto].
    apply in_map_iff in Hq. destruct Hq as (q' & <- & Hq). cbn [heads] in H. apply in_app_or in H. destruct H as [H|H].
    + left. apply in_map_iff in H. destruct H as ([l' p'] & E & H). cbn in E. injection E as <- <-. apply (in_map (fun x => Times x s)). eauto.
    + right. destruct (has_one q'); [eapply heads_tails; exact H|destruct H].
  - apply in_map_iff in Hq. destruct Hq as (q' & <- & Hq). cbn [heads] in H. apply in_app_or in H. destruct H as [H|H].
    + apply in_map_iff in H. destruct H as ([l' p'] & E & H). cbn in E. injection E as <- <-. apply (in_map (fun x => Times x (Star r))). eauto.
    + destruct (has_one q'); [|destruct H]. apply in_map_iff in H. destruct H as ([l' p'] & E & H). cbn in E. injection E as <- <-.
      apply (in_map (fun x => Times x (Star r))). eapply heads_tails. exact H.
Qed.

Lemma heads_lits r l p : In (l, p) (heads r) -> In l (lits_of r) /\ incl (lits_of p) (lits_of r).
Proof.
  revert l p. induction r as [| |l0|r IHr s IHs|r IHr s IHs|r IHr]; intros l p; cbn [heads lits_of]; intros H; try destruct H as [H|[]]; try contradiction.
  - injection H as <- <-. split; [left; reflexivity|intros x []].
  - apply in_app_or in H. destruct H as [H|H]; [apply IHr in H|apply IHs in H]; destruct H as [H1 H2];
      (split; [apply in_or_app; auto|intros x Hx; apply in_or_app; auto]).
  - apply in_app_or in H. destruct H as [H|H].
    + apply in_map_iff in H. destruct H as ([l' p'] & E & H). cbn in E. injection E as <- <-. apply IHr in H. destruct H as [H1 H2].
      split; [apply in_or_app; auto|]. cbn [lits_of]. intros x Hx. apply in_app_or in Hx. apply in_or_app. destruct Hx; auto.
    + destruct (has_one r); [|destruct H]. apply IHs in H. destruct H as [H1 H2]. split; [apply in_or_app; auto|intros x Hx; apply in_or_app; auto].
  - apply in_map_iff in H. destruct H as ([l' p'] & E & H). cbn in E. injection E as <- <-. apply IHr in H. destruct H as [H1 H2].
    split; [exact H1|]. cbn [lits_of]. intros x Hx. apply in_app_or in Hx. destruct Hx; auto.
Qed.
Lemma tails_lits r q : In q (tails r) -> incl (lits_of q) (lits_of r).
Proof.
  revert q. induction r as [| |l0|r IHr s IHs|r IHr s IHs|r IHr]; intros q; cbn [tails lits_of]; intros H; try contradiction.
  - destruct H as [<-|[]]. intros x [].
  - apply in_app_or in H. intros x Hx. apply in_or_app. destruct H as [H|H]; [left; exact (IHr q H x Hx)|right; exact (IHs q H x Hx)].
  - apply in_app_or in H. intros x Hx. apply in_or_app. destruct H as [H|H]; [|right; exact (IHs q H x Hx)].
    apply in_map_iff in H. destruct H as (q' & <- & H). cbn [lits_of] in Hx. apply in_app_or in Hx. destruct Hx as [Hx|Hx]; [left; exact (IHr q' H x Hx)|right; exact Hx].
  - apply in_map_iff in H. destruct H as (q' & <- & H). intros x Hx. cbn [lits_of] in Hx. apply in_app_or in Hx. destruct Hx as [Hx|Hx]; [exact (IHr q' H x Hx)|exact Hx].
Qed.
Lemma lits_cuts bs r l : In l (lits_of r) -> incl (lit_cuts bs l) (rx_cuts bs r).
Proof.
  induction r as [| |l0|r IHr s IHs|r IHr s IHs|r IHr]; cbn [lits_of rx_cuts]; intros H; try contradiction; auto.
  - destruct H as [<-|[]]. apply incl_refl.
  - apply in_app_or in H. destruct H; [apply incl_appl|apply incl_appr]; auto.
  - apply in_app_or in H. destruct H; [apply incl_appl|apply incl_appr]; auto.
Qed.

Section Heads.
  Context {env : Env}.

  Lemma star_first (L : list char -> Prop) c w : star L (c :: w) -> exists u v, w = u ++ v /\ L (c :: u) /\ star L v.
  Proof.
    intros H. remember (c :: w) as x eqn:E. induction H as [|u v Hu Hv IH]; [discriminate|].
    destruct u as [|d u]; [exact (IH E)|]. cbn in E. injection E as -> <-. eauto.
  Qed.

  Lemma heads_ok r : forall c w, words r (c :: w) <-> exists l p, In (l, p) (heads r) /\ lit_contains l c = true /\ words p w.
  Proof.
    induction r as [| |l0|r IHr s IHs|r IHr s IHs|r IHr]; intros c w; cbn [words heads].
    - split; [contradiction|intros (l & p & [] & _)].
    - split; [discriminate|intros (l & p & [] & _)].
    - split.
      + intros (d & E & Hd). injection E as <- ->. exists l0, One. split; [left; reflexivity|]. split; [apply lit_spec; exact Hd|reflexivity].
      + intros (l & p & [E|[]] & Hl & Hp). injection E as <- <-. cbn in Hp. subst w. exists c. split; [reflexivity|]. apply lit_spec. exact Hl.
    - rewrite IHr, IHs. split.
      + intros [(l & p & H & H')|(l & p & H & H')]; exists l, p; (split; [apply in_or_app; auto|exact H']).
      + intros (l & p & H & H'). apply in_app_or in H. destruct H as [H|H]; [left|right]; eauto.
    - split.
      + intros (u & v & E & Hu & Hv). destruct u as [|d u].
        * cbn in E. subst v. apply IHs in Hv. destruct Hv as (l & p & H & H'). exists l, p. split; [|exact H']. apply in_or_app. right.
          apply has_one_ok in Hu. rewrite Hu. exact H.
        * cbn in E. injection E as <- ->. apply IHr in Hu. destruct Hu as (l & p & H & Hl & Hp). exists l, (Times p s). split.
          { apply in_or_app. left. apply in_map_iff. exists (l, p). auto. }
          split; [exact Hl|]. cbn [words]. eauto.
      + intros (l & p & H & Hl & Hp). apply in_app_or in H. destruct H as [H|H].
        * apply in_map_iff in H. destruct H as ([l' p'] & E & H). cbn in E. injection E as <- <-. cbn [words] in Hp. destruct Hp as (u & v & -> & Hu & Hv).
          exists (c :: u), v. split; [reflexivity|]. split; [|exact Hv]. apply IHr. eauto.
        * destruct (has_one r) eqn:E; [|destruct H]. exists [], (c :: w). split; [reflexivity|]. split; [apply has_one_ok; exact E|]. apply IHs. eauto.
    - split.
      + intros H. apply star_first in H. destruct H as (u & v & -> & Hu & Hv). apply IHr in Hu. destruct Hu as (l & p & H & Hl & Hp).
        exists l, (Times p (Star r)). split; [apply in_map_iff; exists (l, p); auto|]. split; [exact Hl|]. cbn [words]. eauto.
      + intros (l & p & H & Hl & Hp). apply in_map_iff in H. destruct H as ([l' p'] & E & H). cbn in E. injection E as <- <-. cbn [words] in Hp.
        destruct Hp as (u & v & -> & Hu & Hv). apply (star_more (words r) (c :: u) v); [|exact Hv]. apply IHr. eauto.
  Qed.
End Heads.

(** ** The search *)
Lemma add_new {A} `{DecEq A} (xs : list A) : forall l, exists e, fold_left (fun acc p => if memb p acc then acc else acc ++ [p]) xs l = l ++ e /\
  incl e xs /\ incl xs (l ++ e) /\ (NoDup l -> NoDup (l ++ e)).
Proof.
  induction xs as [|x xs IH]; intros l; cbn [fold_left].
  - exists []. rewrite app_nil_r. repeat split; auto; intros y [].
  - destruct (memb x l) eqn:Em.
    + destruct (IH l) as (e & -> & H1 & H2 & H3). exists e. apply memb_in in Em. repeat split; auto.
      * intros y Hy. right. apply H1. exact Hy.
      * intros y [<-|Hy]; [apply in_or_app; left; exact Em|apply H2; exact Hy].
    + destruct (IH (l ++ [x])) as (e & -> & H1 & H2 & H3). exists (x :: e). rewrite <- app_assoc in *. cbn [app] in *. apply memb_not_in in Em. repeat split; auto.
      * intros y [<-|Hy]; [left; reflexivity|right; apply H1; exact Hy].
      * intros y [<-|Hy]; [apply in_or_app; right; left; reflexivity|apply H2; exact Hy].
      * intros Hn. apply H3.
        clear -Hn Em. induction l as [|z l IHl]; cbn; [constructor; [intros []|constructor]|]. inversion Hn; subst. constructor.
        { intros Hz. apply in_app_or in Hz. destruct Hz as [Hz|[->|[]]]; [contradiction|]. apply Em. left. reflexivity. }
        { apply IHl; [|assumption]. intros Hx. apply Em. right. exact Hx. }
Qed.

Section Sat.
  Context {env : Env} (u : point) (cs : list char).
  Notation good l := (forall p c, In p l -> In c cs -> In (move u p c) l).

  Lemma widen_spec l : exists e, widen u cs l = l ++ e /\ (forall q, In q e -> exists p c, In p l /\ In c cs /\ q = move u p c) /\
    (forall p c, In p l -> In c cs -> In (move u p c) (l ++ e)) /\ (NoDup l -> NoDup (l ++ e)).
  Proof.
    unfold widen. destruct (add_new (flat_map (fun p => map (move u p) cs) l) l) as (e & -> & H1 & H2 & H3). exists e. split; [reflexivity|].
    split; [|split; [|exact H3]].
    - intros q Hq. apply H1 in Hq. apply in_flat_map in Hq. destruct Hq as (p & Hp & Hq). apply in_map_iff in Hq. destruct Hq as (c & <- & Hc). eauto.
    - intros p c Hp Hc. apply H2. apply in_flat_map. exists p. split; [exact Hp|]. apply in_map. exact Hc.
  Qed.
  Lemma widen_same l : good l -> NoDup l -> widen u cs l = l.
  Proof.
    intros Hg Hn. destruct (widen_spec l) as (e & E & H1 & _ & H3). rewrite E. destruct e as [|q e]; [apply app_nil_r|]. exfalso.
    destruct (H1 q (or_introl eq_refl)) as (p & c & Hp & Hc & ->). specialize (H3 Hn). apply NoDup_remove_2 in H3. apply H3, in_or_app. left. auto.
  Qed.
  Lemma all_same k l : good l -> NoDup l -> widen_all k u cs l = l.
  Proof.
    intros Hg Hn. induction k as [|k IH]; cbn [widen_all]; [apply widen_same; assumption|]. rewrite IH, Nat.eqb_refl. reflexivity.
  Qed.
  Lemma all_spec k : forall l, NoDup l -> let l' := widen_all k u cs l in
    NoDup l' /\ incl l l' /\ (good l' \/ length l + 2 ^ k <= length l') /\
    (forall P : point -> Prop, (forall p, In p l -> P p) -> (forall p c, P p -> In c cs -> P (move u p c)) -> forall p, In p l' -> P p).
  Proof.
    induction k as [|k IH]; intros l Hn; cbn [widen_all].
    - destruct (widen_spec l) as (e & E & H1 & H2 & H3). rewrite E. cbn zeta. split; [apply H3; exact Hn|]. split; [apply incl_appl, incl_refl|]. split.
      + destruct e as [|q e]; [left|right].
        * rewrite app_nil_r in *. exact H2.
        * rewrite app_length. cbn. lia.
      + intros P HP Hs p Hp. apply in_app_or in Hp. destruct Hp as [Hp|Hp]; [auto|]. destruct (H1 p Hp) as (p' & c & Hp' & Hc & ->). auto.
    - destruct (IH l Hn) as (N1 & I1 & G1 & R1). set (l1 := widen_all k u cs l) in *. destruct (Nat.eqb_spec (length l1) (length l)) as [El|El]; cbn zeta.
      + split; [exact N1|]. split; [exact I1|]. split; [|exact R1]. left. destruct G1 as [G1|G1]; [exact G1|]. exfalso.
        assert (2 ^ k <> 0) by (apply Nat.pow_nonzero; discriminate). lia.
      + destruct (IH l1 N1) as (N2 & I2 & G2 & R2). split; [exact N2|]. split; [intros x Hx; apply I2, I1, Hx|]. split.
        * destruct G1 as [G1|G1]; [left; rewrite (all_same k l1 G1 N1); exact G1|]. destruct G2 as [G2|G2]; [left; exact G2|right]. cbn [Nat.pow]. lia.
        * intros P HP Hs. apply R2; [|exact Hs]. apply R1; assumption.
  Qed.
End Sat.

(** All parts of a list. *)
Fixpoint parts {A} (l : list A) : list (list A) :=
  match l with [] => [[]] | x :: l => parts l ++ map (cons x) (parts l) end.
Lemma parts_length {A} (l : list A) : length (parts l) = 2 ^ length l.
Proof. induction l as [|x l IH]; cbn [parts length Nat.pow]; [reflexivity|]. rewrite app_length, map_length, IH. lia. Qed.
Lemma filter_part {A} (f : A -> bool) l : In (filter f l) (parts l).
Proof. induction l as [|x l IH]; cbn [filter parts]; [left; reflexivity|]. apply in_or_app. destruct (f x); [right; apply in_map; exact IH|left; exact IH]. Qed.

Section Text.
  Context {env : Env}.

  Definition walk (u p : point) (w : list char) : point := fold_left (move u) w p.

  (** Everything that can be left is known. *)
  Definition closed_under (u : point) : Prop := forall i q l p, In (i, q) u -> In (l, p) (heads q) -> In (i, p) u.

  Lemma move_in u p c i x : In (i, x) (move u p c) <-> In (i, x) u /\ exists q l, In (i, q) p /\ In (l, x) (heads q) /\ lit_contains l c = true.
  Proof.
    unfold move, reached. rewrite filter_In, existsb_exists. split.
    - intros [Hu ((j & q) & Hp & H)]. split; [exact Hu|]. cbn [fst snd] in H. apply andb_prop in H. destruct H as [Hj H]. apply Nat.eqb_eq in Hj. subst j.
      apply existsb_exists in H. destruct H as ([l y] & Hl & H). cbn [fst snd] in H. apply andb_prop in H. destruct H as [H1 H2]. apply eqb_eq in H2. subst y. eauto.
    - intros [Hu (q & l & Hp & Hl & Hc)]. split; [exact Hu|]. exists (i, q). split; [exact Hp|]. cbn [fst snd]. rewrite Nat.eqb_refl. cbn [andb].
      apply existsb_exists. exists (l, x). split; [exact Hl|]. cbn [fst snd]. rewrite Hc. cbn [andb]. apply eqb_eq. reflexivity.
  Qed.
  Lemma move_incl u p c : incl (move u p c) u.
  Proof. intros x Hx. unfold move in Hx. apply filter_In in Hx. apply Hx. Qed.

  Lemma walk_ok u (Hu : closed_under u) i w : forall p, incl p u ->
    (done_at (walk u p w) i = true <-> exists q, In (i, q) p /\ words q w).
  Proof.
    induction w as [|c w IH]; intros p Hp; cbn [walk fold_left].
    - unfold done_at. rewrite existsb_exists. split.
      + intros ((j & q) & Hq & H). cbn [fst snd] in H. apply andb_prop in H. destruct H as [Hj H]. apply Nat.eqb_eq in Hj. subst j.
        exists q. split; [exact Hq|]. apply has_one_ok. exact H.
      + intros (q & Hq & H). exists (i, q). split; [exact Hq|]. cbn [fst snd]. rewrite Nat.eqb_refl. apply has_one_ok. exact H.
    - fold (walk u (move u p c) w). rewrite (IH _ (move_incl u p c)). split.
      + intros (x & Hx & H). apply move_in in Hx. destruct Hx as [_ (q & l & Hq & Hl & Hc)]. exists q. split; [exact Hq|]. apply heads_ok. eauto.
      + intros (q & Hq & H). apply heads_ok in H. destruct H as (l & x & Hl & Hc & H). exists x. split; [|exact H]. apply move_in.
        split; [exact (Hu i q l x (Hp _ Hq) Hl)|]. eauto.
  Qed.

  Lemma move_like u p c c' : (forall i q l x, In (i, q) p -> In (l, x) (heads q) -> lit_contains l c = lit_contains l c') -> move u p c = move u p c'.
  Proof.
    intros H. unfold move. apply filter_ext. intros (i & x). apply Bool.eq_iff_eq_true.
    assert (E : forall d, reached p d (i, x) = true <-> exists q l, In (i, q) p /\ In (l, x) (heads q) /\ lit_contains l d = true).
    { intros d. unfold reached. rewrite existsb_exists. split.
      - intros ((j & q) & Hp & Hx). cbn [fst snd] in Hx. apply andb_prop in Hx. destruct Hx as [Hj Hx]. apply Nat.eqb_eq in Hj. subst j.
        apply existsb_exists in Hx. destruct Hx as ([l y] & Hl & Hx). cbn [fst snd] in Hx. apply andb_prop in Hx. destruct Hx as [H1 H2]. apply eqb_eq in H2. subst y. eauto.
      - intros (q & l & Hp & Hl & Hc). exists (i, q). split; [exact Hp|]. cbn [fst snd]. rewrite Nat.eqb_refl. cbn [andb].
        apply existsb_exists. exists (l, x). split; [exact Hl|]. cbn [fst snd]. rewrite Hc. cbn [andb]. apply eqb_eq. reflexivity. }
    rewrite !E. split; intros (q & l & Hq & Hl & Hc); exists q, l; (split; [exact Hq|]; split; [exact Hl|]); specialize (H i q l x Hq Hl); congruence.
  Qed.

  Lemma in_index {A} (l : list A) : forall k i x, In (i, x) (combine (seq k (length l)) l) <-> k <= i /\ nth_error l (i - k) = Some x.
  Proof.
    induction l as [|y l IH]; intros k i x; cbn [length seq combine In].
    - split; [contradiction|]. intros [_ H]. destruct (i - k); discriminate.
    - rewrite IH. split.
      + intros [E|[H1 H2]]; [injection E as <- <-; rewrite Nat.sub_diag; split; [lia|reflexivity]|]. split; [lia|].
        replace (i - k) with (S (i - S k)) by lia. exact H2.
      + intros [H1 H2]. destruct (Nat.eq_dec i k) as [->|Hne]; [left; rewrite Nat.sub_diag in H2; cbn in H2; congruence|right].
        split; [lia|]. replace (i - k) with (S (i - S k)) in H2 by lia. exact H2.
  Qed.

  Lemma in_universe rs i q : In (i, q) (universe rs) <-> exists r, nth_error rs i = Some r /\ (q = r \/ In q (tails r)).
  Proof.
    unfold universe. rewrite nodup_In, in_flat_map. split.
    - intros ((j & r) & Hj & H). apply in_index in Hj. rewrite Nat.sub_0_r in Hj. cbn [fst snd] in H. apply in_map_iff in H. destruct H as (q' & E & H).
      injection E as -> ->. exists r. split; [apply Hj|]. destruct H as [<-|H]; auto.
    - intros (r & Hr & H). exists (i, r). split; [apply in_index; rewrite Nat.sub_0_r; split; [lia|exact Hr]|]. cbn [fst snd]. apply in_map.
      destruct H as [->|H]; [left; reflexivity|right; exact H].
  Qed.
  Lemma universe_closed rs : closed_under (universe rs).
  Proof.
    intros i q l p Hq Hl. apply in_universe in Hq. destruct Hq as (r & Hr & Hq). apply in_universe. exists r. split; [exact Hr|]. right.
    destruct Hq as [->|Hq]; [eapply heads_tails; exact Hl|eapply tails_closed; [exact Hq|exact Hl]].
  Qed.
  Lemma origin_incl rs : incl (origin rs) (universe rs).
  Proof.
    intros (i & r) H. unfold origin in H. apply in_index in H. rewrite Nat.sub_0_r in H. apply in_universe. exists r. split; [apply H|left; reflexivity].
  Qed.

  Context (bs : list N) (Hbs : changes bs is_alphabetic).

  Lemma some_chars_like rs p c : incl p (universe rs) -> exists c', In c' (some_chars bs rs) /\ move (universe rs) p c = move (universe rs) p c'.
  Proof.
    intros Hp. destruct (like_one (flat_map (rx_cuts bs) rs) c) as (b & Hb & H). exists b. split; [unfold some_chars; apply nodup_In; exact Hb|].
    apply move_like. intros i q l x Hq Hl. apply H. apply Hp, in_universe in Hq. destruct Hq as (r & Hr & Hq).
    apply (changes_incl (lit_cuts bs l)); [|apply changes_lit; exact Hbs]. intros y Hy. apply in_flat_map. exists r. split; [eapply nth_error_In; exact Hr|].
    apply (lits_cuts bs r l); [|exact Hy]. destruct (heads_lits q l x Hl) as [H1 _]. destruct Hq as [->|Hq]; [exact H1|]. exact (tails_lits r q Hq l H1).
  Qed.

  Definition answers (rs : list rx) (w : list char) (l : list bool) : Prop := Forall2 (fun r b => b = true <-> words r w) rs l.

  Lemma answers_at rs w : answers rs w (map (done_at (walk (universe rs) (origin rs) w)) (seq 0 (length rs))).
  Proof.
    assert (E : forall i r, nth_error rs i = Some r -> done_at (walk (universe rs) (origin rs) w) i = true <-> words r w).
    { intros i r Hr. rewrite (walk_ok _ (universe_closed rs) i w _ (origin_incl rs)). unfold origin. split.
      - intros (q & Hq & H). apply in_index in Hq. rewrite Nat.sub_0_r in Hq. destruct Hq as [_ Hq]. congruence.
      - intros H. exists r. split; [apply in_index; rewrite Nat.sub_0_r; split; [lia|exact Hr]|exact H]. }
    set (f := done_at _) in *. clearbody f. unfold answers. revert f E. induction rs as [|r rs IH]; intros f E; cbn [length seq map]; [constructor|].
    constructor; [apply (E 0 r eq_refl)|]. rewrite <- seq_shift, map_map. apply (IH (fun i => f (S i))). intros i r' Hr. apply (E (S i) r' Hr).
  Qed.
  Lemma answers_unique rs w : forall l l', answers rs w l -> answers rs w l' -> l = l'.
  Proof.
    unfold answers. induction rs as [|r rs IH]; intros l l' H H'; inversion H as [|? b ? lb Hb Hl]; subst; inversion H' as [|? b' ? lb' Hb' Hl']; subst; [reflexivity|].
    f_equal; [apply Bool.eq_iff_eq_true; rewrite Hb, Hb'; reflexivity|]. apply IH; assumption.
  Qed.

  Theorem exists_text_ok rs phi : exists_text bs rs phi = true <-> exists w l, answers rs w l /\ phi l = true.
  Proof.
    unfold exists_text. set (u := universe rs). set (cs := some_chars bs rs).
    destruct (all_spec u cs (S (length u)) [origin rs]) as (H1 & H2 & H3 & H4); [constructor; [intros []|constructor]|].
    set (l := widen_all (S (length u)) u cs [origin rs]) in *.
    assert (Hw : forall p, In p l -> exists w, p = walk u (origin rs) w).
    { apply H4.
      - intros p [<-|[]]. exists []. reflexivity.
      - intros p c (w & ->) _. exists (w ++ [c]). unfold walk. rewrite fold_left_app. reflexivity. }
    assert (Hi : forall w, incl (walk u (origin rs) w) u).
    { intros w. induction w as [|c w _] using rev_ind; [apply origin_incl|]. unfold walk. rewrite fold_left_app. apply move_incl. }
    assert (Hg : forall p c, In p l -> In c cs -> In (move u p c) l).
    { destruct H3 as [H3|H3]; [exact H3|]. exfalso.
      assert (Hl : length l <= S (2 ^ length u)).
      { rewrite <- (parts_length u). change (S (length (parts u))) with (length (origin rs :: parts u)). apply NoDup_incl_length; [exact H1|].
        intros p Hp. destruct (Hw p Hp) as (w & ->). destruct w as [|c w _] using rev_ind; [left; reflexivity|right].
        unfold walk. rewrite fold_left_app. apply filter_part. }
      cbn [length Nat.pow] in H3. assert (2 ^ length u <> 0) by (apply Nat.pow_nonzero; discriminate). lia. }
    assert (Hall : forall w, In (walk u (origin rs) w) l).
    { intros w. induction w as [|c w IH] using rev_ind; [apply H2; left; reflexivity|]. unfold walk. rewrite fold_left_app. cbn [fold_left].
      fold (walk u (origin rs) w). destruct (some_chars_like rs (walk u (origin rs) w) c (Hi w)) as (c' & Hc & Em). fold u in Em. rewrite Em. apply Hg; assumption. }
    rewrite existsb_exists. split.
    - intros (p & Hp & H). destruct (Hw p Hp) as (w & ->). exists w. eexists. split; [apply answers_at|exact H].
    - intros (w & lb & Ha & H). exists (walk u (origin rs) w). split; [apply Hall|]. pose proof (answers_unique rs w _ _ Ha (answers_at rs w)) as Eq. fold u in Eq. rewrite <- Eq. exact H.
  Qed.
End Text.
