(** Without reading, no state is left twice: a run that leaves a state by an
    epsilon edge comes back to it only through a state of a group that can go
    around without reading. *)
From Verif Require Import Base RegexModel SpecRegex RegexParseProofs RegexProofs NfaModel SpecNfa NfaCompileProofs NfaLangProofs NfaSimProofs
  NfaMachineProofs NfaTermProofs.

Section Return.
  Variable G : edge -> Prop.
  Variable Gr : nat * nat -> Prop.
  Variable Bad : nat -> Prop.
  (* the state not to come back to *)
  Variable g : nat.

  (** No silent path of at most [k] steps from [(p, c)] gets to [g] before it gets
      to a bad state. *)
  Fixpoint nre (k p : nat) (c : cnt) {struct k} : Prop :=
    Bad p \/ (p <> g /\ forall i y c', G (p, i, y) -> silent p c i c' -> match k with 0 => True | S k => nre k y c' end).
  Definition nvia (E : edge -> Prop) (k p : nat) (c : cnt) : Prop :=
    forall i y c', E (p, i, y) -> silent p c i c' -> nre k y c'.
  (** The same after an epsilon edge of [g]. *)
  Definition nstep (k : nat) (c : cnt) : Prop := forall y, G (g, IEps, y) -> nre k y (inc g c).

  Lemma nre_down k : forall p c, nre (S k) p c -> nre k p c.
  Proof.
    induction k as [|k IH]; intros p c [H|[Hp H]]; [left; exact H| |left; exact H|]; right; (split; [exact Hp|]); intros i y c' Hg Hs.
    - exact I.
    - apply IH. exact (H i y c' Hg Hs).
  Qed.
  Lemma nre_bad k p c : Bad p -> nre k p c.
  Proof. intros H. destruct k; left; exact H. Qed.
  Lemma nre_make k p c : p <> g -> (forall k', k = S k' -> nvia G k' p c) -> nre k p c.
  Proof.
    intros Hp H. destruct k as [|k]; right; (split; [exact Hp|]); intros i y c' Hg Hs; [exact I|]. exact (H k eq_refl i y c' Hg Hs).
  Qed.
  Lemma nre_ceq k : forall p c c', ceq G c c' -> nre k p c -> nre k p c'.
  Proof.
    induction k as [|k IH]; intros p c c' Hc [H|[Hp H]]; [left; exact H| |left; exact H|]; right; (split; [exact Hp|]); intros i y c1 Hg Hs; [exact I|].
    destruct i as [l| |q]; cbn in Hs; [destruct Hs| |].
    - subst c1. eapply IH; [|exact (H IEps y _ Hg eq_refl)]. apply ceq_inc. assumption.
    - destruct Hs as [Hs ->]. eapply IH; [|apply (H (IQuant q) y (zer p c) Hg)].
      + apply ceq_zer. assumption.
      + split; [|reflexivity]. rewrite (Hc p) by (exists q, y; assumption). assumption.
  Qed.

  Notation valid := (valid Gr).
  Hypothesis Gr_isq : forall i, isq G i -> exists z, Gr (i, z).
  Hypothesis Gr_valid : forall p c i y c', G (p, i, y) -> silent p c i c' -> valid p c -> valid y c'.

  (** Entering a regex does not lead to [g], unless what follows it does. *)
  Definition free (e : expr) (n s t : nat) : Prop := forall k c,
    (forall i, isq G i -> n <= i < n + size e -> c i = 0) -> valid s c ->
    (nullable e = true -> forall c', ceq G c' (inc s c) -> valid t c' -> nre k t c') ->
    nvia (fun x => In x (edges e n s t)) k s c.

  Lemma quant_around e q n s t : placed G (EGroup e (Some q)) n s t -> n <> g -> nullable e = false -> free e (S n) n n ->
    forall k c, (forall i, isq G i -> S n <= i < S n + size e -> c i = 0) -> valid n c ->
      (is_satisfied q (c n) = true -> nre k t (zer n c)) -> nre k n c.
  Proof.
    intros Hp Hn Hnn He k c Hz Hv Hk. destruct (placed_quant _ _ _ _ _ _ Hp) as (Hpe & Hq & Hi & Hisq & Hout).
    apply nre_make; [exact Hn|]. intros k' -> i y c' Hg Hs. destruct (Hout _ _ Hg) as [[-> ->]|Hin].
    - destruct Hs as [Hs ->]. apply nre_down, Hk. assumption.
    - eapply (He k' c Hz Hv); [|exact Hin|exact Hs]. intros Hnu. rewrite Hnu in Hnn. discriminate.
  Qed.

  Lemma quant_free e q n s t : placed G (EGroup e (Some q)) n s t -> (forall x, In x (bads (EGroup e (Some q)) n) -> Bad x) -> n <> g ->
    (nullable e = false -> free e (S n) n n) -> free (EGroup e (Some q)) n s t.
  Proof.
    intros Hp Hl Hng He k c Hz Hv Hk i y c' Hin Hs. pose proof Hp as (Hsn & _).
    pose proof (placed_quant _ _ _ _ _ _ Hp) as (_ & Hq & Hi & _).
    cbn [edges] in Hin. destruct Hin as [[= ]|[[= <- <-]|Hin]]; [lia| |apply edges_range in Hin; lia].
    cbn in Hs. subst c'. cbn [size] in Hz.
    assert (Hn0 : inc s c n = 0).
    { unfold inc. destruct (Nat.eqb_spec n s); [lia|]. apply Hz; [|lia]. apply (placed_quant _ _ _ _ _ _ Hp). }
    assert (Hv1 : valid n (inc s c)) by (eapply Gr_valid; [exact Hi|reflexivity|assumption]).
    destruct (nullable e) eqn:Hnn; [apply nre_bad, Hl, bads_group; auto|].
    eapply quant_around; [exact Hp|exact Hng|exact Hnn|exact (He eq_refl)| |exact Hv1|].
    - intros i Hqi Hr. unfold inc. destruct (Nat.eqb_spec i s); [lia|]. apply Hz; [assumption|lia].
    - intros Hsat. apply Hk.
      + cbn. rewrite Hn0 in Hsat. rewrite Hsat. reflexivity.
      + intros j _. unfold zer. destruct (Nat.eqb_spec j n) as [->|]; [symmetry; assumption|reflexivity].
      + eapply Gr_valid; [exact Hq| |exact Hv1]. split; [assumption|reflexivity].
  Qed.

  Lemma lit_free l n s t : free (ELit l None) n s t.
  Proof. intros k c _ _ _ i y c' [[= <- <-]|[]] Hs. destruct Hs. Qed.

  Lemma seq_free e e2 es n s t : placed G (EConcat (e :: e2 :: es)) n s t -> n <> g -> free e (S n) s n ->
    (nullable e = true -> free (EConcat (e2 :: es)) (S n + size e) n t) -> free (EConcat (e :: e2 :: es)) n s t.
  Proof.
    intros Hp Hng H1 H2 k c Hz Hv Hk i y c' Hin Hs. pose proof Hp as (Hsn & _). rewrite size_seq in Hz.
    destruct (placed_seq _ _ _ _ _ _ _ Hp) as (Hp1 & Hp2 & Hout & Hnq).
    rewrite edges_seq in Hin. apply in_app_or in Hin. destruct Hin as [Hin|Hin]; [|apply edges_range in Hin; lia].
    eapply (H1 k c); [|exact Hv| |exact Hin|exact Hs].
    - intros j Hj Hr. apply Hz; [assumption|lia].
    - intros Hn1 c1 Hc1 Hv1. apply nre_make; [exact Hng|]. intros k' -> i2 y2 c2 Hg Hs2.
      eapply (H2 Hn1 k' c1); [|exact Hv1| |apply Hout; exact Hg|exact Hs2].
      + intros j Hj Hr. rewrite Hc1 by assumption. unfold inc. destruct (Nat.eqb_spec j s); [lia|]. apply Hz; [assumption|lia].
      + intros Hn2 c3 Hc3 Hv3. apply nre_down. apply Hk; [| |assumption].
        * rewrite nullable_seq, Hn1, Hn2. reflexivity.
        * eapply ceq_trans; [exact Hc3|]. eapply ceq_trans; [apply ceq_inc_l; assumption|assumption].
  Qed.

  Lemma alt_free l r n s t : free l n s t -> free r (n + size l) s t -> free (EAlt l r) n s t.
  Proof.
    intros Hl Hr k c Hz Hv Hk i y c' Hin Hs. cbn [size] in Hz. cbn in Hin. apply in_app_or in Hin. destruct Hin as [Hin|Hin].
    - eapply (Hl k c); [|exact Hv| |exact Hin|exact Hs].
      + intros j Hj Hr0. apply Hz; [assumption|lia].
      + intros Hn. apply Hk. cbn. rewrite Hn. reflexivity.
    - eapply (Hr k c); [|exact Hv| |exact Hin|exact Hs].
      + intros j Hj Hr0. apply Hz; [assumption|lia].
      + intros Hn. apply Hk. cbn. rewrite Hn, orb_true_r. reflexivity.
  Qed.

  Lemma alt_bads l r n : (forall x, In x (bads (EAlt l r) n) -> Bad x) ->
    (forall x, In x (bads l n) -> Bad x) /\ (forall x, In x (bads r (n + size l)) -> Bad x).
  Proof. intros H. split; intros x Hx; apply H; cbn; apply in_or_app; auto. Qed.
  Lemma seq_bads e e2 es n : (forall x, In x (bads (EConcat (e :: e2 :: es)) n) -> Bad x) ->
    (forall x, In x (bads e (S n)) -> Bad x) /\ (forall x, In x (bads (EConcat (e2 :: es)) (S n + size e)) -> Bad x).
  Proof. rewrite bads_seq. intros H. split; intros x Hx; apply H, in_or_app; auto. Qed.
  Lemma quant_bads e q n : (forall x, In x (bads (EGroup e (Some q)) n) -> Bad x) -> forall x, In x (bads e (S n)) -> Bad x.
  Proof. intros H x Hx. apply H, bads_group. auto. Qed.

  (** A regex without [g]. *)
  Lemma outside_free : forall e n s t, placed G e n s t -> (forall x, In x (bads e n) -> Bad x) -> ~ (n <= g < n + size e) -> free e n s t.
  Proof.
    induction e as [|e IH|e e2 es IH1 IH2| |l r IHl IHr|l q|e q IH] using expr_seq_ind; intros n s t Hp Hl Hg.
    - intros k c _ _ _ i y c' [].
    - intros k c Hz Hv Hk. apply (IH n s t Hp Hl Hg k c Hz Hv). intros Hn. apply Hk. cbn. rewrite Hn. reflexivity.
    - rewrite size_seq in Hg. destruct (seq_bads _ _ _ _ Hl) as [Hl1 Hl2]. destruct (placed_seq _ _ _ _ _ _ _ Hp) as (Hp1 & Hp2 & _ & _).
      apply seq_free; [exact Hp|lia|apply IH1; [assumption..|lia]|]. intros _. apply IH2; [assumption..|lia].
    - intros k c Hz Hv Hk i y c' [[= <- <-]|[]] Hs. cbn in Hs. subst.
      apply Hk; [reflexivity|apply ceq_refl|]. eapply (Gr_valid s c IEps); [|reflexivity|assumption]. apply Hp. left. reflexivity.
    - cbn [size] in Hg. destruct (alt_bads _ _ _ Hl) as [Hl1 Hl2]. destruct (placed_alt _ _ _ _ _ _ Hp) as [Hpl Hpr].
      apply alt_free; [apply IHl|apply IHr]; try assumption; lia.
    - destruct q as [q|]; [|apply lit_free]. cbn [size] in Hg.
      intros k c Hz Hv Hk. refine (quant_free (ELit l None) q n s t Hp (fun x H => match H with end) _ (fun _ => lit_free l _ _ _) k c Hz Hv
        (fun Hn => Hk (eq_trans (eq_sym (orb_false_r _)) Hn))). lia.
    - destruct q as [q|].
      + cbn [size] in Hg. apply quant_free; [exact Hp|exact Hl|lia|]. intros _. destruct (placed_quant _ _ _ _ _ _ Hp) as (Hpe & _).
        apply IH; [assumption|apply (quant_bads _ _ _ Hl)|lia].
      + exact (IH n s t Hp Hl Hg).
  Qed.

  Hypothesis Hgood : ~ Bad g.

  (** A regex with [g]: from [g] no path leads back, unless from what follows the
      regex; and if the regex is not nullable, [g] cannot be reached or the end
      cannot be reached from [g]. *)
  Definition back (e : expr) (n s t : nat) : Prop :=
    (forall k, (forall c, valid t c -> nre k t c) -> forall c, valid g c -> nstep k c) /\
    (nullable e = true \/ (forall k c, valid g c -> nstep k c) \/ free e n s t).

  Definition back_at (e : expr) : Prop := forall n s t,
    placed G e n s t -> (forall x, In x (bads e n) -> Bad x) -> (forall i z, Gr (i, z) -> n <= i < n + size e -> In (i, z) (groups e n)) ->
    n <= g < n + size e -> back e n s t.

  Notation zeroes := (valid_zero G Gr Gr_isq).

  Lemma quant_back e q : back_at e -> back_at (EGroup e (Some q)).
  Proof.
    intros He n s t Hp Hl Hg Hr. cbn [size] in Hr.
    pose proof (placed_quant _ _ _ _ _ _ Hp) as (Hpe & Hq & Hi & Hisq & Hout).
    pose proof (quant_bads _ _ _ Hl) as Hle.
    assert (Hg' : forall i z, Gr (i, z) -> S n <= i < S n + size e -> In (i, z) (groups e (S n))).
    { intros i z H1 H2. apply Hg in H1; [|cbn [size]; lia]. cbn in H1. destruct H1 as [[= <- <-]|H1]; [lia|assumption]. }
    destruct (Nat.eq_dec g n) as [E|Hne].
    - destruct (nullable e) eqn:Hnn; [exfalso; apply Hgood, Hl, bads_group; auto|].
      assert (HD : forall k c, valid g c -> nstep k c).
      { intros k c Hv y Hy. rewrite E in Hv, Hy. destruct (Hout _ _ Hy) as [[H _]|Hin]; [discriminate|].
        rewrite E. eapply (outside_free e (S n) n n Hpe Hle ltac:(lia) k c); [|exact Hv| |exact Hin|reflexivity].
        - apply (zeroes e (S n) n c Hg'); [lia|assumption].
        - intros H. rewrite H in Hnn. discriminate. }
      split; [auto|]. right. left. exact HD.
    - destruct (He (S n) n n Hpe Hle Hg' ltac:(lia)) as [HI HT].
      destruct (nullable e) eqn:Hnn.
      { assert (HD : forall k c, valid g c -> nstep k c).
        { intros k. apply HI. intros c _. apply nre_bad, Hl, bads_group. auto. }
        split; [auto|]. right. left. exact HD. }
      destruct HT as [HT|[HD|HF]]; [discriminate|split; [auto|right; left; exact HD]|].
      split.
      + intros k Hk. apply HI. intros c Hv. eapply quant_around; [exact Hp|lia|exact Hnn|exact HF| |exact Hv|].
        * apply (zeroes e (S n) n c Hg'); [lia|assumption].
        * intros Hsat. apply Hk. eapply (Gr_valid n c (IQuant q)); [exact Hq| |assumption]. split; [assumption|reflexivity].
      + right. right. apply quant_free; [exact Hp|exact Hl|lia|auto].
  Qed.

  Lemma expr_back : forall e, back_at e.
  Proof.
    induction e as [|e IH|e e2 es IH1 IH2| |l r IHl IHr|l q|e q IH] using expr_seq_ind.
    - intros n s t _ _ _ Hr. cbn in Hr. lia.
    - intros n s t Hp Hl Hg Hr. destruct (IH n s t Hp Hl Hg Hr) as [HI HT]. split; [exact HI|].
      destruct HT as [HT|[HD|HF]]; [left; cbn; rewrite HT; reflexivity|auto|].
      right. right. intros k c Hz Hv Hk. apply (HF k c Hz Hv). intros Hn. apply Hk. cbn. rewrite Hn. reflexivity.
    - intros n s t Hp Hl Hg Hr. rewrite size_seq in Hr, Hg. destruct (seq_bads _ _ _ _ Hl) as [Hl1 Hl2].
      destruct (placed_seq _ _ _ _ _ _ _ Hp) as (Hp1 & Hp2 & Hout & Hnq).
      assert (Hg1 : forall i z, Gr (i, z) -> S n <= i < S n + size e -> In (i, z) (groups e (S n))).
      { intros i z H1 H2. apply Hg in H1; [|lia]. rewrite groups_seq in H1. apply in_app_or in H1. destruct H1 as [H1|H1]; [assumption|].
        apply groups_range in H1. lia. }
      assert (Hg2 : forall i z, Gr (i, z) -> S n + size e <= i < S n + size e + size (EConcat (e2 :: es)) ->
                 In (i, z) (groups (EConcat (e2 :: es)) (S n + size e))).
      { intros i z H1 H2. apply Hg in H1; [|lia]. rewrite groups_seq in H1. apply in_app_or in H1. destruct H1 as [H1|H1]; [|assumption].
        apply groups_range in H1. lia. }
      assert (Hrest : ~ (S n + size e <= g < S n + size e + size (EConcat (e2 :: es))) -> forall k c, valid n c ->
                (nullable (EConcat (e2 :: es)) = true -> forall c', valid t c' -> nre k t c') -> nvia G k n c).
      { intros Ho k c Hv Hk i y c' Hgg Hs.
        eapply (outside_free _ _ n t Hp2 Hl2 Ho k c); [|exact Hv| |apply Hout; exact Hgg|exact Hs].
        - apply (zeroes _ _ n c Hg2); [lia|assumption].
        - intros Hn c1 _ Hv1. apply Hk; assumption. }
      destruct (Nat.eq_dec g n) as [E|Hne]; [|destruct (Nat.lt_ge_cases g (S n + size e))].
      + split.
        * intros k Hk c Hv y Hy. rewrite E in Hv, Hy |- *. apply (Hrest ltac:(lia) k c Hv (fun _ => Hk) IEps y); [exact Hy|reflexivity].
        * rewrite nullable_seq. destruct (nullable e) eqn:Hn1.
          -- destruct (nullable (EConcat (e2 :: es))) eqn:Hn2; [left; reflexivity|]. right. left. intros k c Hv y Hy. rewrite E in Hv, Hy |- *.
             apply (Hrest ltac:(lia) k c Hv (fun F => match Bool.diff_false_true F with end) IEps y); [exact Hy|reflexivity].
          -- right. right. intros k c Hz Hv Hk i y c' Hin Hs. pose proof Hp as (Hsn & _). rewrite size_seq in Hz.
             rewrite edges_seq in Hin. apply in_app_or in Hin. destruct Hin as [Hin|Hin]; [|apply edges_range in Hin; lia].
             eapply (outside_free e (S n) s n Hp1 Hl1 ltac:(lia) k c); [|exact Hv| |exact Hin|exact Hs].
             ++ intros j Hj Hr0. apply Hz; [assumption|lia].
             ++ intros F. rewrite F in Hn1. discriminate.
      + destruct (IH1 (S n) s n Hp1 Hl1 Hg1 ltac:(lia)) as [HI HT].
        assert (Hn : forall k, (nullable (EConcat (e2 :: es)) = true -> forall c, valid t c -> nre k t c) -> forall c, valid n c -> nre k n c).
        { intros k Hk c Hv. apply nre_make; [lia|]. intros k' ->. apply (Hrest ltac:(lia) k' c Hv). intros Hnu c' Hv'. apply nre_down. apply Hk; assumption. }
        split; [intros k Hk; apply HI, Hn; auto|]. rewrite nullable_seq.
        destruct HT as [HT|[HD|HF]]; [|auto|].
        * rewrite HT. destruct (nullable (EConcat (e2 :: es))) eqn:Hn2; [left; reflexivity|]. right. left. intros k. apply HI, Hn. discriminate.
        * right. right. apply seq_free; [exact Hp|lia|exact HF|]. intros _. apply outside_free; [assumption..|lia].
      + destruct (IH2 (S n + size e) n t Hp2 Hl2 Hg2 ltac:(lia)) as [HI HT]. split; [exact HI|]. rewrite nullable_seq.
        assert (Hfe : free e (S n) s n) by (apply outside_free; [assumption..|lia]).
        destruct (nullable e) eqn:Hn1.
        * destruct HT as [HT|[HD|HF]]; [left; exact HT|auto|]. right. right. apply seq_free; [exact Hp|lia|exact Hfe|auto].
        * right. right. apply seq_free; [exact Hp|lia|exact Hfe|]. intros F. rewrite F in Hn1. discriminate.
    - intros n s t _ _ _ Hr. cbn in Hr. lia.
    - intros n s t Hp Hl Hg Hr. destruct (placed_alt _ _ _ _ _ _ Hp) as [Hpl Hpr]. cbn [size] in Hg, Hr.
      destruct (alt_bads _ _ _ Hl) as [Hl1 Hl2].
      assert (Hg1 : forall i z, Gr (i, z) -> n <= i < n + size l -> In (i, z) (groups l n)).
      { intros i z H1 H2. apply Hg in H1; [|lia]. cbn in H1. apply in_app_or in H1. destruct H1 as [H1|H1]; [assumption|].
        apply groups_range in H1. lia. }
      assert (Hg2 : forall i z, Gr (i, z) -> n + size l <= i < n + size l + size r -> In (i, z) (groups r (n + size l))).
      { intros i z H1 H2. apply Hg in H1; [|lia]. cbn in H1. apply in_app_or in H1. destruct H1 as [H1|H1]; [|assumption].
        apply groups_range in H1. lia. }
      destruct (Nat.lt_ge_cases g (n + size l)).
      + destruct (IHl n s t Hpl Hl1 Hg1 ltac:(lia)) as [HI HT]. split; [exact HI|].
        destruct HT as [HT|[HD|HF]]; [left; cbn; rewrite HT; reflexivity|auto|].
        right. right. apply alt_free; [exact HF|]. apply outside_free; [assumption..|lia].
      + destruct (IHr (n + size l) s t Hpr Hl2 Hg2 ltac:(lia)) as [HI HT]. split; [exact HI|].
        destruct HT as [HT|[HD|HF]]; [left; cbn; rewrite HT, orb_true_r; reflexivity|auto|].
        right. right. apply alt_free; [|exact HF]. apply outside_free; [assumption..|lia].
    - destruct q as [q|].
      + intros n s t Hp _ Hg Hr.
        destruct (quant_back (ELit l None) q) with (n := n) (s := s) (t := t) as [HI HT];
          [intros n' s' t' _ _ _ Hr'; cbn in Hr'; lia|exact Hp|intros x []|exact Hg|exact Hr|].
        split; [exact HI|]. destruct HT as [HT|[HD|HF]]; [|auto|].
        * left. exact (eq_trans (eq_sym (orb_false_r _)) HT).
        * right. right. intros k c Hz Hv Hk. apply (HF k c Hz Hv). intros Hn. apply Hk. exact (eq_trans (eq_sym (orb_false_r _)) Hn).
      + intros n s t _ _ _ Hr. cbn in Hr. lia.
    - destruct q as [q|]; [apply quant_back; assumption|]. exact IH.
  Qed.
End Return.
