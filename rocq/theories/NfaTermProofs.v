(** Matching terminates when no repeated group can go around without reading
    a character. *)
From Verif Require Import Base RegexModel SpecRegex RegexParseProofs RegexProofs NfaModel SpecNfa NfaCompileProofs NfaLangProofs NfaSimProofs NfaMachineProofs.

(** Quantifier states with the number of states of their group. *)
Fixpoint groups (e : expr) (n : nat) : list (nat * nat) :=
  match e with
  | EConcat es =>
      (fix go (es : list expr) (n : nat) : list (nat * nat) :=
         match es with
         | [] => []
         | e :: rest =>
             match rest with
             | [] => groups e n
             | _ :: _ => groups e (S n) ++ go rest (S n + size e)
             end
         end) es n
  | EEmpty => []
  | EAlt l r => groups l n ++ groups r (n + size l)
  | ELit _ None => []
  | ELit _ (Some _) => [(n, 1)]
  | EGroup e None => groups e n
  | EGroup e (Some _) => (n, S (size e)) :: groups e (S n)
  end.

Lemma groups_seq e e2 es n : groups (EConcat (e :: e2 :: es)) n = groups e (S n) ++ groups (EConcat (e2 :: es)) (S n + size e).
Proof. reflexivity. Qed.

Lemma groups_range : forall e n i z, In (i, z) (groups e n) -> n <= i /\ i + z <= n + size e /\ 1 <= z.
Proof.
  induction e as [|e IH|e e2 es IH1 IH2| |l r IHl IHr|l q|e q IH] using expr_seq_ind; intros n i z H.
  - destruct H.
  - apply IH in H. exact H.
  - rewrite groups_seq in H. rewrite size_seq. apply in_app_or in H. destruct H as [H|H]; [apply IH1 in H|apply IH2 in H]; lia.
  - destruct H.
  - cbn in H. cbn [size]. apply in_app_or in H. destruct H as [H|H]; [apply IHl in H|apply IHr in H]; lia.
  - destruct q; [|destruct H]. destruct H as [[= <- <-]|[]]. cbn. lia.
  - destruct q; [|apply IH in H; exact H]. cbn in H. cbn [size]. destruct H as [[= <- <-]|H]; [lia|]. apply IH in H. lia.
Qed.

(** The only way out of a group is its quantifier edge. *)
Lemma groups_exit : forall e n s t i z p x y, s < n -> In (i, z) (groups e n) -> In (p, x, y) (edges e n s t) ->
  i <= p < i + z -> ~ (i <= y < i + z) -> p = i /\ exists q, x = IQuant q.
Proof.
  induction e as [|e IH|e e2 es IH1 IH2| |l r IHl IHr|l q|e q IH] using expr_seq_ind; intros n s t i z p x y Hs Hg He Hp Hy.
  - destruct Hg.
  - eapply IH; eassumption.
  - rewrite groups_seq in Hg. rewrite edges_seq in He. apply in_app_or in Hg. apply in_app_or in He.
    destruct Hg as [Hg|Hg], He as [He|He].
    + eapply IH1; [|exact Hg|exact He|exact Hp|exact Hy]. lia.
    + apply groups_range in Hg. apply edges_range in He. lia.
    + apply groups_range in Hg. apply edges_range in He. lia.
    + eapply IH2; [|exact Hg|exact He|exact Hp|exact Hy]. lia.
  - destruct Hg.
  - cbn in Hg, He. apply in_app_or in Hg. apply in_app_or in He. destruct Hg as [Hg|Hg], He as [He|He].
    + eapply IHl; [|exact Hg|exact He|exact Hp|exact Hy]. lia.
    + apply groups_range in Hg. apply edges_range in He. lia.
    + apply groups_range in Hg. apply edges_range in He. lia.
    + eapply IHr; [|exact Hg|exact He|exact Hp|exact Hy]. lia.
  - destruct q; [|destruct Hg]. destruct Hg as [[= <- <-]|[]]. cbn in He.
    destruct He as [[= <- <- <-]|[[= <- <- <-]|[[= <- <- <-]|[]]]]; [eauto|lia|lia].
  - destruct q; [|eapply IH; eassumption]. cbn in Hg, He.
    destruct He as [[= <- <- <-]|[[= <- <- <-]|He]].
    + destruct Hg as [[= <- <-]|Hg]; [eauto|]. apply groups_range in Hg. lia.
    + destruct Hg as [[= <- <-]|Hg]; [lia|]. apply groups_range in Hg. lia.
    + destruct Hg as [[= <- <-]|Hg].
      * apply edges_range in He. lia.
      * eapply IH; [|exact Hg|exact He|exact Hp|exact Hy]. lia.
Qed.

(** The states of the repeated groups that can go around without reading. *)
Fixpoint bads (e : expr) (n : nat) : list nat :=
  match e with
  | EConcat es =>
      (fix go (es : list expr) (n : nat) : list nat :=
         match es with
         | [] => []
         | e :: rest =>
             match rest with
             | [] => bads e n
             | _ :: _ => bads e (S n) ++ go rest (S n + size e)
             end
         end) es n
  | EEmpty => []
  | EAlt l r => bads l n ++ bads r (n + size l)
  | ELit _ _ => []
  | EGroup e None => bads e n
  | EGroup e (Some _) => (if nullable e then [n] else []) ++ bads e (S n)
  end.
Lemma bads_seq e e2 es n : bads (EConcat (e :: e2 :: es)) n = bads e (S n) ++ bads (EConcat (e2 :: es)) (S n + size e).
Proof. reflexivity. Qed.
Lemma bads_range : forall e n x, In x (bads e n) -> n <= x < n + size e.
Proof.
  induction e as [|e IH|e e2 es IH1 IH2| |l r IHl IHr|l q|e q IH] using expr_seq_ind; intros n x H.
  - destruct H.
  - apply IH in H. exact H.
  - rewrite bads_seq in H. rewrite size_seq. apply in_app_or in H. destruct H as [H|H]; [apply IH1 in H|apply IH2 in H]; lia.
  - destruct H.
  - cbn in H. cbn [size]. apply in_app_or in H. destruct H as [H|H]; [apply IHl in H|apply IHr in H]; lia.
  - destruct H.
  - destruct q; [|apply IH in H; exact H]. cbn in H. cbn [size]. apply in_app_or in H. destruct H as [H|H]; [|apply IH in H; lia].
    destruct (nullable e); [destruct H as [<-|[]]; lia|destruct H].
Qed.
Lemma bads_group e q n x : In x (bads (EGroup e (Some q)) n) <-> (x = n /\ nullable e = true) \/ In x (bads e (S n)).
Proof.
  cbn [bads]. rewrite in_app_iff. destruct (nullable e); cbn; intuition congruence.
Qed.
Lemma loops_bads : forall e, loops_ok e = true -> forall n, bads e n = [].
Proof.
  induction e as [|e IH|e e2 es IH1 IH2| |l r IHl IHr|l q|e q IH] using expr_seq_ind; intros H n.
  - reflexivity.
  - cbn in H. rewrite andb_true_r in H. exact (IH H n).
  - change (loops_ok e && loops_ok (EConcat (e2 :: es)) = true) in H. apply andb_true_iff in H.
    rewrite bads_seq, IH1, IH2 by apply H. reflexivity.
  - reflexivity.
  - cbn in H. apply andb_true_iff in H. cbn. rewrite IHl, IHr by apply H. reflexivity.
  - reflexivity.
  - destruct q; [|exact (IH H n)]. cbn in H. apply andb_true_iff in H. destruct H as [H1 H2]. cbn. rewrite (IH H1).
    destruct (nullable e); [discriminate|reflexivity].
Qed.

(** Bound on the steps inside a regex. *)
Fixpoint len (e : expr) : nat :=
  match e with
  | EConcat es => (fix go (es : list expr) : nat :=
                     match es with
                     | [] => 0
                     | e :: rest => match rest with [] => len e | _ :: _ => S (len e + go rest) end
                     end) es
  | EEmpty => 0
  | EAlt l r => len l + len r
  | ELit _ None => 0
  | ELit _ (Some _) => 1
  | EGroup e None => len e
  | EGroup e (Some _) => S (len e)
  end.
Lemma len_seq e e2 es : len (EConcat (e :: e2 :: es)) = S (len e + len (EConcat (e2 :: es))).
Proof. reflexivity. Qed.
Lemma nullable_seq e es : nullable (EConcat (e :: es)) = nullable e && nullable (EConcat es).
Proof. reflexivity. Qed.

Section Bound.
  Variable G : edge -> Prop.
  (* the groups of the whole automaton *)
  Variable Gr : nat * nat -> Prop.
  (* states where counting stops *)
  Variable Bad : nat -> Prop.

  (** One step that reads nothing. *)
  Definition silent (p : nat) (c : cnt) (i : input) (c' : cnt) : Prop :=
    match i with
    | ILit _ => False
    | IEps => c' = inc p c
    | IQuant q => is_satisfied q (c p) = true /\ c' = zer p c
    end.

  (** Every silent path from [(p, c)] has at most [k] steps, or reaches a bad
      state by then. *)
  Fixpoint bnd (k p : nat) (c : cnt) {struct k} : Prop :=
    Bad p \/ forall i y c', G (p, i, y) -> silent p c i c' ->
      match k with 0 => False | S k => bnd k y c' end.

  Definition bvia (E : edge -> Prop) (k p : nat) (c : cnt) : Prop :=
    forall i y c', E (p, i, y) -> silent p c i c' -> bnd k y c'.

  Lemma bnd_S k : forall p c, bnd k p c -> bnd (S k) p c.
  Proof.
    induction k as [|k IH]; intros p c [H|H]; [left; exact H| |left; exact H|]; right; intros i y c' Hg Hs.
    - destruct (H i y c' Hg Hs).
    - apply IH. exact (H i y c' Hg Hs).
  Qed.
  Lemma bnd_le k k' p c : k <= k' -> bnd k p c -> bnd k' p c.
  Proof. induction 1; auto. intros. apply bnd_S. auto. Qed.
  Lemma bvia_le E k k' p c : k <= k' -> bvia E k p c -> bvia E k' p c.
  Proof. intros Hk H i y c' He Hs. eapply bnd_le; [exact Hk|]. eapply H; eassumption. Qed.
  Lemma bvia_bnd k p c : bvia G k p c -> bnd (S k) p c.
  Proof. intros H. right. intros i y c' Hg Hs. exact (H i y c' Hg Hs). Qed.
  Lemma bnd_bad k p c : Bad p -> bnd k p c.
  Proof. intros H. destruct k; left; exact H. Qed.

  Lemma bnd_ceq k : forall p c c', ceq G c c' -> bnd k p c -> bnd k p c'.
  Proof.
    induction k as [|k IH]; intros p c c' Hc [H|H]; [left; exact H| |left; exact H|]; right; intros i y c1 Hg Hs.
    - destruct i as [l| |q]; cbn in Hs; [exact Hs| |].
      + exact (H IEps y _ Hg eq_refl).
      + destruct Hs as [Hs _]. apply (H (IQuant q) y (zer p c) Hg). split; [|reflexivity].
        rewrite (Hc p) by (exists q, y; assumption). assumption.
    - destruct i as [l| |q]; cbn in Hs; [destruct Hs| |].
      + subst c1. eapply IH; [|exact (H IEps y _ Hg eq_refl)]. apply ceq_inc. assumption.
      + destruct Hs as [Hs ->]. eapply IH; [|apply (H (IQuant q) y (zer p c) Hg)].
        * apply ceq_zer. assumption.
        * split; [|reflexivity]. rewrite (Hc p) by (exists q, y; assumption). assumption.
  Qed.

  (** Counters of groups that are not being executed are zero. *)
  Definition valid (p : nat) (c : cnt) : Prop := forall i z, Gr (i, z) -> ~ (i <= p < i + z) -> c i = 0.

  Hypothesis Gr_isq : forall i, isq G i -> exists z, Gr (i, z).
  Hypothesis Gr_valid : forall p c i y c', G (p, i, y) -> silent p c i c' -> valid p c -> valid y c'.

  (** Entering a regex. *)
  Definition entry_at (e : expr) : Prop := forall n s t k c,
    placed G e n s t -> (forall x, In x (bads e n) -> Bad x) -> (forall i, isq G i -> n <= i < n + size e -> c i = 0) ->
    valid s c -> (nullable e = true -> forall c', ceq G c' (inc s c) -> valid t c' -> bnd k t c') ->
    bvia (fun x => In x (edges e n s t)) (k + len e) s c.

  Lemma quant_entry_bnd e q : entry_at e -> forall n s t, placed G (EGroup e (Some q)) n s t ->
    (forall x, In x (bads (EGroup e (Some q)) n) -> Bad x) ->
    forall k c, (forall i, isq G i -> S n <= i < S n + size e -> c i = 0) ->
      valid n c -> (is_satisfied q (c n) = true -> bnd k t (zer n c)) -> bnd (S (k + len e)) n c.
  Proof.
    intros He n s t Hp Hl k c Hz Hv Hk. destruct (nullable e) eqn:Hnn.
    { apply bnd_bad, Hl, bads_group. auto. }
    assert (Hle : forall x, In x (bads e (S n)) -> Bad x) by (intros x Hx; apply Hl, bads_group; auto).
    destruct (placed_quant _ _ _ _ _ _ Hp) as (Hpe & Hq & Hi & Hisq & Hout).
    apply bvia_bnd. intros i y c' Hg Hs. destruct (Hout _ _ Hg) as [[-> ->]|Hin].
    - destruct Hs as [Hs ->]. eapply bnd_le; [|apply Hk; assumption]. lia.
    - eapply bnd_le; [|eapply (He (S n) n n 0 c Hpe Hle Hz Hv); [|exact Hin|exact Hs]]; [lia|].
      intros Hnu. rewrite Hnu in Hnn. discriminate.
  Qed.

  Lemma quant_entry e q : entry_at e -> entry_at (EGroup e (Some q)).
  Proof.
    intros He n s t k c Hp Hl Hz Hv Hk i y c' Hin Hs. pose proof Hp as (Hsn & _).
    pose proof (placed_quant _ _ _ _ _ _ Hp) as (_ & Hq & Hi & _).
    cbn [edges] in Hin. destruct Hin as [[= ]|[[= <- <-]|Hin]]; [lia| |apply edges_range in Hin; lia].
    cbn in Hs. subst c'. cbn [len]. rewrite <- plus_n_Sm. cbn [size] in Hz.
    assert (Hn0 : inc s c n = 0).
    { unfold inc. destruct (Nat.eqb_spec n s); [lia|]. apply Hz; [|lia]. apply (placed_quant _ _ _ _ _ _ Hp). }
    assert (Hv1 : valid n (inc s c)) by (eapply Gr_valid; [exact Hi|reflexivity|assumption]).
    eapply quant_entry_bnd; [exact He|exact Hp|exact Hl| |exact Hv1|].
    - intros i Hqi Hr. unfold inc. destruct (Nat.eqb_spec i s); [lia|]. apply Hz; [assumption|lia].
    - intros Hsat. apply Hk.
      + cbn. rewrite Hn0 in Hsat. rewrite Hsat. reflexivity.
      + intros j _. unfold zer. destruct (Nat.eqb_spec j n) as [->|]; [symmetry; assumption|reflexivity].
      + eapply Gr_valid; [exact Hq| |exact Hv1]. split; [assumption|reflexivity].
  Qed.

  Lemma lit_entry l : entry_at (ELit l None).
  Proof. intros n s t k c _ _ _ _ _ i y c' [[= <- <-]|[]] Hs. destruct Hs. Qed.

  Lemma expr_entry : forall e, entry_at e.
  Proof.
    induction e as [|e IH|e e2 es IH1 IH2| |l r IHl IHr|l q|e q IH] using expr_seq_ind.
    - intros n s t k c _ _ _ _ _ i y c' [].
    - intros n s t k c Hp Hl Hz Hv Hk.
      apply (IH n s t k c Hp Hl Hz Hv). intros Hn. apply Hk. cbn. rewrite Hn. reflexivity.
    - intros n s t k c Hp Hl Hz Hv Hk i y c' Hin Hs. pose proof Hp as (Hsn & _). rewrite size_seq in Hz. rewrite len_seq.
      rewrite bads_seq in Hl.
      assert (Hl1 : forall x, In x (bads e (S n)) -> Bad x) by (intros x Hx; apply Hl, in_or_app; auto).
      assert (Hl2 : forall x, In x (bads (EConcat (e2 :: es)) (S n + size e)) -> Bad x) by (intros x Hx; apply Hl, in_or_app; auto).
      destruct (placed_seq _ _ _ _ _ _ _ Hp) as (Hp1 & Hp2 & Hout & Hnq).
      rewrite edges_seq in Hin. apply in_app_or in Hin. destruct Hin as [Hin|Hin]; [|apply edges_range in Hin; lia].
      eapply bnd_le; [|eapply (IH1 (S n) s n (S (k + len (EConcat (e2 :: es)))) c Hp1 Hl1); [|exact Hv| |exact Hin|exact Hs]]; [lia| |].
      + intros j Hj Hr. apply Hz; [assumption|lia].
      + intros Hn1 c1 Hc1 Hv1. apply bvia_bnd. intros i2 y2 c2 Hg Hs2.
        eapply (IH2 (S n + size e) n t k c1 Hp2 Hl2); [|exact Hv1| |apply Hout; exact Hg|exact Hs2].
        * intros j Hj Hr. rewrite Hc1 by assumption. unfold inc. destruct (Nat.eqb_spec j s); [lia|]. apply Hz; [assumption|lia].
        * intros Hn2 c3 Hc3 Hv3. apply Hk; [| |assumption].
          -- rewrite nullable_seq, Hn1, Hn2. reflexivity.
          -- eapply ceq_trans; [exact Hc3|]. eapply ceq_trans; [apply ceq_inc_l; assumption|assumption].
    - intros n s t k c Hp Hl Hz Hv Hk i y c' [[= <- <-]|[]] Hs. cbn in Hs. subst. cbn. rewrite Nat.add_0_r.
      apply Hk; [reflexivity|apply ceq_refl|]. eapply (Gr_valid s c IEps); [|reflexivity|assumption]. apply Hp. left. reflexivity.
    - intros n s t k c Hp Hl Hz Hv Hk i y c' Hin Hs. destruct (placed_alt _ _ _ _ _ _ Hp) as [Hpl Hpr].
      assert (Hl1 : forall x, In x (bads l n) -> Bad x) by (intros x Hx; apply Hl; cbn; apply in_or_app; auto).
      assert (Hl2 : forall x, In x (bads r (n + size l)) -> Bad x) by (intros x Hx; apply Hl; cbn; apply in_or_app; auto).
      cbn [size] in Hz. cbn [len].
      cbn in Hin. apply in_app_or in Hin. destruct Hin as [Hin|Hin].
      + eapply bnd_le; [|eapply (IHl n s t k c Hpl Hl1); [|exact Hv| |exact Hin|exact Hs]]; [lia| |].
        * intros j Hj Hr. apply Hz; [assumption|lia].
        * intros Hn. apply Hk. cbn. rewrite Hn. reflexivity.
      + eapply bnd_le; [|eapply (IHr (n + size l) s t k c Hpr Hl2); [|exact Hv| |exact Hin|exact Hs]]; [lia| |].
        * intros j Hj Hr. apply Hz; [assumption|lia].
        * intros Hn. apply Hk. cbn. rewrite Hn, orb_true_r. reflexivity.
    - destruct q as [q|]; [|apply lit_entry]. intros n s t k c Hp _ Hz Hv Hk.
      exact (quant_entry (ELit l None) q (lit_entry l) n s t k c Hp (fun x H => match H with end) Hz Hv
        (fun Hn => Hk (eq_trans (eq_sym (orb_false_r _)) Hn))).
    - destruct q as [q|]; [apply quant_entry; assumption|]. exact IH.
  Qed.

  Definition inside_at (e : expr) : Prop := forall n s t k,
    placed G e n s t -> (forall x, In x (bads e n) -> Bad x) -> (forall i z, Gr (i, z) -> n <= i < n + size e -> In (i, z) (groups e n)) ->
    (forall c, valid t c -> bnd k t c) ->
    exists K, forall p c, n <= p < n + size e -> valid p c -> bnd K p c.

  Lemma valid_zero e n p c : (forall i z, Gr (i, z) -> n <= i < n + size e -> In (i, z) (groups e n)) ->
    ~ (n <= p < n + size e) -> valid p c -> forall i, isq G i -> n <= i < n + size e -> c i = 0.
  Proof.
    intros Hg Hp Hv i Hi Hr. destruct (Gr_isq i Hi) as (z & Hz). apply (Hv i z Hz).
    apply Hg in Hz; [|assumption]. apply groups_range in Hz. lia.
  Qed.

  Lemma quant_inside e q : inside_at e -> inside_at (EGroup e (Some q)).
  Proof.
    intros He n s t k Hp Hl Hg Hk. cbn [size] in *.
    pose proof (placed_quant _ _ _ _ _ _ Hp) as (Hpe & Hq & Hi & Hisq & Hout).
    assert (Hg' : forall i z, Gr (i, z) -> S n <= i < S n + size e -> In (i, z) (groups e (S n))).
    { intros i z H1 H2. apply Hg in H1; [|lia]. cbn in H1. destruct H1 as [[= <- <-]|H1]; [lia|assumption]. }
    assert (Hn : forall c, valid n c -> bnd (S (k + len e)) n c).
    { intros c1 Hv1. eapply quant_entry_bnd; [apply expr_entry|exact Hp|exact Hl| |exact Hv1|].
      - eapply (valid_zero e (S n) n c1 Hg'); [lia|assumption].
      - intros Hsat. apply Hk. eapply (Gr_valid n c1 (IQuant q)); [exact Hq| |assumption]. split; [assumption|reflexivity]. }
    assert (Hle : forall x, In x (bads e (S n)) -> Bad x) by (intros x Hx; apply Hl, bads_group; auto).
    destruct (He (S n) n n (S (k + len e)) Hpe Hle Hg' Hn) as (K & HK).
    exists (K + S (k + len e)). intros p c Hr Hv. destruct (Nat.eq_dec p n) as [->|Hne].
    - eapply bnd_le; [|apply Hn; assumption]. lia.
    - eapply bnd_le; [|apply HK; [lia|assumption]]. lia.
  Qed.

  Lemma lit_inside l : inside_at (ELit l None).
  Proof. intros n s t k _ _ _ _. exists 0. intros p c Hr. cbn in Hr. lia. Qed.

  Lemma expr_inside : forall e, inside_at e.
  Proof.
    induction e as [|e IH|e e2 es IH1 IH2| |l r IHl IHr|l q|e q IH] using expr_seq_ind.
    - intros n s t k _ _ _ _. exists 0. intros p c Hr. cbn in Hr. lia.
    - intros n s t k Hp Hl Hg Hk. exact (IH n s t k Hp Hl Hg Hk).
    - intros n s t k Hp Hl Hg Hk. rewrite size_seq in *. rewrite bads_seq in Hl.
      assert (Hl1 : forall x, In x (bads e (S n)) -> Bad x) by (intros x Hx; apply Hl, in_or_app; auto).
      assert (Hl2 : forall x, In x (bads (EConcat (e2 :: es)) (S n + size e)) -> Bad x) by (intros x Hx; apply Hl, in_or_app; auto).
      destruct (placed_seq _ _ _ _ _ _ _ Hp) as (Hp1 & Hp2 & Hout & Hnq).
      assert (Hg1 : forall i z, Gr (i, z) -> S n <= i < S n + size e -> In (i, z) (groups e (S n))).
      { intros i z H1 H2. apply Hg in H1; [|lia]. rewrite groups_seq in H1. apply in_app_or in H1. destruct H1 as [H1|H1]; [assumption|].
        apply groups_range in H1. lia. }
      assert (Hg2 : forall i z, Gr (i, z) -> S n + size e <= i < S n + size e + size (EConcat (e2 :: es)) ->
                 In (i, z) (groups (EConcat (e2 :: es)) (S n + size e))).
      { intros i z H1 H2. apply Hg in H1; [|lia]. rewrite groups_seq in H1. apply in_app_or in H1. destruct H1 as [H1|H1]; [|assumption].
        apply groups_range in H1. lia. }
      assert (Hn : forall c, valid n c -> bnd (S (k + len (EConcat (e2 :: es)))) n c).
      { intros c Hv. apply bvia_bnd. intros i y c' Hgg Hs.
        eapply (expr_entry _ (S n + size e) n t k c Hp2 Hl2); [|exact Hv| |apply Hout; exact Hgg|exact Hs].
        - eapply (valid_zero _ _ n c Hg2); [lia|assumption].
        - intros _ c1 Hc1 Hv1. apply Hk. assumption. }
      destruct (IH1 (S n) s n _ Hp1 Hl1 Hg1 Hn) as (K1 & HK1). destruct (IH2 (S n + size e) n t k Hp2 Hl2 Hg2 Hk) as (K2 & HK2).
      exists (K1 + K2 + S (k + len (EConcat (e2 :: es)))). intros p c Hr Hv.
      destruct (Nat.eq_dec p n) as [->|Hne]; [eapply bnd_le; [|apply Hn; assumption]; lia|].
      destruct (Nat.lt_ge_cases p (S n + size e)).
      + eapply bnd_le; [|apply HK1; [lia|assumption]]. lia.
      + eapply bnd_le; [|apply HK2; [lia|assumption]]. lia.
    - intros n s t k _ _ _ _. exists 0. intros p c Hr. cbn in Hr. lia.
    - intros n s t k Hp Hl Hg Hk. destruct (placed_alt _ _ _ _ _ _ Hp) as [Hpl Hpr]. cbn [size] in *.
      assert (Hl1 : forall x, In x (bads l n) -> Bad x) by (intros x Hx; apply Hl; cbn; apply in_or_app; auto).
      assert (Hl2 : forall x, In x (bads r (n + size l)) -> Bad x) by (intros x Hx; apply Hl; cbn; apply in_or_app; auto).
      destruct (IHl n s t k Hpl Hl1) as (K1 & HK1).
      { intros i z H1 H2. apply Hg in H1; [|lia]. cbn in H1. apply in_app_or in H1. destruct H1 as [H1|H1]; [assumption|].
        apply groups_range in H1. lia. }
      { assumption. }
      destruct (IHr (n + size l) s t k Hpr Hl2) as (K2 & HK2).
      { intros i z H1 H2. apply Hg in H1; [|lia]. cbn in H1. apply in_app_or in H1. destruct H1 as [H1|H1]; [|assumption].
        apply groups_range in H1. lia. }
      { assumption. }
      exists (K1 + K2). intros p c Hr Hv. destruct (Nat.lt_ge_cases p (n + size l)).
      + eapply bnd_le; [|apply HK1; [lia|assumption]]. lia.
      + eapply bnd_le; [|apply HK2; [lia|assumption]]. lia.
    - destruct q as [q|]; [|apply lit_inside]. intros n s t k Hp _ Hg Hk.
      exact (quant_inside (ELit l None) q (lit_inside l) n s t k Hp (fun x H => match H with end) Hg Hk).
    - destruct q as [q|]; [apply quant_inside; assumption|]. exact IH.
  Qed.
End Bound.

Lemma edges_quant_group : forall e n s t i q y, s < n -> In (i, IQuant q, y) (edges e n s t) -> exists z, In (i, z) (groups e n).
Proof.
  induction e as [|e IH|e e2 es IH1 IH2| |l r IHl IHr|l q0|e q0 IH] using expr_seq_ind; intros n s t i q y Hs H.
  - destruct H.
  - eapply IH; eassumption.
  - rewrite edges_seq in H. rewrite groups_seq. apply in_app_or in H. destruct H as [H|H].
    + destruct (IH1 (S n) s n i q y ltac:(lia) H) as (z & Hz). exists z. apply in_or_app. auto.
    + destruct (IH2 (S n + size e) n t i q y ltac:(lia) H) as (z & Hz). exists z. apply in_or_app. auto.
  - destruct H as [[=]|[]].
  - cbn in H. cbn [groups]. apply in_app_or in H. destruct H as [H|H].
    + destruct (IHl n s t i q y Hs H) as (z & Hz). exists z. apply in_or_app. auto.
    + destruct (IHr (n + size l) s t i q y ltac:(lia) H) as (z & Hz). exists z. apply in_or_app. auto.
  - destruct q0; cbn in H.
    + destruct H as [[= <- <- <-]|[[= ]|[[= ]|[]]]]. exists 1. left. reflexivity.
    + destruct H as [[=]|[]].
  - destruct q0; [|eapply IH; eassumption]. cbn in H. cbn [groups]. destruct H as [[= <- <- <-]|[[= ]|H]].
    + eexists. left. reflexivity.
    + destruct (IH (S n) n n i q y ltac:(lia) H) as (z & Hz). exists z. right. assumption.
Qed.

Section MachineTerm.
  Context {env : Env}.
  Variables (m : nfa) (k : nat) (l : list expr).
  Hypothesis Hm : machine m k l.

  Definition mgroups (g : nat * nat) : Prop := exists e n f, In (e, n, f) (placement k l) /\ In g (groups e n).
  Notation mvalid := (valid mgroups).

  Lemma mgroups_isq i : isq (has_edge m) i -> exists z, mgroups (i, z).
  Proof.
    intros (q & y & H). apply (mc_edges _ _ _ Hm) in H. destruct H as (e & n & f & Hin & H).
    pose proof (placement_in _ _ _ _ _ Hin). pose proof (mc_pos _ _ _ Hm).
    destruct (edges_quant_group e n 0 f i q y ltac:(lia) H) as (z & Hz). exists z, e, n, f. auto.
  Qed.

  Lemma mgroups_exit p x y i z : has_edge m (p, x, y) -> mgroups (i, z) -> i <= p < i + z -> ~ (i <= y < i + z) ->
    p = i /\ exists q, x = IQuant q.
  Proof.
    intros H (e & n & f & Hin & Hg) Hp Hy. apply (mc_edges _ _ _ Hm) in H. destruct H as (e' & n' & f' & Hin' & H).
    pose proof (placement_in _ _ _ _ _ Hin). pose proof (placement_in _ _ _ _ _ Hin'). pose proof (mc_pos _ _ _ Hm).
    pose proof (groups_range _ _ _ _ Hg). pose proof (edges_range _ _ _ _ _ _ _ H).
    destruct (placement_disjoint _ _ _ _ _ _ _ _ Hin Hin') as [[= <- <- <-]|Hd]; [|lia].
    eapply groups_exit; [|exact Hg|exact H|exact Hp|exact Hy]. lia.
  Qed.

  Lemma mgroups_pos i z : mgroups (i, z) -> 1 <= z.
  Proof. intros (e & n & f & _ & H). apply groups_range in H. lia. Qed.

  Lemma valid_move p c i y c' : has_edge m (p, i, y) -> mvalid p c ->
    (forall j, j <> p -> c' j = c j) -> (forall q, i = IQuant q -> c' p = 0) -> mvalid y c'.
  Proof.
    intros He Hv Hc Hq j z Hg Hy. destruct (Nat.eq_dec j p) as [->|Hne].
    - destruct (mgroups_exit p i y p z He Hg) as [_ (q & ->)]; [pose proof (mgroups_pos _ _ Hg); lia|assumption|]. eauto.
    - rewrite Hc by assumption. destruct (Nat.lt_ge_cases p (j + z)), (Nat.lt_ge_cases p j).
      + apply (Hv j z Hg). lia.
      + destruct (mgroups_exit p i y j z He Hg) as [-> _]; [lia|assumption|congruence].
      + apply (Hv j z Hg). lia.
      + apply (Hv j z Hg). lia.
  Qed.

  Lemma mgroups_valid p c i y c' : has_edge m (p, i, y) -> silent p c i c' -> mvalid p c -> mvalid y c'.
  Proof.
    intros He Hs Hv. eapply valid_move; [exact He|exact Hv| |].
    - intros j Hj. destruct i as [lt| |q]; cbn in Hs; [destruct Hs| |destruct Hs as [_ Hs]]; subst c'; unfold inc, zer;
        destruct (Nat.eqb_spec j p); congruence.
    - intros q ->. destruct Hs as [_ ->]. unfold zer. rewrite Nat.eqb_refl. reflexivity.
  Qed.

  (** Runs whose counters make sense. *)
  Definition vrun (r : run) : Prop := run_ok r /\ has_state m r /\ mvalid (r_state r) (cof r).

  Lemma valid_ext p c c' : (forall i, c i = c' i) -> mvalid p c -> mvalid p c'.
  Proof. intros H Hv i z Hg Hp. rewrite <- H. eapply Hv; eassumption. Qed.

  Lemma vrun_eps r r' : vrun r -> eps_step m r r' -> vrun r'.
  Proof.
    intros (H1 & H2 & H3) He. pose proof (proj2 (machine_wf _ _ _ Hm)) as Hwf.
    split; [eapply eps_ok; eassumption|]. split; [eapply eps_has_state; eassumption|].
    destruct He as (i & t & He & H). destruct i as [lt| |q]; [destruct H| |].
    - subst. eapply valid_ext; [intros j; symmetry; apply cof_take_false; assumption|].
      cbn. eapply (mgroups_valid (r_state r) (cof r) IEps); [exact He|reflexivity|assumption].
    - destruct H as [Hs ->]. eapply valid_ext; [intros j; symmetry; apply cof_take_true; assumption|].
      cbn. eapply (mgroups_valid (r_state r) (cof r) (IQuant q)); [exact He|split; [exact Hs|reflexivity]|assumption].
  Qed.
  Lemma vrun_star r r' : vrun r -> star (eps_step m) r r' -> vrun r'.
  Proof. intros H. induction 1; [assumption|]. eapply vrun_eps; eassumption. Qed.
  Lemma vrun_char c r r' : vrun r -> char_step m c r r' -> vrun r' /\ r_state r' <> 0.
  Proof.
    intros (H1 & H2 & H3) He. pose proof (proj2 (machine_wf _ _ _ Hm)) as Hwf.
    split; [split; [eapply char_ok; eassumption|]; split; [eapply char_has_state; eassumption|]|].
    - destruct He as (lt & t & He & _ & ->). eapply valid_ext; [intros j; symmetry; apply cof_take_false; assumption|].
      cbn. eapply valid_move; [exact He|exact H3| |discriminate]. intros j Hj. unfold inc. destruct (Nat.eqb_spec j (r_state r)); congruence.
    - destruct He as (lt & t & He & _ & ->). cbn. intros ->. eapply machine_start_fresh; eassumption.
  Qed.
  Lemma vrun_init r : init m r -> vrun r.
  Proof.
    intros [H1 H2]. pose proof (proj2 (machine_wf _ _ _ Hm)) as Hwf. split; [unfold run_ok; rewrite H1; exact I|]. split.
    - unfold has_state. destruct H2 as [|y z _ (i & Hi & _)]; [apply Hwf|]. eapply Hwf; eassumption.
    - intros i z _ _. unfold cof. rewrite H1. reflexivity.
  Qed.

  (** The bad states of the automaton. *)
  Definition mbads (x : nat) : Prop := exists e n f, In (e, n, f) (placement k l) /\ In x (bads e n).

  Lemma mbads_at x e n f : In (e, n, f) (placement k l) -> n <= x < n + size e -> mbads x -> In x (bads e n).
  Proof.
    intros Hin Hr (e' & n' & f' & Hin' & Hx). destruct (placement_disjoint _ _ _ _ _ _ _ _ Hin Hin') as [[= <- <- <-]|Hd]; [assumption|].
    apply bads_range in Hx. apply placement_in in Hin'. pose proof (placement_in _ _ _ _ _ Hin). lia.
  Qed.
  Lemma mbads_final f : (1 <= f < k \/ exists e n, In (e, n, f) (placement k l)) -> ~ mbads f.
  Proof.
    intros Hf (e' & n' & f' & Hin' & Hx). apply bads_range in Hx. pose proof (placement_in _ _ _ _ _ Hin').
    destruct Hf as [Hf|(e & n & Hin)]; [lia|]. pose proof (placement_in _ _ _ _ _ Hin).
    destruct (placement_disjoint _ _ _ _ _ _ _ _ Hin Hin') as [[= <- <- <-]|Hd]; lia.
  Qed.
  Lemma loops_mbads : (forall e, In e l -> loops_ok e = true) -> forall x, ~ mbads x.
  Proof.
    intros Hl x (e & n & f & Hin & Hx). apply placement_in in Hin. rewrite (loops_bads e) in Hx by (apply Hl, Hin). destruct Hx.
  Qed.

  Lemma final_bnd f c : (1 <= f < k \/ exists e n, In (e, n, f) (placement k l)) -> bnd (has_edge m) mbads 0 f c.
  Proof. intros Hf. right. intros i y c' He. exfalso. exact (machine_final_dead m k l f Hm Hf i y He). Qed.

  Lemma machine_bnd : exists K, forall p c, p < nstates m -> p <> 0 -> mvalid p c -> bnd (has_edge m) mbads K p c.
  Proof.
    assert (H : exists K, forall e n f, In (e, n, f) (placement k l) ->
              forall p c, n <= p < n + size e -> mvalid p c -> bnd (has_edge m) mbads K p c).
    { assert (Hall : forall e n f, In (e, n, f) (placement k l) ->
              exists K, forall p c, n <= p < n + size e -> mvalid p c -> bnd (has_edge m) mbads K p c).
      { intros e n f Hin. pose proof (placement_in _ _ _ _ _ Hin) as (Hel & _).
        eapply (expr_inside (has_edge m) mgroups mbads mgroups_isq mgroups_valid e n 0 f 0).
        - eapply machine_placed; eauto.
        - intros x Hx. exists e, n, f. auto.
        - intros i z (e' & n' & f' & Hin' & Hg) Hr.
          destruct (placement_disjoint _ _ _ _ _ _ _ _ Hin Hin') as [[= <- <- <-]|Hd]; [assumption|].
          apply groups_range in Hg. apply placement_in in Hin'. pose proof (placement_in _ _ _ _ _ Hin). lia.
        - intros c _. apply final_bnd. eauto. }
      revert Hall. generalize (placement k l). clear. induction l0 as [|[[e n] f] r IH]; intros Hall.
      - exists 0. intros e n f [].
      - destruct IH as (K1 & H1); [intros e' n' f' Hin; apply (Hall e' n' f'); right; assumption|].
        destruct (Hall e n f (or_introl eq_refl)) as (K2 & H2). exists (K1 + K2).
        intros e' n' f' [[= <- <- <-]|Hin] p c Hp Hv.
        + eapply bnd_le; [|apply H2; eassumption]. lia.
        + eapply bnd_le; [|eapply H1; eassumption]. lia. }
    destruct H as (K & HK). exists K. intros p c Hp H0 Hv.
    (* every state is the start, a final state or inside a regex *)
    assert (Hcase : (1 <= p < k \/ (exists e n, In (e, n, p) (placement k l))) \/
                    (exists e n f, In (e, n, f) (placement k l) /\ n <= p < n + size e)).
    { rewrite (mc_size _ _ _ Hm) in Hp. destruct (Nat.lt_ge_cases p k) as [|Hk]; [left; left; lia|].
      revert Hp Hk. generalize k. clear. induction l as [|a r IH]; intros k Hp Hk; cbn [placement] in *.
      - cbn in Hp. lia.
      - change (list_sum (map (fun e => S (size e)) (a :: r))) with (S (size a) + list_sum (map (fun e => S (size e)) r)) in Hp.
        destruct (Nat.eq_dec p k) as [->|]; [left; right; exists a, (S k); left; reflexivity|].
        destruct (Nat.lt_ge_cases p (S k + size a)) as [|Hge].
        + right. exists a, (S k), k. split; [left; reflexivity|lia].
        + destruct (IH (S k + size a) ltac:(lia) Hge) as [[H1|(e & n0 & H1)]|(e & n0 & f & H1 & H2)].
          * lia.
          * left. right. exists e, n0. right. assumption.
          * right. exists e, n0, f. split; [right; assumption|assumption]. }
    destruct Hcase as [Hf|(e & n & f & Hin & Hr)].
    - eapply bnd_le; [|apply final_bnd; assumption]. lia.
    - eapply HK; eassumption.
  Qed.

  Lemma choose_list {A B} (P : A -> B -> Prop) (xs : list A) (Q : A -> list B -> Prop) :
    (forall x, In x xs -> exists U, Q x U) -> exists UU, forall x, In x xs -> exists U, Q x U /\ incl U UU.
  Proof.
    induction xs as [|x xs IH]; intros H; [exists []; intros x []|].
    destruct IH as (UU & HUU); [intros y Hy; apply H; right; assumption|]. destruct (H x (or_introl eq_refl)) as (U & HU).
    exists (U ++ UU). intros y [<-|Hy].
    - exists U. split; [assumption|]. apply incl_appl, incl_refl.
    - destruct (HUU y Hy) as (V & HV & Hi). exists V. split; [assumption|]. apply incl_appr. assumption.
  Qed.

  Lemma bnd_finite K : forall r, vrun r -> (forall x, star (eps_step m) r x -> ~ mbads (r_state x)) ->
    bnd (has_edge m) mbads K (r_state r) (cof r) -> exists U, forall x, star (eps_step m) r x -> In x U.
  Proof.
    induction K as [|K IH]; intros r Hv Hnb [Hb|Hb]; [destruct (Hnb r); [constructor|exact Hb]| |destruct (Hnb r); [constructor|exact Hb]|].
    - exists [r]. intros x Hx. apply star_case in Hx. destruct Hx as [->|(y & (i & t & He & H) & _)]; [left; reflexivity|].
      exfalso. destruct i as [lt| |q]; [destruct H| |].
      + exact (Hb IEps t _ He eq_refl).
      + destruct H as [Hs _]. exact (Hb (IQuant q) t _ He (conj Hs eq_refl)).
    - destruct Hv as (H1 & (st & Hst) & H3).
      destruct (choose_list (fun _ _ => True) (@eps_succs id_order 0 st r) (fun y U => forall x, star (eps_step m) y x -> In x U))
        as (UU & HUU).
      { intros y Hy. apply (@in_eps_succs id_order m) in Hy; [|assumption].
        apply IH.
        - eapply vrun_eps; [|exact Hy]. split; [assumption|]. split; [exists st; assumption|assumption].
        - intros x Hx. apply Hnb. eapply star_left; eassumption.
        - destruct Hy as (i & t & He & H). destruct i as [lt| |q]; [destruct H| |].
          + subst y. eapply bnd_ceq; [|exact (Hb IEps t _ He eq_refl)]. intros j _. symmetry. apply cof_take_false. assumption.
          + destruct H as [Hs ->]. eapply bnd_ceq; [|exact (Hb (IQuant q) t _ He (conj Hs eq_refl))].
            intros j _. symmetry. apply cof_take_true. assumption. }
      exists (r :: UU). intros x Hx. apply star_case in Hx. destruct Hx as [->|(y & Hy & Hx)]; [left; reflexivity|].
      right. apply (@in_eps_succs id_order m 0 st) in Hy; [|assumption]. destruct (HUU y Hy) as (U & HU & Hi). auto.
  Qed.

  Lemma closure_finite r : vrun r -> r_state r <> 0 -> (forall x, star (eps_step m) r x -> ~ mbads (r_state x)) -> exists U, forall x, star (eps_step m) r x -> In x U.
  Proof.
    intros Hv H0 Hnb. destruct machine_bnd as (K & HK). apply (bnd_finite K r Hv Hnb). apply HK; [|assumption|apply Hv].
    destruct Hv as (_ & (st & Hst) & _). eapply get_state_lt; [apply Hm|eassumption].
  Qed.

  (** Feeding one character to finitely many runs gives finitely many. *)
  Lemma fed_finite L c : (forall r, In r L -> vrun r) -> (forall x, fed m (fun r => In r L) c x -> ~ mbads (r_state x)) ->
    exists L', (forall x, In x L' <-> fed m (fun r => In r L) c x) /\ (forall r, In r L' -> vrun r).
  Proof.
    intros HL Hnb. pose proof (proj2 (machine_wf _ _ _ Hm)) as Hwf.
    assert (Hcov : exists U, forall x, fed m (fun r => In r L) c x -> In x U).
    { induction L as [|r L IH].
      - exists []. intros x (r & r' & [] & _).
      - destruct IH as (U1 & HU1); [intros y Hy; apply HL; right; assumption| |].
        { intros x (y & y' & Hy & H). apply Hnb. exists y, y'. split; [right|]; assumption. }
        pose proof (HL r (or_introl eq_refl)) as Hv. pose proof Hv as (_ & (st & Hst) & _).
        destruct (choose_list (fun _ _ => True) (@char_succs env id_order 0 st r c) (fun y U => forall x, star (eps_step m) y x -> In x U))
          as (UU & HUU).
        { intros y Hy. apply (@in_char_succs env id_order m) in Hy; [|assumption]. destruct (vrun_char c r y Hv Hy) as [H1 H2].
          apply closure_finite; [assumption|assumption|]. intros x Hx. apply Hnb. exists r, y. split; [left; reflexivity|]. auto. }
        exists (UU ++ U1). intros x (y & y' & [->|Hy] & Hc & Hs); apply in_or_app.
        + left. apply (@in_char_succs env id_order m 0 st) in Hc; [|assumption]. destruct (HUU _ Hc) as (U & HU & Hi). auto.
        + right. apply HU1. exists y, y'. auto. }
    destruct Hcov as (U & HU).
    assert (Hok : runs_ok m L) by (intros r Hr; apply HL; assumption).
    destruct (@feed_runs_total env id_order m U (length U) L c Hwf Hok HU (le_n _)) as (L' & HL').
    exists L'. pose proof (@feed_runs_spec env id_order m (length U) L c L' Hwf Hok HL') as Hs. split; [assumption|].
    intros x Hx. apply Hs in Hx. destruct Hx as (r & r' & Hr & Hc & Hst). eapply vrun_star; [|exact Hst].
    eapply vrun_char; [|exact Hc]. auto.
  Qed.

  Lemma init_finite : exists L, (forall x, In x L <-> init m x) /\ forall r, In r L -> vrun r.
  Proof.
    pose proof (proj2 (machine_wf _ _ _ Hm)) as Hwf.
    destruct (@static_closure_total id_order m (length (nfa_states m)) Hwf (le_n _)) as (ps & Hps).
    destruct (@sim_new_spec id_order m (length (nfa_states m)) (map (fun i => {| r_state := i; r_cnt := [] |}) ps) Hwf) as [H1 H2].
    { unfold sim_new. rewrite Hps. reflexivity. }
    eexists. split; [exact H2|]. intros r Hr. apply vrun_init. apply H2. assumption.
  Qed.
End MachineTerm.
