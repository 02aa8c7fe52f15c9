(** The texts accepted along the edges of a compiled regex. *)
From Verif Require Import Base RegexModel SpecRegex RegexParseProofs RegexProofs NfaModel SpecNfa NfaCompileProofs.

Lemma satisfied_allowed q n : is_satisfied q n = true <-> allowed q n.
Proof.
  destruct q; cbn -[N.of_nat]; rewrite ?andb_true_iff, ?N.leb_le, ?N.ltb_lt, ?N.eqb_eq; try lia.
Qed.

Section Graph.
  Context {env : Env}.
  Variable G : edge -> Prop.
  Variable F : nat -> Prop.

  Definition cnt := nat -> nat.
  Definition inc (p : nat) (c : cnt) : cnt := fun i => if i =? p then S (c i) else c i.
  Definition zer (p : nat) (c : cnt) : cnt := fun i => if i =? p then 0 else c i.

  Definition next (A : nat -> cnt -> list char -> Prop) (i : input) (p y : nat) (c : cnt) (w : list char) : Prop :=
    match i with
    | IEps => A y (inc p c) w
    | IQuant q => is_satisfied q (c p) = true /\ A y (zer p c) w
    | ILit l => exists x w', w = x :: w' /\ lit_contains l x = true /\ A y (inc p c) w'
    end.

  Fixpoint acc (k : nat) (p : nat) (c : cnt) (w : list char) {struct k} : Prop :=
    match k with
    | 0 => w = [] /\ F p
    | S k => (w = [] /\ F p) \/ exists i y, G (p, i, y) /\ next (acc k) i p y c w
    end.

  Definition via (E : edge -> Prop) (k p : nat) (c : cnt) (w : list char) : Prop :=
    exists i y, E (p, i, y) /\ next (acc k) i p y c w.

  Definition isq (i : nat) : Prop := exists q y, G (i, IQuant q, y).
  Definition ceq (c c' : cnt) : Prop := forall i, isq i -> c i = c' i.

  Lemma ceq_refl c : ceq c c. Proof. intros i _. reflexivity. Qed.
  Lemma ceq_sym c c' : ceq c c' -> ceq c' c. Proof. intros H i Hi. symmetry. auto. Qed.
  Lemma ceq_trans c c1 c2 : ceq c c1 -> ceq c1 c2 -> ceq c c2. Proof. intros H H1 i Hi. rewrite H; auto. Qed.
  Lemma ceq_inc p c c' : ceq c c' -> ceq (inc p c) (inc p c').
  Proof. intros H i Hi. unfold inc. rewrite (H i Hi). reflexivity. Qed.
  Lemma ceq_zer p c c' : ceq c c' -> ceq (zer p c) (zer p c').
  Proof. intros H i Hi. unfold zer. rewrite (H i Hi). reflexivity. Qed.
  Lemma ceq_inc_l p c : ~ isq p -> ceq (inc p c) c.
  Proof. intros H i Hi. unfold inc. destruct (Nat.eqb_spec i p) as [->|]; [contradiction|reflexivity]. Qed.

  Lemma next_mono (A B : nat -> cnt -> list char -> Prop) i p y c w :
    (forall y c w, A y c w -> B y c w) -> next A i p y c w -> next B i p y c w.
  Proof.
    intros H. destruct i as [l| |q]; cbn.
    - intros (x & w' & H1 & H2 & H3). eauto 6.
    - auto.
    - intros [H1 H2]. auto.
  Qed.

  Lemma acc_S k p c w : acc k p c w -> acc (S k) p c w.
  Proof.
    revert p c w. induction k as [|k IH]; intros p c w H.
    - left. exact H.
    - destruct H as [H|(i & y & Hg & H)]; [left; exact H|]. right. exists i, y. split; [assumption|].
      eapply next_mono; [|exact H]. exact IH.
  Qed.
  Lemma acc_le k k' p c w : k <= k' -> acc k p c w -> acc k' p c w.
  Proof. induction 1; auto. intros. apply acc_S. auto. Qed.

  Lemma acc_ceq k : forall p c c' w, ceq c c' -> acc k p c w -> acc k p c' w.
  Proof.
    induction k as [|k IH]; intros p c c' w Hc H; [exact H|].
    destruct H as [H|(i & y & Hg & H)]; [left; exact H|]. right. exists i, y. split; [assumption|].
    destruct i as [l| |q]; cbn in *.
    - destruct H as (x & w' & H1 & H2 & H3). exists x, w'. split; [assumption|]. split; [assumption|].
      eapply IH; [|eassumption]. apply ceq_inc; assumption.
    - eapply IH; [|eassumption]. apply ceq_inc; assumption.
    - destruct H as [H1 H2]. rewrite <- (Hc p) by (exists q, y; assumption). split; [assumption|].
      eapply IH; [|eassumption]. apply ceq_zer; assumption.
  Qed.

  Lemma via_le E k k' p c w : k <= k' -> via E k p c w -> via E k' p c w.
  Proof.
    intros Hk (i & y & He & H). exists i, y. split; [assumption|].
    eapply next_mono; [|exact H]. intros. eapply acc_le; eassumption.
  Qed.

  Lemma acc_via k p c w : acc k p c w -> (w = [] /\ F p) \/ exists k', k = S k' /\ via G k' p c w.
  Proof. destruct k as [|k]; cbn; [auto|]. intros [H|H]; [auto|]. right. eauto. Qed.

  (** The edges of [e] are there, and nothing else in its region. *)
  Definition placed (e : expr) (n s t : nat) : Prop :=
    s < n /\ t < n /\
    (forall x, In x (edges e n s t) -> G x) /\
    (forall x i y, n <= x < n + size e -> G (x, i, y) -> In (x, i, y) (edges e n s t)).

  (** A run may end inside [e]. *)
  Definition ends_in (e : expr) (n : nat) : Prop := exists x, n <= x < n + size e /\ F x.
  Lemma ends_sub e n e' n' : n <= n' -> n' + size e' <= n + size e -> ends_in e' n' -> ends_in e n.
  Proof. intros H1 H2 (x & Hx & Hf). exists x. split; [lia|assumption]. Qed.
  Lemma ends_at e n x : n <= x < n + size e -> F x -> ends_in e n.
  Proof. intros. exists x. auto. Qed.

  Definition zero_on (e : expr) (n : nat) (c : cnt) : Prop :=
    forall i, n <= i < n + size e -> c i = 0.

  Lemma placed_single e n s t : placed (EConcat [e]) n s t -> placed e n s t.
  Proof. exact (fun H => H). Qed.

  Lemma placed_seq e e2 es n s t : placed (EConcat (e :: e2 :: es)) n s t ->
    placed e (S n) s n /\ placed (EConcat (e2 :: es)) (S n + size e) n t /\
    (forall i y, G (n, i, y) -> In (n, i, y) (edges (EConcat (e2 :: es)) (S n + size e) n t)) /\
    ~ isq n.
  Proof.
    unfold placed. rewrite size_seq, edges_seq. intros (Hs & Ht & H1 & H2).
    assert (Hn : forall i y, G (n, i, y) -> In (n, i, y) (edges (EConcat (e2 :: es)) (S n + size e) n t)).
    { intros i y Hg. apply H2 in Hg; [|lia]. apply in_app_or in Hg. destruct Hg as [Hg|Hg]; [|assumption].
      apply edges_range in Hg. lia. }
    split; [|split; [|split; [exact Hn|]]].
    - split; [lia|]. split; [lia|]. split; [intros; apply H1, in_or_app; auto|].
      intros x i y Hx Hg. apply H2 in Hg; [|lia]. apply in_app_or in Hg. destruct Hg as [Hg|Hg]; [assumption|].
      apply edges_range in Hg. lia.
    - split; [lia|]. split; [lia|]. split; [intros; apply H1, in_or_app; auto|].
      intros x i y Hx Hg. apply H2 in Hg; [|lia]. apply in_app_or in Hg. destruct Hg as [Hg|Hg]; [|assumption].
      apply edges_range in Hg. lia.
    - intros (q & y & Hg). apply Hn in Hg. apply edges_start in Hg; [assumption|lia].
  Qed.

  Lemma placed_alt l r n s t : placed (EAlt l r) n s t -> placed l n s t /\ placed r (n + size l) s t.
  Proof.
    unfold placed. cbn [size edges]. intros (Hs & Ht & H1 & H2).
    split; (split; [lia|]; split; [lia|]; split; [intros; apply H1, in_or_app; auto|]);
      intros x i y Hx Hg; (apply H2 in Hg; [|lia]); apply in_app_or in Hg; destruct Hg as [Hg|Hg]; try assumption;
      apply edges_range in Hg; lia.
  Qed.

  Lemma placed_quant e q n s t : placed (EGroup e (Some q)) n s t ->
    placed e (S n) n n /\ G (n, IQuant q, t) /\ G (s, IEps, n) /\ isq n /\
    (forall i y, G (n, i, y) -> (i = IQuant q /\ y = t) \/ In (n, i, y) (edges e (S n) n n)).
  Proof.
    unfold placed. cbn [size edges]. intros (Hs & Ht & H1 & H2).
    assert (Hq : G (n, IQuant q, t)) by (apply H1; left; reflexivity).
    split; [|split; [exact Hq|split; [apply H1; right; left; reflexivity|split]]].
    - split; [lia|]. split; [lia|]. split; [intros; apply H1; right; right; assumption|].
      intros x i y Hx Hg. apply H2 in Hg; [|lia]. destruct Hg as [[= ]|[[= ]|Hg]]; try lia. assumption.
    - exists q, t. assumption.
    - intros i y Hg. apply H2 in Hg; [|lia]. destruct Hg as [[= <- <-]|[[= ]|Hg]]; [auto|lia|auto].
  Qed.

  Lemma lang_seq e es w : lang (EConcat (e :: es)) w <-> lang_cat (lang e) (lang (EConcat es)) w.
  Proof. reflexivity. Qed.
  Lemma lang_single e w : lang (EConcat [e]) w <-> lang e w.
  Proof.
    cbn. unfold lang_cat. split.
    - intros (u & v & -> & H & ->). rewrite app_nil_r. assumption.
    - intros H. exists w, []. rewrite app_nil_r. auto.
  Qed.

  Lemma zero_sub e n c e' n' : n <= n' -> n' + size e' <= n + size e -> zero_on e n c -> zero_on e' n' c.
  Proof. intros H1 H2 H i Hi. apply H. lia. Qed.

  (** *** Soundness: what is read between [s] and [t] is in the language; a
      run that ends before [t] has begun the regex. *)
  Lemma begun_nil : forall e, begun e [].
  Proof.
    induction e as [|e IH|e e2 es IH1 IH2| |l r IHl IHr|l q|e q IH] using expr_seq_ind.
    - reflexivity.
    - left. exact IH.
    - left. exact IH1.
    - reflexivity.
    - left. exact IHl.
    - destruct q; [exists 0; reflexivity|left; reflexivity].
    - destruct q; [|exact IH]. exists 0, [], []. split; [reflexivity|]. split; [reflexivity|exact IH].
  Qed.
  Lemma begun_seq e es w : begun (EConcat (e :: es)) w <-> begun e w \/ lang_cat (lang e) (begun (EConcat es)) w.
  Proof. reflexivity. Qed.
  Lemma lang_begun : forall e u, lang e u -> begun e u.
  Proof.
    induction e as [|e IH|e e2 es IH1 IH2| |l r IHl IHr|l q|e q IH] using expr_seq_ind; intros u H.
    - exact H.
    - left. rewrite lang_single in H. auto.
    - apply lang_seq in H. destruct H as (u1 & u2 & -> & H1 & H2). apply begun_seq. right. exists u1, u2. auto.
    - exact H.
    - destruct H; [left|right]; auto.
    - destruct q; [destruct H as (n & _ & H); exists n; exact H|right; exact H].
    - destruct q; [|apply IH; exact H]. destruct H as (n & _ & H). exists n, u, []. split; [rewrite app_nil_r; reflexivity|].
      split; [assumption|apply begun_nil].
  Qed.
  Lemma begun_single e w : begun (EConcat [e]) w <-> begun e w.
  Proof.
    rewrite begun_seq. split; [|auto]. intros [H|(u & v & -> & H & E)]; [assumption|]. cbn in E. subst v. rewrite app_nil_r.
    apply lang_begun. exact H.
  Qed.
  Lemma lang_pow_snoc (L : list char -> Prop) n u v : lang_pow L n u -> L v -> lang_pow L (S n) (u ++ v).
  Proof.
    revert u. induction n as [|n IH]; intros u Hu Hv.
    - cbn in Hu. subst u. exists v, []. split; [rewrite app_nil_r; reflexivity|]. split; [assumption|reflexivity].
    - destruct Hu as (u1 & u2 & -> & H1 & H2). exists u1, (u2 ++ v). split; [symmetry; apply app_assoc|]. split; [assumption|].
      apply IH; assumption.
  Qed.
  Lemma begun_lit l q w : begun (ELit l (Some q)) w <-> begun (EGroup (ELit l None) (Some q)) w.
  Proof.
    cbn [begun lang lang_quant]. split.
    - intros (n & H). exists n, w, []. split; [rewrite app_nil_r; reflexivity|]. split; [assumption|left; reflexivity].
    - intros (n & u & v & -> & Hu & [->|Hv]).
      + exists n. rewrite app_nil_r. assumption.
      + exists (S n). apply lang_pow_snoc; assumption.
  Qed.

  Definition sound_at (e : expr) : Prop := forall n s t k c w,
    placed e n s t -> (forall i, isq i -> n <= i < n + size e -> c i = 0) ->
    via (fun x => In x (edges e n s t)) k s c w ->
    (begun e w /\ ends_in e n) \/
    exists u v c' k', k' <= k /\ w = u ++ v /\ lang e u /\ acc k' t c' v /\ ceq c' (inc s c).

  Lemma quant_sound e q : sound_at e -> forall n s t, placed (EGroup e (Some q)) n s t ->
    forall k c w, (forall i, isq i -> S n <= i < S n + size e -> c i = 0) ->
    acc k n c w ->
    (begun (EGroup e (Some q)) w /\ ends_in (EGroup e (Some q)) n) \/
    exists j u v c' k', k' <= k /\ is_satisfied q (c n + j) = true /\ w = u ++ v /\ lang_pow (lang e) j u /\
      acc k' t c' v /\ ceq c' (zer n c).
  Proof.
    intros He n s t Hp. destruct (placed_quant _ _ _ _ _ Hp) as (Hpe & Hq & Hi & Hisq & Hout).
    induction k as [k IH] using lt_wf_ind. intros c w Hz Hacc.
    destruct (acc_via _ _ _ _ Hacc) as [[-> HF]|(k1 & -> & i & y & Hg & Hn)].
    { left. split; [apply begun_nil|]. apply (ends_at _ _ n); [cbn [size]; lia|assumption]. }
    destruct (Hout _ _ Hg) as [[-> ->]|Hin].
    - destruct Hn as [Hs Hn]. right. exists 0, [], w, (zer n c), k1. rewrite Nat.add_0_r.
      split; [lia|]. split; [assumption|]. split; [reflexivity|]. split; [reflexivity|]. split; [assumption|apply ceq_refl].
    - destruct (He (S n) n n k1 c w Hpe) as [(Hb & Hf)|(u & v & c1 & k2 & Hk & -> & Hu & Ha & Hc)].
      { intros j Hj Hr. apply Hz; assumption. }
      { exists i, y. auto. }
      { left. split; [|eapply ends_sub; [| |exact Hf]; cbn [size]; lia]. exists 0, [], w. split; [reflexivity|]. split; [reflexivity|assumption]. }
      destruct (IH k2 ltac:(lia) c1 v) as [((j & u2 & v2 & -> & Hu2 & Hv2) & Hf)|(j & u2 & v2 & c2 & k3 & Hk3 & Hs & -> & Hu2 & Ha2 & Hc2)].
      { intros m Hm Hr. rewrite Hc by assumption. unfold inc. destruct (Nat.eqb_spec m n); [lia|]. apply Hz; assumption. }
      { assumption. }
      { left. split; [|assumption]. exists (S j), (u ++ u2), v2. split; [rewrite app_assoc; reflexivity|]. split; [exists u, u2; auto|assumption]. }
      right. exists (S j), (u ++ u2), v2, c2, k3. split; [lia|]. split.
      { rewrite Hc in Hs by assumption. unfold inc in Hs. rewrite Nat.eqb_refl in Hs.
        replace (c n + S j) with (S (c n) + j) by lia. assumption. }
      split; [rewrite app_assoc; reflexivity|]. split; [exists u, u2; auto|]. split; [assumption|].
      intros m Hm. rewrite Hc2 by assumption. unfold zer. destruct (Nat.eqb_spec m n); [reflexivity|].
      rewrite Hc by assumption. unfold inc. destruct (Nat.eqb_spec m n); [contradiction|reflexivity].
  Qed.

  Lemma quant_sound_at e q : sound_at e -> sound_at (EGroup e (Some q)).
  Proof.
    intros He n s t k c w Hp Hz (i & y & Hin & Hn).
    pose proof Hp as (Hs & _). cbn [edges] in Hin. cbn [size] in Hz.
    destruct Hin as [[= ]|[[= <- <-]|Hin]]; [lia| |apply edges_range in Hin; lia].
    cbn in Hn.
    destruct (quant_sound e q He n s t Hp k (inc s c) w) as [H|(j & u & v & c' & k' & Hk & Hsat & -> & Hu & Ha & Hc)].
    { intros m Hm Hr. unfold inc. destruct (Nat.eqb_spec m s); [lia|]. apply Hz; [assumption|lia]. }
    { assumption. }
    { left. exact H. }
    assert (Hn0 : inc s c n = 0).
    { unfold inc. destruct (Nat.eqb_spec n s); [lia|]. apply Hz; [|lia]. apply (placed_quant _ _ _ _ _ Hp). }
    rewrite Hn0 in Hsat. right. exists u, v, c', k'. split; [assumption|]. split; [reflexivity|]. split.
    { exists j. split; [apply satisfied_allowed; assumption|assumption]. }
    split; [assumption|]. intros m Hm. rewrite Hc by assumption. unfold zer.
    destruct (Nat.eqb_spec m n) as [->|]; [symmetry; assumption|reflexivity].
  Qed.

  Lemma lit_sound l : sound_at (ELit l None).
  Proof.
    intros n s t k c w Hp Hz (i & y & Hin & Hn). cbn in Hin. destruct Hin as [[= <- <-]|[]].
    cbn in Hn. destruct Hn as (x & w' & -> & Hx & Ha). right. exists [x], w', (inc s c), k.
    split; [lia|]. split; [reflexivity|]. split; [|split; [assumption|apply ceq_refl]].
    cbn. exists x. split; [reflexivity|]. apply lit_spec; assumption.
  Qed.

  Lemma via_mono (E E' : edge -> Prop) k p c w : (forall i y, E (p, i, y) -> E' (p, i, y)) -> via E k p c w -> via E' k p c w.
  Proof. intros H (i & y & He & Hn). exists i, y. auto. Qed.

  Lemma expr_sound : forall e, sound_at e.
  Proof.
    induction e as [|e IH|e e2 es IH1 IH2| |l r IHl IHr|l q|e q IH] using expr_seq_ind.
    - intros n s t k c w _ _ (i & y & [] & _).
    - intros n s t k c w Hp Hz Hv. destruct (IH n s t k c w Hp Hz Hv) as [[Hb Hf]|(u & v & c' & k' & H)].
      + left. split; [left; assumption|]. exact Hf.
      + right. exists u, v, c', k'. rewrite lang_single. exact H.
    - intros n s t k c w Hp Hz Hv. rewrite size_seq in Hz.
      destruct (placed_seq _ _ _ _ _ _ Hp) as (Hp1 & Hp2 & Hout & Hnq).
      assert (Hv1 : via (fun x => In x (edges e (S n) s n)) k s c w).
      { eapply via_mono; [|exact Hv]. intros i y Hin. rewrite edges_seq in Hin. apply in_app_or in Hin.
        destruct Hin as [Hin|Hin]; [assumption|]. apply edges_range in Hin. pose proof Hp as (Hs & _). lia. }
      destruct (IH1 (S n) s n k c w Hp1) as [[Hb Hf]|(u & v & c1 & k1 & Hk1 & -> & Hu & Ha & Hc1)].
      { intros i Hi Hr. apply Hz; [assumption|lia]. }
      { assumption. }
      { left. split; [apply begun_seq; left; assumption|]. eapply ends_sub; [| |exact Hf]; rewrite ?size_seq; lia. }
      destruct (acc_via _ _ _ _ Ha) as [[-> HF]|(k2 & -> & Hv2)].
      { left. split; [|apply (ends_at _ _ n); [rewrite size_seq; lia|assumption]]. apply begun_seq. right. exists u, [].
        split; [reflexivity|]. split; [assumption|apply begun_nil]. }
      destruct (IH2 (S n + size e) n t k2 c1 v Hp2) as [[Hb Hf]|(u2 & v2 & c2 & k3 & Hk3 & -> & Hu2 & Ha2 & Hc2)].
      { intros i Hi Hr. rewrite Hc1 by assumption. unfold inc. destruct (Nat.eqb_spec i s).
        - pose proof Hp as (Hs & _). lia.
        - apply Hz; [assumption|lia]. }
      { eapply via_mono; [|exact Hv2]. exact Hout. }
      { left. split; [apply begun_seq; right; exists u, v; auto|]. eapply ends_sub; [| |exact Hf]; rewrite ?size_seq; lia. }
      right. exists (u ++ u2), v2, c2, k3. split; [lia|]. split; [rewrite app_assoc; reflexivity|].
      split; [apply lang_seq; exists u, u2; auto|]. split; [assumption|].
      eapply ceq_trans; [exact Hc2|]. eapply ceq_trans; [apply ceq_inc_l; assumption|assumption].
    - intros n s t k c w Hp Hz (i & y & Hin & Hn). cbn in Hin. destruct Hin as [[= <- <-]|[]].
      cbn in Hn. right. exists [], w, (inc s c), k. repeat split; auto.
    - intros n s t k c w Hp Hz (i & y & Hin & Hn). cbn [size] in Hz. cbn [edges] in Hin.
      destruct (placed_alt _ _ _ _ _ Hp) as [Hpl Hpr].
      apply in_app_or in Hin. destruct Hin as [Hin|Hin].
      + destruct (IHl n s t k c w Hpl) as [[Hb Hf]|(u & v & c' & k' & H1 & H2 & H3 & H4)].
        { intros j Hj Hr. apply Hz; [assumption|lia]. }
        { exists i, y. auto. }
        { left. split; [left; assumption|]. eapply ends_sub; [| |exact Hf]; cbn [size]; lia. }
        right. exists u, v, c', k'. cbn. auto.
      + destruct (IHr (n + size l) s t k c w Hpr) as [[Hb Hf]|(u & v & c' & k' & H1 & H2 & H3 & H4)].
        { intros j Hj Hr. apply Hz; [assumption|lia]. }
        { exists i, y. auto. }
        { left. split; [right; assumption|]. eapply ends_sub; [| |exact Hf]; cbn [size]; lia. }
        right. exists u, v, c', k'. cbn. auto.
    - destruct q as [q|]; [|apply lit_sound]. intros n s t k c w Hp Hz Hv. rewrite begun_lit.
      exact (quant_sound_at (ELit l None) q (lit_sound l) n s t k c w Hp Hz Hv).
    - destruct q as [q|]; [apply quant_sound_at; assumption|]. exact IH.
  Qed.

  (** *** Completeness *)
  Definition complete_at (e : expr) : Prop := forall n s t k c c' u v,
    placed e n s t -> (forall i, isq i -> n <= i < n + size e -> c i = 0) ->
    lang e u -> acc k t c' v -> ceq c' (inc s c) ->
    exists k', via (fun x => In x (edges e n s t)) k' s c (u ++ v).

  Lemma via_acc k p c w : via G k p c w -> acc (S k) p c w.
  Proof. intros H. right. exact H. Qed.

  Lemma quant_complete e q : complete_at e -> forall n s t, placed (EGroup e (Some q)) n s t ->
    forall j k c c' u v, (forall i, isq i -> S n <= i < S n + size e -> c i = 0) ->
    is_satisfied q (c n + j) = true -> lang_pow (lang e) j u -> acc k t c' v -> ceq c' (zer n c) ->
    exists k', acc k' n c (u ++ v).
  Proof.
    intros He n s t Hp. destruct (placed_quant _ _ _ _ _ Hp) as (Hpe & Hq & Hi & Hisq & Hout).
    induction j as [|j IH]; intros k c c' u v Hz Hs Hu Ha Hc.
    - cbn in Hu. subst u. rewrite Nat.add_0_r in Hs. exists (S k). right. exists (IQuant q), t. split; [assumption|].
      split; [assumption|]. eapply acc_ceq; eassumption.
    - destruct Hu as (u1 & u2 & -> & Hu1 & Hu2).
      destruct (IH k (inc n c) c' u2 v) as (k1 & Ha1).
      + intros i Hqi Hr. unfold inc. destruct (Nat.eqb_spec i n); [lia|auto].
      + unfold inc at 1. rewrite Nat.eqb_refl. replace (S (c n) + j) with (c n + S j) by lia. assumption.
      + assumption.
      + assumption.
      + eapply ceq_trans; [exact Hc|]. intros i _. unfold zer, inc. destruct (i =? n); reflexivity.
      + destruct (He (S n) n n k1 c (inc n c) u1 (u2 ++ v) Hpe) as (k2 & Hv).
        * intros i Hqi Hr. apply Hz; [assumption|lia].
        * assumption.
        * assumption.
        * apply ceq_refl.
        * exists (S k2). rewrite <- app_assoc. apply via_acc. eapply via_mono; [|exact Hv].
          intros i y. apply Hpe.
  Qed.

  Lemma quant_complete_at e q : complete_at e -> complete_at (EGroup e (Some q)).
  Proof.
    intros He n s t k c c' u v Hp Hz (j & Hj & Hu) Ha Hc. pose proof Hp as (Hs & _).
    cbn [size] in Hz.
    assert (Hn0 : c n = 0) by (apply Hz; [apply (placed_quant _ _ _ _ _ Hp)|lia]).
    destruct (quant_complete e q He n s t Hp j k (inc s c) c' u v) as (k' & Ha').
    - intros i Hqi Hr. unfold inc. destruct (Nat.eqb_spec i s); [lia|]. apply Hz; [assumption|lia].
    - unfold inc. destruct (Nat.eqb_spec n s); [lia|]. rewrite Hn0. apply satisfied_allowed. assumption.
    - assumption.
    - exact Ha.
    - eapply ceq_trans; [exact Hc|]. intros i Hqi. unfold zer, inc. destruct (Nat.eqb_spec i n) as [->|]; [|reflexivity].
      destruct (Nat.eqb_spec n s); [lia|assumption].
    - exists k', IEps, n. split; [cbn; auto|]. exact Ha'.
  Qed.

  Lemma lit_complete l : complete_at (ELit l None).
  Proof.
    intros n s t k c c' u v Hp Hz (x & -> & Hx) Ha Hc. exists k, (ILit l), t. split; [left; reflexivity|].
    cbn. exists x, v. split; [reflexivity|]. split; [apply lit_spec; assumption|]. eapply acc_ceq; eassumption.
  Qed.

  Lemma expr_complete : forall e, has_empty e = false -> complete_at e.
  Proof.
    induction e as [|e IH|e e2 es IH1 IH2| |l r IHl IHr|l q|e q IH] using expr_seq_ind; intros Hne.
    - discriminate.
    - intros n s t k c c' u v Hp Hz Hu Ha Hc. rewrite lang_single in Hu. cbn in Hne. rewrite orb_false_r in Hne.
      exact (IH Hne n s t k c c' u v Hp Hz Hu Ha Hc).
    - intros n s t k c c' u v Hp Hz Hu Ha Hc. rewrite size_seq in Hz. pose proof Hp as (Hs & _).
      change (has_empty (EConcat (e :: e2 :: es))) with (has_empty e || has_empty (EConcat (e2 :: es))) in Hne.
      apply orb_false_iff in Hne. destruct Hne as [Hn1 Hn2].
      destruct (placed_seq _ _ _ _ _ _ Hp) as (Hp1 & Hp2 & Hout & Hnq).
      apply lang_seq in Hu. destruct Hu as (u1 & u2 & -> & Hu1 & Hu2).
      destruct (IH2 Hn2 (S n + size e) n t k (inc s c) c' u2 v Hp2) as (k1 & Hv1).
      { intros i Hi Hr. unfold inc. destruct (Nat.eqb_spec i s); [lia|]. apply Hz; [assumption|lia]. }
      { assumption. }
      { assumption. }
      { eapply ceq_trans; [exact Hc|]. apply ceq_sym, ceq_inc_l. assumption. }
      destruct (IH1 Hn1 (S n) s n (S k1) c (inc s c) u1 (u2 ++ v) Hp1) as (k2 & Hv2).
      { intros i Hi Hr. apply Hz; [assumption|lia]. }
      { assumption. }
      { apply via_acc. eapply via_mono; [|exact Hv1]. intros i y. apply Hp2. }
      { apply ceq_refl. }
      exists k2. rewrite <- app_assoc. eapply via_mono; [|exact Hv2]. intros i y H. rewrite edges_seq. apply in_or_app. auto.
    - intros n s t k c c' u v Hp Hz Hu Ha Hc. cbn in Hu. subst u. exists k, IEps, t. split; [left; reflexivity|].
      cbn. eapply acc_ceq; eassumption.
    - intros n s t k c c' u v Hp Hz Hu Ha Hc. cbn [size] in Hz.
      destruct (placed_alt _ _ _ _ _ Hp) as [Hpl Hpr]. cbn in Hne. apply orb_false_iff in Hne. destruct Hne as [Hn1 Hn2].
      destruct Hu as [Hu|Hu].
      + destruct (IHl Hn1 n s t k c c' u v Hpl) as (k' & Hv); auto.
        { intros j Hj Hr. apply Hz; [assumption|lia]. }
        exists k'. eapply via_mono; [|exact Hv]. intros i y H. cbn. apply in_or_app. auto.
      + destruct (IHr Hn2 (n + size l) s t k c c' u v Hpr) as (k' & Hv); auto.
        { intros j Hj Hr. apply Hz; [assumption|lia]. }
        exists k'. eapply via_mono; [|exact Hv]. intros i y H. cbn. apply in_or_app. auto.
    - destruct q as [q|]; [|apply lit_complete]. exact (quant_complete_at (ELit l None) q (lit_complete l)).
    - cbn in Hne. destruct q as [q|]; [apply quant_complete_at; auto|]. exact (IH Hne).
  Qed.

  (** ** The start of a simulation

      The simulator starts in every state reachable by edges that read nothing,
      all with zero counters. *)
  Definition zero : cnt := fun _ => 0.
  Definition static (i : input) : Prop :=
    match i with ILit _ => False | IEps => True | IQuant q => is_satisfied q 0 = true end.
  Definition accs (p : nat) (c : cnt) (w : list char) : Prop := exists k, acc k p c w.

  Definition lit_step (E : edge -> Prop) (p : nat) (w : list char) : Prop :=
    exists l y x w', E (p, ILit l, y) /\ w = x :: w' /\ lit_contains l x = true /\ accs y (inc p zero) w'.

  Fixpoint sacc (k p : nat) (w : list char) {struct k} : Prop :=
    match k with
    | 0 => False
    | S k => (w = [] /\ F p) \/ lit_step G p w \/ exists i y, G (p, i, y) /\ static i /\ sacc k y w
    end.
  Definition svia (E : edge -> Prop) (k p : nat) (w : list char) : Prop :=
    lit_step E p w \/ exists i y, E (p, i, y) /\ static i /\ sacc k y w.

  Lemma svia_mono (E E' : edge -> Prop) k p w : (forall i y, E (p, i, y) -> E' (p, i, y)) -> svia E k p w -> svia E' k p w.
  Proof.
    intros H [(l & y & x & w' & H1 & H2)|(i & y & H1 & H2)]; [left; exists l, y, x, w'|right; exists i, y]; auto.
  Qed.
  Lemma sacc_svia k p w : sacc k p w -> (w = [] /\ F p) \/ exists k', k = S k' /\ svia G k' p w.
  Proof. destruct k as [|k]; cbn; [intros []|]. intros [H|H]; [auto|]. right. eauto. Qed.
  Lemma svia_sacc k p w : svia G k p w -> sacc (S k) p w.
  Proof. intros H. right. exact H. Qed.
  Lemma accs_ceq p c c' w : ceq c c' -> accs p c w -> accs p c' w.
  Proof. intros H (k & Ha). exists k. eapply acc_ceq; eassumption. Qed.

  Definition starts (e : expr) (n s t k : nat) (w : list char) : Prop :=
    (impl_begun e w /\ ends_in e n) \/
    (exists u v, w = u ++ v /\ lit_first e u /\ accs t (inc s zero) v) \/
    (exists u v, w = u ++ v /\ rep_first e u /\ accs t zero v) \/
    (skippable e /\ exists k', k' <= k /\ sacc k' t w).

  Definition static_sound_at (e : expr) : Prop := forall n s t k w,
    placed e n s t -> svia (fun x => In x (edges e n s t)) k s w -> starts e n s t k w.

  Lemma impl_begun_nil : forall e, impl_begun e [].
  Proof.
    induction e as [|e IH|e e2 es IH1 IH2| |l r IHl IHr|l q|e q IH] using expr_seq_ind.
    - reflexivity.
    - left. exact IH.
    - left. exact IH1.
    - reflexivity.
    - left. exact IHl.
    - apply begun_nil.
    - destruct q; [left|]; exact IH.
  Qed.
  Lemma impl_begun_seq e es w : impl_begun (EConcat (e :: es)) w <->
    impl_begun e w \/ lang_cat (fun u => lit_first e u \/ rep_first e u) (begun (EConcat es)) w \/ (skippable e /\ impl_begun (EConcat es) w).
  Proof. reflexivity. Qed.

  Lemma quant_static e q : static_sound_at e -> static_sound_at (EGroup e (Some q)).
  Proof.
    intros He n s t k w Hp Hv. pose proof Hp as (Hs & _).
    destruct (placed_quant _ _ _ _ _ Hp) as (Hpe & Hq & Hi & Hisq & Hout).
    assert (Hn : sacc k n w).
    { destruct Hv as [(l & y & x & w' & Hin & _)|(i & y & Hin & Hst & Ha)]; cbn [edges] in Hin.
      - destruct Hin as [[= ]|[[= ]|Hin]]. apply edges_range in Hin. lia.
      - destruct Hin as [[= ]|[[= <- <-]|Hin]]; [lia|assumption|apply edges_range in Hin; lia]. }
    clear Hv. revert w Hn. induction k as [k IH] using lt_wf_ind. intros w Ha.
    destruct (sacc_svia _ _ _ Ha) as [[-> HF]|(k1 & -> & Hv)].
    { left. split; [apply impl_begun_nil|]. apply (ends_at _ _ n); [cbn [size]; lia|assumption]. }
    assert (Hcase : (is_satisfied q 0 = true /\ sacc k1 t w) \/ svia (fun x => In x (edges e (S n) n n)) k1 n w).
    { destruct Hv as [(l & y & x & w' & Hg & H)|(i & y & Hg & Hst & H)].
      - destruct (Hout _ _ Hg) as [[[=] _]|Hin]. right. left. exists l, y, x, w'. auto.
      - destruct (Hout _ _ Hg) as [[-> ->]|Hin]; [left; auto|]. right. right. exists i, y. auto. }
    destruct Hcase as [[Hsat Hacc]|Hve].
    { right. right. right. split; [apply satisfied_allowed; assumption|]. exists k1. split; [lia|assumption]. }
    destruct (He _ _ _ _ _ Hpe Hve) as [(Hb & Hf)|[(u & v & -> & Hu & k2 & Hacc)|[(u & v & -> & Hu & k2 & Hacc)|(Hsk & k2 & Hk2 & Hacc)]]].
    - left. split; [left; assumption|]. eapply ends_sub; [| |exact Hf]; cbn [size]; lia.
    - destruct (quant_sound e q (expr_sound e) n s t Hp k2 (inc n zero) v) as [[Hb Hf]|(j & u2 & v2 & c' & k3 & _ & Hsat & -> & Hu2 & Ha2 & Hc)].
      { intros i _ Hr. unfold inc, zero. destruct (Nat.eqb_spec i n); [lia|reflexivity]. }
      { assumption. }
      { left. split; [|assumption]. right. exists u, v. auto. }
      right. right. left. exists (u ++ u2), v2. split; [rewrite app_assoc; reflexivity|]. split.
      + left. exists j. split; [|exists u, u2; auto]. apply satisfied_allowed.
        unfold inc, zero in Hsat. rewrite Nat.eqb_refl in Hsat. exact Hsat.
      + exists k3. eapply acc_ceq; [|exact Ha2]. eapply ceq_trans; [exact Hc|].
        intros i _. unfold zer, inc, zero. destruct (i =? n); reflexivity.
    - destruct (quant_sound e q (expr_sound e) n s t Hp k2 zero v) as [[Hb Hf]|(j & u2 & v2 & c' & k3 & _ & Hsat & -> & Hu2 & Ha2 & Hc)].
      { reflexivity. }
      { assumption. }
      { left. split; [|assumption]. right. exists u, v. auto. }
      right. right. left. exists (u ++ u2), v2. split; [rewrite app_assoc; reflexivity|]. split.
      + right. exists j. split; [|exists u, u2; auto]. apply satisfied_allowed. exact Hsat.
      + exists k3. eapply acc_ceq; [|exact Ha2]. eapply ceq_trans; [exact Hc|].
        intros i _. unfold zer, zero. destruct (i =? n); reflexivity.
    - destruct (IH k2 ltac:(lia) w Hacc) as [H|[H|[H|(Hq0 & k3 & Hk3 & H3)]]].
      + left. exact H.
      + right. left. exact H.
      + right. right. left. exact H.
      + right. right. right. split; [assumption|]. exists k3. split; [lia|assumption].
  Qed.

  Lemma cat_nil_r (L : list char -> Prop) u : lang_cat L (lang (EConcat [])) u <-> L u.
  Proof.
    unfold lang_cat. cbn. split.
    - intros (a & b & -> & H & ->). rewrite app_nil_r. assumption.
    - intros H. exists u, []. rewrite app_nil_r. auto.
  Qed.
  Lemma lit_first_seq e es u : lit_first (EConcat (e :: es)) u <-> lang_cat (lit_first e) (lang (EConcat es)) u.
  Proof. reflexivity. Qed.
  Lemma rep_first_seq e es u : rep_first (EConcat (e :: es)) u <->
    lang_cat (rep_first e) (lang (EConcat es)) u \/ (skippable e /\ (lit_first (EConcat es) u \/ rep_first (EConcat es) u)).
  Proof. reflexivity. Qed.
  Lemma lit_first_single e u : lit_first (EConcat [e]) u <-> lit_first e u.
  Proof. rewrite lit_first_seq. apply cat_nil_r. Qed.
  Lemma rep_first_single e u : rep_first (EConcat [e]) u <-> rep_first e u.
  Proof. rewrite rep_first_seq, cat_nil_r. cbn. tauto. Qed.
  Lemma rep_first_lit l q u : rep_first (ELit l (Some q)) u <-> rep_first (EGroup (ELit l None) (Some q)) u.
  Proof.
    cbn [rep_first lit_first lang lang_quant]. split; [auto|]. intros [H|(n & _ & a & b & _ & [] & _)]. exact H.
  Qed.
  Lemma impl_begun_lit l q w : impl_begun (EGroup (ELit l None) (Some q)) w -> begun (ELit l (Some q)) w.
  Proof.
    intros [H|(u & v & -> & [Hu|[]] & Hv)]; rewrite begun_lit.
    - exists 0, [], w. split; [reflexivity|]. split; [reflexivity|exact H].
    - destruct Hv as (n & v1 & v2 & -> & H1 & H2). exists (S n), (u ++ v1), v2. split; [apply app_assoc|]. split; [|assumption].
      exists u, v1. auto.
  Qed.

  Lemma lit_static l : static_sound_at (ELit l None).
  Proof.
    intros n s t k w Hp [(l' & y & x & w' & Hin & -> & Hx & Ha)|(i & y & Hin & Hst & _)].
    - destruct Hin as [[= <- <-]|[]]. right. left. exists [x], w'. split; [reflexivity|]. split; [|assumption].
      exists x. split; [reflexivity|]. apply lit_spec. assumption.
    - destruct Hin as [[= <- <-]|[]]. destruct Hst.
  Qed.

  Lemma expr_static_sound : forall e, static_sound_at e.
  Proof.
    induction e as [|e IH|e e2 es IH1 IH2| |l r IHl IHr|l q|e q IH] using expr_seq_ind.
    - intros n s t k w _ [(l & y & x & w' & [] & _)|(i & y & [] & _)].
    - intros n s t k w Hp Hv. destruct (IH n s t k w Hp Hv) as [[Hb Hf]|[(u & v & -> & Hu & Ha)|[(u & v & -> & Hu & Ha)|(Hsk & H)]]].
      + left. split; [left; assumption|exact Hf].
      + right. left. exists u, v. rewrite lit_first_single. auto.
      + right. right. left. exists u, v. rewrite rep_first_single. auto.
      + right. right. right. split; [split; [assumption|exact I]|assumption].
    - intros n s t k w Hp Hv. pose proof Hp as (Hs & _).
      destruct (placed_seq _ _ _ _ _ _ Hp) as (Hp1 & Hp2 & Hout & Hnq).
      assert (Hv1 : svia (fun x => In x (edges e (S n) s n)) k s w).
      { eapply svia_mono; [|exact Hv]. intros i y Hin. rewrite edges_seq in Hin. apply in_app_or in Hin.
        destruct Hin as [Hin|Hin]; [assumption|]. apply edges_range in Hin. lia. }
      assert (Hrest : forall c v, (forall i, S n <= i -> c i = 0) -> accs n c v ->
        (begun (EConcat (e2 :: es)) v /\ ends_in (EConcat (e :: e2 :: es)) n) \/
        exists u2 v2, v = u2 ++ v2 /\ lang (EConcat (e2 :: es)) u2 /\ accs t c v2).
      { intros c v Hz (k1 & Ha). destruct (acc_via _ _ _ _ Ha) as [[-> HF]|(k2 & -> & Hv2)].
        { left. split; [apply begun_nil|]. apply (ends_at _ _ n); [rewrite size_seq; lia|assumption]. }
        destruct (expr_sound (EConcat (e2 :: es)) (S n + size e) n t k2 c v Hp2) as [[Hb Hf]|(u2 & v2 & c2 & k3 & _ & -> & Hu2 & Ha2 & Hc2)].
        { intros i _ Hr. apply Hz. lia. }
        { eapply via_mono; [|exact Hv2]. exact Hout. }
        { left. split; [assumption|]. eapply ends_sub; [| |exact Hf]; rewrite ?size_seq; lia. }
        right. exists u2, v2. split; [reflexivity|]. split; [assumption|]. exists k3. eapply acc_ceq; [|exact Ha2].
        eapply ceq_trans; [exact Hc2|apply ceq_inc_l; assumption]. }
      destruct (IH1 (S n) s n k w Hp1 Hv1) as [[Hb Hf]|[(u & v & -> & Hu & Ha)|[(u & v & -> & Hu & Ha)|(Hsk & k1 & Hk1 & Ha)]]].
      + left. split; [apply impl_begun_seq; left; assumption|]. eapply ends_sub; [| |exact Hf]; rewrite ?size_seq; lia.
      + destruct (Hrest (inc s zero) v) as [[Hb Hf]|(u2 & v2 & -> & Hu2 & Ha2)].
        { intros i Hi. unfold inc, zero. destruct (Nat.eqb_spec i s); [lia|reflexivity]. }
        { assumption. }
        { left. split; [|assumption]. apply impl_begun_seq. right. left. exists u, v. auto. }
        right. left. exists (u ++ u2), v2. split; [apply app_assoc|]. split; [|assumption]. apply lit_first_seq. exists u, u2. auto.
      + destruct (Hrest zero v) as [[Hb Hf]|(u2 & v2 & -> & Hu2 & Ha2)].
        { reflexivity. }
        { assumption. }
        { left. split; [|assumption]. apply impl_begun_seq. right. left. exists u, v. auto. }
        right. right. left. exists (u ++ u2), v2. split; [apply app_assoc|]. split; [|assumption]. apply rep_first_seq. left.
        exists u, u2. auto.
      + destruct (sacc_svia _ _ _ Ha) as [[-> HF]|(k2 & -> & Hv2)].
        { left. split; [apply impl_begun_nil|]. apply (ends_at _ _ n); [rewrite size_seq; lia|assumption]. }
        destruct (IH2 (S n + size e) n t k2 w Hp2) as [[Hb Hf]|[(u & v & -> & Hu & Ha2)|[(u & v & -> & Hu & Ha2)|(Hsk2 & k3 & Hk3 & Ha3)]]].
        { eapply svia_mono; [|exact Hv2]. exact Hout. }
        * left. split; [apply impl_begun_seq; right; right; auto|]. eapply ends_sub; [| |exact Hf]; rewrite ?size_seq; lia.
        * right. right. left. exists u, v. split; [reflexivity|]. split; [apply rep_first_seq; auto|].
          eapply accs_ceq; [|exact Ha2]. apply ceq_inc_l. assumption.
        * right. right. left. exists u, v. split; [reflexivity|]. split; [apply rep_first_seq; auto|]. assumption.
        * right. right. right. split; [split; assumption|]. exists k3. split; [lia|assumption].
    - intros n s t k w Hp [(l' & y & x & w' & Hin & _)|(i & y & Hin & Hst & Ha)].
      + destruct Hin as [[= ]|[]].
      + destruct Hin as [[= <- <-]|[]]. right. right. right. split; [exact I|]. exists k. auto.
    - intros n s t k w Hp Hv. destruct (placed_alt _ _ _ _ _ Hp) as [Hpl Hpr].
      assert (Hcase : svia (fun x => In x (edges l n s t)) k s w \/ svia (fun x => In x (edges r (n + size l) s t)) k s w).
      { destruct Hv as [(l' & y & x & w' & Hin & H)|(i & y & Hin & H)]; cbn [edges] in Hin; apply in_app_or in Hin;
          destruct Hin; [left; left|right; left|left; right|right; right];
          [exists l', y, x, w'|exists l', y, x, w'|exists i, y|exists i, y]; split; assumption. }
      destruct Hcase as [Hc|Hc];
        [destruct (IHl _ _ _ _ _ Hpl Hc) as [[H1 H2]|[(u & v & H1 & H2 & H3)|[(u & v & H1 & H2 & H3)|(H1 & H2)]]]
        |destruct (IHr _ _ _ _ _ Hpr Hc) as [[H1 H2]|[(u & v & H1 & H2 & H3)|[(u & v & H1 & H2 & H3)|(H1 & H2)]]]];
        [left|right; left; exists u, v|right; right; left; exists u, v|right; right; right
        |left|right; left; exists u, v|right; right; left; exists u, v|right; right; right]; cbn; auto;
        (split; [auto|]; eapply ends_sub; [| |exact H2]; cbn [size]; lia).
    - destruct q as [q|]; [|apply lit_static].
      intros n s t k w Hp Hv.
      destruct (quant_static (ELit l None) q (lit_static l) n s t k w Hp Hv) as [[H1 H2]|[(u & v & H1 & [] & H3)|[(u & v & H1 & H2 & H3)|H]]].
      + left. split; [apply impl_begun_lit; assumption|exact H2].
      + right. right. left. exists u, v. rewrite rep_first_lit. auto.
      + right. right. right. exact H.
    - destruct q as [q|]; [apply quant_static; assumption|]. exact IH.
  Qed.

  Definition static_complete_at (e : expr) : Prop := forall n s t, placed e n s t ->
    (forall c' u v, lit_first e u -> accs t c' v -> ceq c' (inc s zero) ->
       exists k, svia (fun x => In x (edges e n s t)) k s (u ++ v)) /\
    (forall c' u v, rep_first e u -> accs t c' v -> ceq c' zero ->
       exists k, svia (fun x => In x (edges e n s t)) k s (u ++ v)) /\
    (forall k w, skippable e -> sacc k t w -> exists k', svia (fun x => In x (edges e n s t)) k' s w).

  Lemma quant_static_complete e q : has_empty e = false -> static_complete_at e -> static_complete_at (EGroup e (Some q)).
  Proof.
    intros Hne He n s t Hp. pose proof Hp as (Hs & _).
    destruct (placed_quant _ _ _ _ _ Hp) as (Hpe & Hq & Hi & Hisq & Hout).
    destruct (He (S n) n n Hpe) as (Hl & Hr & _).
    assert (Hin : forall k w, sacc k n w -> svia (fun x => In x (edges (EGroup e (Some q)) n s t)) k s w).
    { intros k w H. right. exists IEps, n. split; [cbn; auto|]. split; [exact I|assumption]. }
    assert (Hbody : forall k w, svia (fun x => In x (edges e (S n) n n)) k n w -> sacc (S k) n w).
    { intros k w H. apply svia_sacc. eapply svia_mono; [|exact H]. intros i y. apply Hpe. }
    split; [|split].
    - intros c' u v [].
    - intros c' u v Hu (k & Ha) Hc. destruct Hu as [(j & Hj & u1 & u2 & -> & Hu1 & Hu2)|(j & Hj & u1 & u2 & -> & Hu1 & Hu2)].
      + destruct (quant_complete e q (expr_complete e Hne) n s t Hp j k (inc n zero) c' u2 v) as (k1 & Ha1).
        { intros i _ Hri. unfold inc, zero. destruct (Nat.eqb_spec i n); [lia|reflexivity]. }
        { unfold inc, zero. rewrite Nat.eqb_refl. apply satisfied_allowed. exact Hj. }
        { assumption. } { assumption. }
        { eapply ceq_trans; [exact Hc|]. intros i _. unfold zer, inc, zero. destruct (i =? n); reflexivity. }
        destruct (Hl (inc n zero) u1 (u2 ++ v) Hu1 (ex_intro _ k1 Ha1) (ceq_refl _)) as (k2 & Hv).
        exists (S k2). rewrite <- app_assoc. apply Hin, Hbody, Hv.
      + destruct (quant_complete e q (expr_complete e Hne) n s t Hp j k zero c' u2 v) as (k1 & Ha1).
        { reflexivity. }
        { apply satisfied_allowed. exact Hj. }
        { assumption. } { assumption. }
        { eapply ceq_trans; [exact Hc|]. intros i _. unfold zer, zero. destruct (i =? n); reflexivity. }
        destruct (Hr zero u1 (u2 ++ v) Hu1 (ex_intro _ k1 Ha1) (ceq_refl _)) as (k2 & Hv).
        exists (S k2). rewrite <- app_assoc. apply Hin, Hbody, Hv.
    - intros k w Hsk Ha. exists (S k). apply Hin, svia_sacc. right. exists (IQuant q), t. split; [assumption|].
      split; [apply satisfied_allowed; exact Hsk|assumption].
  Qed.

  Lemma lit_static_complete l : static_complete_at (ELit l None).
  Proof.
    intros n s t Hp. split; [|split].
    - intros c' u v (x & -> & Hx) Ha Hc. exists 0. left. exists l, t, x, v. split; [left; reflexivity|].
      split; [reflexivity|]. split; [apply lit_spec; assumption|]. eapply accs_ceq; eassumption.
    - intros c' u v [].
    - intros k w [].
  Qed.

  Lemma expr_static_complete : forall e, has_empty e = false -> static_complete_at e.
  Proof.
    induction e as [|e IH|e e2 es IH1 IH2| |l r IHl IHr|l q|e q IH] using expr_seq_ind; intros Hne.
    - discriminate.
    - cbn in Hne. rewrite orb_false_r in Hne. intros n s t Hp. destruct (IH Hne n s t Hp) as (H1 & H2 & H3).
      split; [|split].
      + intros c' u v Hu. rewrite lit_first_single in Hu. exact (H1 c' u v Hu).
      + intros c' u v Hu. rewrite rep_first_single in Hu. exact (H2 c' u v Hu).
      + intros k w [Hsk _]. exact (H3 k w Hsk).
    - change (has_empty (EConcat (e :: e2 :: es))) with (has_empty e || has_empty (EConcat (e2 :: es))) in Hne.
      apply orb_false_iff in Hne. destruct Hne as [Hn1 Hn2].
      intros n s t Hp. pose proof Hp as (Hs & _).
      destruct (placed_seq _ _ _ _ _ _ Hp) as (Hp1 & Hp2 & Hout & Hnq).
      assert (Hlift : forall k w, svia (fun x => In x (edges e (S n) s n)) k s w ->
                svia (fun x => In x (edges (EConcat (e :: e2 :: es)) n s t)) k s w).
      { intros k w H. eapply svia_mono; [|exact H]. intros i y Hi. rewrite edges_seq. apply in_or_app. auto. }
      assert (Hrest : forall c c' u v, (forall i, S n <= i -> c i = 0) -> lang (EConcat (e2 :: es)) u -> accs t c' v -> ceq c' c ->
                accs n c (u ++ v)).
      { intros c c' u v Hz Hu (k & Ha) Hc.
        destruct (expr_complete (EConcat (e2 :: es)) Hn2 (S n + size e) n t k c c' u v Hp2) as (k1 & Hv).
        { intros i _ Hi. apply Hz. lia. }
        { assumption. } { assumption. }
        { eapply ceq_trans; [exact Hc|]. apply ceq_sym, ceq_inc_l. assumption. }
        exists (S k1). apply via_acc. eapply via_mono; [|exact Hv]. intros i y. apply Hp2. }
      destruct (IH1 Hn1 (S n) s n Hp1) as (A1 & A2 & A3).
      destruct (IH2 Hn2 (S n + size e) n t Hp2) as (B1 & B2 & B3).
      assert (Hback : forall k w, svia (fun x => In x (edges (EConcat (e2 :: es)) (S n + size e) n t)) k n w -> sacc (S k) n w).
      { intros k w H. apply svia_sacc. eapply svia_mono; [|exact H]. intros i y. apply Hp2. }
      split; [|split].
      + intros c' u v Hu Ha Hc. apply lit_first_seq in Hu. destruct Hu as (u1 & u2 & -> & Hu1 & Hu2).
        destruct (A1 (inc s zero) u1 (u2 ++ v) Hu1) as (k & Hv).
        { eapply Hrest; [|eassumption|eassumption|eassumption]. intros i Hi. unfold inc, zero. destruct (Nat.eqb_spec i s); [lia|reflexivity]. }
        { apply ceq_refl. }
        exists k. rewrite <- app_assoc. auto.
      + intros c' u v Hu Ha Hc. apply rep_first_seq in Hu. destruct Hu as [(u1 & u2 & -> & Hu1 & Hu2)|(Hsk & [Hu|Hu])].
        * destruct (A2 zero u1 (u2 ++ v) Hu1) as (k & Hv).
          { eapply Hrest; [|eassumption|eassumption|eassumption]. reflexivity. }
          { apply ceq_refl. }
          exists k. rewrite <- app_assoc. auto.
        * destruct (B1 c' u v Hu Ha) as (k & Hv).
          { eapply ceq_trans; [exact Hc|]. apply ceq_sym, ceq_inc_l. assumption. }
          destruct (A3 (S k) (u ++ v) Hsk (Hback _ _ Hv)) as (k' & Hv'). eauto.
        * destruct (B2 c' u v Hu Ha Hc) as (k & Hv).
          destruct (A3 (S k) (u ++ v) Hsk (Hback _ _ Hv)) as (k' & Hv'). eauto.
      + intros k w [Hsk1 Hsk2] Ha. destruct (B3 k w Hsk2 Ha) as (k1 & Hv).
        destruct (A3 (S k1) w Hsk1 (Hback _ _ Hv)) as (k' & Hv'). eauto.
    - intros n s t Hp. split; [intros c' u v []|split; [intros c' u v []|]].
      intros k w _ Ha. exists k. right. exists IEps, t. split; [left; reflexivity|]. split; [exact I|assumption].
    - cbn in Hne. apply orb_false_iff in Hne. destruct Hne as [Hn1 Hn2]. intros n s t Hp.
      destruct (placed_alt _ _ _ _ _ Hp) as [Hpl Hpr].
      destruct (IHl Hn1 n s t Hpl) as (A1 & A2 & A3). destruct (IHr Hn2 (n + size l) s t Hpr) as (B1 & B2 & B3).
      assert (HL : forall k w, svia (fun x => In x (edges l n s t)) k s w -> svia (fun x => In x (edges (EAlt l r) n s t)) k s w).
      { intros k w H. eapply svia_mono; [|exact H]. intros i y Hi. cbn. apply in_or_app. auto. }
      assert (HR : forall k w, svia (fun x => In x (edges r (n + size l) s t)) k s w -> svia (fun x => In x (edges (EAlt l r) n s t)) k s w).
      { intros k w H. eapply svia_mono; [|exact H]. intros i y Hi. cbn. apply in_or_app. auto. }
      split; [|split].
      + intros c' u v [Hu|Hu] Ha Hc; [destruct (A1 c' u v Hu Ha Hc)|destruct (B1 c' u v Hu Ha Hc)]; eauto.
      + intros c' u v [Hu|Hu] Ha Hc; [destruct (A2 c' u v Hu Ha Hc)|destruct (B2 c' u v Hu Ha Hc)]; eauto.
      + intros k w [Hu|Hu] Ha; [destruct (A3 k w Hu Ha)|destruct (B3 k w Hu Ha)]; eauto.
    - destruct q as [q|]; [|apply lit_static_complete].
      intros n s t Hp. destruct (quant_static_complete (ELit l None) q eq_refl (lit_static_complete l) n s t Hp) as (A1 & A2 & A3).
      split; [intros c' u v []|split; [|exact A3]]. intros c' u v Hu. rewrite rep_first_lit in Hu. exact (A2 c' u v Hu).
    - cbn in Hne. destruct q as [q|]; [apply quant_static_complete; auto|]. exact (IH Hne).
  Qed.

  (** *** Texts that are begun can be read, if a run may end anywhere. *)
  Section Everywhere.
    Hypothesis HF : forall x, F x.

    Definition begun_complete_at (e : expr) : Prop := forall n s t c u,
      placed e n s t -> (forall i, isq i -> n <= i < n + size e -> c i = 0) ->
      begun e u -> u <> [] -> exists k, via (fun x => In x (edges e n s t)) k s c u.

    Lemma accs_begun e n s t c u : begun_complete_at e -> placed e n s t -> (forall i, isq i -> n <= i < n + size e -> c i = 0) ->
      (forall i y, In (s, i, y) (edges e n s t) -> G (s, i, y)) -> begun e u -> accs s c u.
    Proof.
      intros He Hp Hz Hg Hu. destruct u as [|a u]; [exists 0; split; [reflexivity|apply HF]|].
      destruct (He n s t c (a :: u) Hp Hz Hu) as (k & Hv); [discriminate|]. exists (S k). apply via_acc. eapply via_mono; [|exact Hv]. exact Hg.
    Qed.

    Lemma quant_begun e q : has_empty e = false -> begun_complete_at e -> forall n s t, placed (EGroup e (Some q)) n s t ->
      forall c u, (forall i, isq i -> S n <= i < S n + size e -> c i = 0) ->
      begun (EGroup e (Some q)) u -> accs n c u.
    Proof.
      intros Hne He n s t Hp c u Hz (j & u1 & u2 & -> & H1 & H2). destruct (placed_quant _ _ _ _ _ Hp) as (Hpe & Hq & Hi & Hisq & Hout).
      revert c u1 Hz H1. induction j as [|j IH]; intros c u1 Hz H1.
      - cbn in H1. subst u1. eapply accs_begun; [exact He|exact Hpe|exact Hz| |exact H2]. intros i y. apply Hpe.
      - destruct H1 as (v1 & v2 & -> & Hv1 & Hv2). destruct (IH (inc n c) v2) as (k1 & Ha).
        { intros i Hqi Hr. unfold inc. destruct (Nat.eqb_spec i n); [lia|auto]. }
        { assumption. }
        destruct (expr_complete e Hne (S n) n n k1 c (inc n c) v1 (v2 ++ u2) Hpe) as (k2 & Hv); auto.
        { apply ceq_refl. }
        exists (S k2). rewrite <- app_assoc. apply via_acc. eapply via_mono; [|exact Hv]. intros i y. apply Hpe.
    Qed.

    Lemma quant_begun_at e q : has_empty e = false -> begun_complete_at e -> begun_complete_at (EGroup e (Some q)).
    Proof.
      intros Hne He n s t c u Hp Hz Hu Hnil. pose proof Hp as (Hs & _). cbn [size] in Hz.
      destruct (quant_begun e q Hne He n s t Hp (inc s c) u) as (k & Ha).
      - intros i Hqi Hr. unfold inc. destruct (Nat.eqb_spec i s); [lia|]. apply Hz; [assumption|lia].
      - assumption.
      - exists k, IEps, n. split; [cbn; auto|]. exact Ha.
    Qed.

    Lemma lit_begun l : begun_complete_at (ELit l None).
    Proof.
      intros n s t c u Hp Hz [->|(x & -> & Hx)] Hne; [congruence|]. exists 0, (ILit l), t. split; [left; reflexivity|].
      exists x, []. split; [reflexivity|]. split; [apply lit_spec; assumption|]. split; [reflexivity|apply HF].
    Qed.

    Lemma expr_begun : forall e, has_empty e = false -> begun_complete_at e.
    Proof.
      induction e as [|e IH|e e2 es IH1 IH2| |l r IHl IHr|l q|e q IH] using expr_seq_ind; intros Hne.
      - discriminate.
      - intros n s t c u Hp Hz Hu Hnil. cbn in Hne. rewrite orb_false_r in Hne. rewrite begun_single in Hu.
        exact (IH Hne n s t c u Hp Hz Hu Hnil).
      - intros n s t c u Hp Hz Hu Hnil. rewrite size_seq in Hz. pose proof Hp as (Hs & _).
        change (has_empty (EConcat (e :: e2 :: es))) with (has_empty e || has_empty (EConcat (e2 :: es))) in Hne.
        apply orb_false_iff in Hne. destruct Hne as [Hn1 Hn2].
        destruct (placed_seq _ _ _ _ _ _ Hp) as (Hp1 & Hp2 & Hout & Hnq).
        assert (Hex : exists k, via (fun x => In x (edges e (S n) s n)) k s c u).
        { apply begun_seq in Hu. destruct Hu as [Hu|(u1 & u2 & -> & H1 & H2)].
          - apply (IH1 Hn1 (S n) s n c u Hp1); [|assumption|assumption]. intros i Hi Hr. apply Hz; [assumption|lia].
          - destruct (accs_begun (EConcat (e2 :: es)) (S n + size e) n t (inc s c) u2 (IH2 Hn2) Hp2) as (k1 & Ha).
            { intros i Hi Hr. unfold inc. destruct (Nat.eqb_spec i s); [lia|]. apply Hz; [assumption|lia]. }
            { intros i y. apply Hp2. }
            { assumption. }
            apply (expr_complete e Hn1 (S n) s n k1 c (inc s c) u1 u2 Hp1); auto.
            { intros i Hi Hr. apply Hz; [assumption|lia]. }
            { apply ceq_refl. } }
        destruct Hex as (k & Hv). exists k. eapply via_mono; [|exact Hv]. intros i y H. rewrite edges_seq. apply in_or_app. auto.
      - intros n s t c u Hp Hz -> Hnil. congruence.
      - intros n s t c u Hp Hz Hu Hnil. cbn [size] in Hz.
        destruct (placed_alt _ _ _ _ _ Hp) as [Hpl Hpr]. cbn in Hne. apply orb_false_iff in Hne. destruct Hne as [Hn1 Hn2].
        destruct Hu as [Hu|Hu].
        + destruct (IHl Hn1 n s t c u Hpl) as (k & Hv); auto.
          { intros j Hj Hr. apply Hz; [assumption|lia]. }
          exists k. eapply via_mono; [|exact Hv]. intros i y H. cbn. apply in_or_app. auto.
        + destruct (IHr Hn2 (n + size l) s t c u Hpr) as (k & Hv); auto.
          { intros j Hj Hr. apply Hz; [assumption|lia]. }
          exists k. eapply via_mono; [|exact Hv]. intros i y H. cbn. apply in_or_app. auto.
      - destruct q as [q|]; [|apply lit_begun]. intros n s t c u Hp Hz Hu. rewrite begun_lit in Hu.
        exact (quant_begun_at (ELit l None) q eq_refl (lit_begun l) n s t c u Hp Hz Hu).
      - cbn in Hne. destruct q as [q|]; [apply quant_begun_at; auto|]. exact (IH Hne).
    Qed.

    Definition static_begun_at (e : expr) : Prop := forall n s t u,
      placed e n s t -> impl_begun e u -> u <> [] -> exists k, svia (fun x => In x (edges e n s t)) k s u.

    Lemma first_svia e n s t c0 u v : has_empty e = false -> placed e n s t -> lit_first e u \/ rep_first e u ->
      (forall c, c = inc s zero \/ c = c0 -> accs t c v) -> c0 = zero -> exists k, svia (fun x => In x (edges e n s t)) k s (u ++ v).
    Proof.
      intros Hne Hp Hu Ha ->. destruct (expr_static_complete e Hne n s t Hp) as (H1 & H2 & _). destruct Hu as [Hu|Hu].
      - apply (H1 (inc s zero)); [assumption|apply Ha; auto|apply ceq_refl].
      - apply (H2 zero); [assumption|apply Ha; auto|apply ceq_refl].
    Qed.

    Lemma quant_static_begun e q : has_empty e = false -> static_begun_at e -> static_begun_at (EGroup e (Some q)).
    Proof.
      intros Hne He n s t u Hp Hu Hnil. pose proof Hp as (Hs & _).
      destruct (placed_quant _ _ _ _ _ Hp) as (Hpe & Hq & Hi & Hisq & Hout).
      assert (Hex : exists k, svia (fun x => In x (edges e (S n) n n)) k n u).
      { destruct Hu as [Hu|(u1 & u2 & -> & H1 & H2)]; [exact (He (S n) n n u Hpe Hu Hnil)|].
        apply (first_svia e (S n) n n zero); auto. intros c Hc. eapply quant_begun; [exact Hne|apply expr_begun; exact Hne|exact Hp| |exact H2].
        intros i _ Hr. destruct Hc as [-> | ->]; [|reflexivity]. unfold inc, zero. destruct (Nat.eqb_spec i n); [lia|reflexivity]. }
      destruct Hex as (k & Hv). exists (S k). right. exists IEps, n. split; [cbn; auto|]. split; [exact I|].
      apply svia_sacc. eapply svia_mono; [|exact Hv]. intros i y. apply Hpe.
    Qed.

    Lemma expr_static_begun : forall e, has_empty e = false -> static_begun_at e.
    Proof.
      assert (Hlit : forall l, static_begun_at (ELit l None)).
      { intros l n s t u Hp [->|(x & -> & Hx)] Hnil; [congruence|]. exists 0. left. exists l, t, x, []. split; [left; reflexivity|].
        split; [reflexivity|]. split; [apply lit_spec; assumption|]. exists 0. split; [reflexivity|apply HF]. }
      induction e as [|e IH|e e2 es IH1 IH2| |l r IHl IHr|l q|e q IH] using expr_seq_ind; intros Hne.
      - discriminate.
      - cbn in Hne. rewrite orb_false_r in Hne. intros n s t u Hp Hu Hnil. apply impl_begun_seq in Hu.
        destruct Hu as [Hu|[(u1 & u2 & -> & H1 & H2)|[_ Hu]]]; [exact (IH Hne n s t u Hp Hu Hnil)| |cbn in Hu; congruence].
        cbn in H2. subst u2. apply (first_svia e n s t zero); auto. intros c _. exists 0. split; [reflexivity|apply HF].
      - change (has_empty (EConcat (e :: e2 :: es))) with (has_empty e || has_empty (EConcat (e2 :: es))) in Hne.
        apply orb_false_iff in Hne. destruct Hne as [Hn1 Hn2].
        intros n s t u Hp Hu Hnil. pose proof Hp as (Hs & _).
        destruct (placed_seq _ _ _ _ _ _ Hp) as (Hp1 & Hp2 & Hout & Hnq).
        assert (Hex : exists k, svia (fun x => In x (edges e (S n) s n)) k s u).
        { apply impl_begun_seq in Hu. destruct Hu as [Hu|[(u1 & u2 & -> & H1 & H2)|[Hsk Hu]]].
          - exact (IH1 Hn1 (S n) s n u Hp1 Hu Hnil).
          - apply (first_svia e (S n) s n zero); auto. intros c Hc.
            eapply accs_begun; [apply expr_begun; exact Hn2|exact Hp2| | |exact H2].
            + intros i _ Hr. destruct Hc as [-> | ->]; [|reflexivity]. unfold inc, zero. destruct (Nat.eqb_spec i s); [lia|reflexivity].
            + intros i y. apply Hp2.
          - destruct (IH2 Hn2 (S n + size e) n t u Hp2 Hu Hnil) as (k & Hv).
            destruct (expr_static_complete e Hn1 (S n) s n Hp1) as (_ & _ & A3).
            apply (A3 (S k) u Hsk). apply svia_sacc. eapply svia_mono; [|exact Hv]. intros i y. apply Hp2. }
        destruct Hex as (k & Hv). exists k. eapply svia_mono; [|exact Hv]. intros i y Hi. rewrite edges_seq. apply in_or_app. auto.
      - intros n s t u Hp -> Hnil. congruence.
      - cbn in Hne. apply orb_false_iff in Hne. destruct Hne as [Hn1 Hn2]. intros n s t u Hp Hu Hnil.
        destruct (placed_alt _ _ _ _ _ Hp) as [Hpl Hpr]. destruct Hu as [Hu|Hu];
          [destruct (IHl Hn1 n s t u Hpl Hu Hnil) as (k & Hv)|destruct (IHr Hn2 (n + size l) s t u Hpr Hu Hnil) as (k & Hv)];
          exists k; (eapply svia_mono; [|exact Hv]); intros i y Hi; cbn; apply in_or_app; auto.
      - destruct q as [q|]; [|apply Hlit].
        intros n s t u Hp Hu Hnil. apply (quant_static_begun (ELit l None) q eq_refl (Hlit l) n s t u Hp); [|assumption].
        destruct Hu as ([|j] & Hu); [cbn in Hu; congruence|]. destruct Hu as (u1 & u2 & -> & H1 & H2). right. exists u1, u2.
        split; [reflexivity|]. split; [left; exact H1|]. apply begun_lit. exists j. exact H2.
      - cbn in Hne. destruct q as [q|]; [apply quant_static_begun; auto|]. exact (IH Hne).
    Qed.
  End Everywhere.
End Graph.

(** ** Correctly matched regexes *)
Section Lead.
  Context {env : Env}.

  Lemma may_skip_skippable : forall e, may_skip e = true <-> skippable e.
  Proof.
    induction e as [es IH| |l r IHl IHr|l q|e q IH] using expr_ind'; cbn [may_skip skippable].
    - induction IH as [|e es He Hes IHes]; [tauto|]. rewrite andb_true_iff, He, IHes. tauto.
    - tauto.
    - rewrite orb_true_iff. tauto.
    - destruct q; [apply satisfied_allowed|split; [discriminate|tauto]].
    - destruct q; [apply satisfied_allowed|assumption].
  Qed.

  Lemma nullable_spec : forall e, nullable e = true <-> lang e [].
  Proof.
    assert (Hcat : forall L1 L2 : list char -> Prop, lang_cat L1 L2 [] <-> L1 [] /\ L2 []).
    { intros L1 L2. split.
      - intros (u & v & E & H1 & H2). symmetry in E. apply app_eq_nil in E. destruct E; subst. auto.
      - intros [H1 H2]. exists [], []. auto. }
    assert (Hpow0 : forall (L : list char -> Prop) n, L [] -> lang_pow L n []).
    { induction n; cbn; [auto|]. intros. apply Hcat. auto. }
    induction e as [es IH| |l r IHl IHr|l q|e q IH] using expr_ind'; cbn [nullable lang].
    - induction IH as [|e es He Hes IHes]; [tauto|]. rewrite andb_true_iff, He, IHes, Hcat. tauto.
    - tauto.
    - rewrite orb_true_iff, IHl, IHr. tauto.
    - destruct q as [q|]; cbn [lang_quant].
      + rewrite satisfied_allowed. split.
        * intros H. exists 0. split; [assumption|reflexivity].
        * intros ([|n] & Ha & H); [assumption|]. cbn in H. apply Hcat in H. destruct H as ((c & [=] & _) & _).
      + split; [discriminate|]. intros (c & [=] & _).
    - destruct q as [q|]; cbn [lang_quant]; [|assumption].
      rewrite orb_true_iff, andb_true_iff, satisfied_allowed. split.
      + intros [H|[H Hq]]; [exists 0; split; [assumption|reflexivity]|].
        apply IH in H. destruct q as [| | |m|m|a b].
        * exists 0. split; [exact I|reflexivity].
        * exists 1. split; [cbn; lia|]. apply Hpow0; assumption.
        * exists 0. split; [cbn; lia|]. reflexivity.
        * exists (N.to_nat m). split; [cbn; lia|]. apply Hpow0; assumption.
        * exists (N.to_nat m). split; [cbn; lia|]. apply Hpow0; assumption.
        * cbn in Hq. apply N.leb_le in Hq. exists (N.to_nat a). split; [cbn; lia|]. apply Hpow0; assumption.
      + intros ([|n] & Ha & H); [auto|]. cbn in H. apply Hcat in H. right. split; [apply IH, H|].
        destruct q; try reflexivity. cbn in *. apply N.leb_le. lia.
  Qed.

  Lemma skippable_lang : forall e, skippable e -> lang e [].
  Proof.
    induction e as [es IH| |l r IHl IHr|l q|e q IH] using expr_ind'; cbn [skippable lang].
    - induction IH as [|e es He Hes IHes]; [reflexivity|]. intros [H1 H2]. exists [], [].
      split; [reflexivity|]. split; [apply He|apply IHes]; assumption.
    - reflexivity.
    - intros [H|H]; auto.
    - destruct q as [q|]; [|tauto]. intros H. exists 0. split; [assumption|reflexivity].
    - destruct q as [q|]; [|assumption]. intros H. exists 0. split; [assumption|reflexivity].
  Qed.

  Lemma lit_first_lang : forall e w, lit_first e w -> lang e w.
  Proof.
    induction e as [|e IH|e e2 es IH1 IH2| |l r IHl IHr|l q|e q IH] using expr_seq_ind; intros w H.
    - destruct H.
    - rewrite lang_single. rewrite lit_first_single in H. auto.
    - apply lang_seq. apply lit_first_seq in H. destruct H as (u & v & -> & H1 & H2). exists u, v.
      split; [reflexivity|]. split; [apply IH1; assumption|exact H2].
    - destruct H.
    - destruct H; [left|right]; auto.
    - destruct q; [destruct H|]. exact H.
    - destruct q; [destruct H|]. apply IH. exact H.
  Qed.

  Lemma lit_start_spec : forall e, lit_start e = true ->
    (forall w, lang e w -> lit_first e w) /\ (forall w, ~ rep_first e w) /\ ~ skippable e.
  Proof.
    induction e as [|e IH|e e2 es IH1 _| |l r IHl IHr|l q|e q IH] using expr_seq_ind; intros H; try discriminate.
    - destruct (IH H) as (A & B & C). split; [|split].
      + intros w. rewrite lang_single, lit_first_single. apply A.
      + intros w. rewrite rep_first_single. apply B.
      + intros [Hs _]. auto.
    - destruct (IH1 H) as (A & B & C). split; [|split].
      + intros w. rewrite lang_seq, lit_first_seq. intros (u & v & -> & Hu & Hv). exists u, v. auto.
      + intros w. rewrite rep_first_seq. intros [(u & v & -> & Hu & _)|[Hs _]]; [eapply B; eassumption|auto].
      + intros [Hs _]. auto.
    - cbn in H. apply andb_true_iff in H. destruct H as [H1 H2].
      destruct (IHl H1) as (A & B & C), (IHr H2) as (A' & B' & C'). split; [|split].
      + intros w [Hw|Hw]; [left|right]; auto.
      + intros w [Hw|Hw]; [eapply B|eapply B']; eassumption.
      + intros [Hs|Hs]; auto.
    - destruct q; [discriminate|]. split; [|split]; cbn; auto.
    - destruct q; [discriminate|]. exact (IH H).
  Qed.

  Lemma any_count_allowed q n : any_count q = true -> allowed q n.
  Proof. destruct q; cbn; try discriminate; [auto|]. intros H. apply N.eqb_eq in H. lia. Qed.

  Lemma rep_first_pow e w n q : allowed q (S n) -> lang_cat (lang e) (lang_pow (lang e) n) w -> lang (EGroup e (Some q)) w.
  Proof. intros Ha H. exists (S n). split; assumption. Qed.

  Lemma lead_rep : forall e w, lead_ok e = true -> rep_first e w -> lang e w.
  Proof.
    induction e as [|e IH|e e2 es IH1 IH2| |l r IHl IHr|l q|e q IH] using expr_seq_ind; intros w Hl H.
    - destruct H.
    - cbn in Hl. apply andb_true_iff in Hl. rewrite lang_single. rewrite rep_first_single in H. apply IH; [apply Hl|assumption].
    - change (lead_ok (EConcat (e :: e2 :: es))) with (lead_ok e && (negb (may_skip e) || lead_ok (EConcat (e2 :: es)))) in Hl.
      apply andb_true_iff in Hl. destruct Hl as [Hl1 Hl2]. apply lang_seq. apply rep_first_seq in H.
      destruct H as [(u & v & -> & Hu & Hv)|(Hs & H)].
      + exists u, v. auto.
      + exists [], w. split; [reflexivity|]. split; [apply skippable_lang; assumption|].
        destruct H as [H|H]; [apply lit_first_lang; assumption|]. apply IH2; [|assumption].
        apply may_skip_skippable in Hs. rewrite Hs in Hl2. exact Hl2.
    - destruct H.
    - cbn in Hl. apply andb_true_iff in Hl. destruct Hl. destruct H; [left|right]; auto.
    - destruct q as [q|]; [|destruct H]. destruct H as (n & Ha & H). exists (S n). auto.
    - destruct q as [q|]; [|apply IH; assumption]. cbn [lead_ok] in Hl. apply andb_true_iff in Hl. destruct Hl as [Hl Hc].
      destruct H as [(n & Ha & u & v & -> & Hu & Hv)|(n & Ha & u & v & -> & Hu & Hv)].
      + eapply rep_first_pow; [exact Ha|]. exists u, v. split; [reflexivity|]. split; [apply lit_first_lang; assumption|assumption].
      + apply orb_true_iff in Hc. destruct Hc as [Hc|Hc].
        * apply lit_start_spec in Hc. destruct Hc as (_ & Hc & _). apply Hc in Hu. destruct Hu.
        * apply (rep_first_pow _ _ n); [apply any_count_allowed; exact Hc|]. exists u, v. auto.
  Qed.

  Lemma lead_impl : forall e w, lead_ok e = true -> lang e w -> impl_lang e w.
  Proof.
    unfold impl_lang.
    induction e as [|e IH|e e2 es IH1 IH2| |l r IHl IHr|l q|e q IH] using expr_seq_ind; intros w Hl H.
    - left. split; [exact I|exact H].
    - cbn in Hl. apply andb_true_iff in Hl. rewrite lang_single in H. rewrite lit_first_single, rep_first_single.
      destruct (IH w (proj1 Hl) H) as [[Hs ->]|Hw]; [|auto]. left. split; [split; [assumption|exact I]|reflexivity].
    - change (lead_ok (EConcat (e :: e2 :: es))) with (lead_ok e && (negb (may_skip e) || lead_ok (EConcat (e2 :: es)))) in Hl.
      apply andb_true_iff in Hl. destruct Hl as [Hl1 Hl2]. apply lang_seq in H. destruct H as (u & v & -> & Hu & Hv).
      destruct (IH1 u Hl1 Hu) as [[Hs ->]|[H|H]].
      + pose proof (proj2 (may_skip_skippable e) Hs) as Hs'. rewrite Hs' in Hl2. cbn [app].
        destruct (IH2 v Hl2 Hv) as [[Hs2 ->]|H].
        * left. split; [split; assumption|reflexivity].
        * right. right. apply rep_first_seq. auto.
      + right. left. apply lit_first_seq. exists u, v. auto.
      + right. right. apply rep_first_seq. left. exists u, v. auto.
    - left. split; [exact I|exact H].
    - cbn in Hl. apply andb_true_iff in Hl. destruct Hl as [Hl1 Hl2]. destruct H as [H|H].
      + destruct (IHl w Hl1 H) as [[Hs ->]|[Hw|Hw]]; cbn; auto.
      + destruct (IHr w Hl2 H) as [[Hs ->]|[Hw|Hw]]; cbn; auto.
    - destruct q as [q|]; [|right; left; exact H]. destruct H as ([|n] & Ha & H).
      + left. split; [exact Ha|exact H].
      + right. right. exists n. auto.
    - destruct q as [q|]; [|apply IH; assumption]. cbn [lead_ok] in Hl. apply andb_true_iff in Hl. destruct Hl as [Hl Hc].
      destruct H as (n & Ha & H). revert w Ha H. induction n as [|n IHn]; intros w Ha H.
      + left. split; [exact Ha|exact H].
      + destruct H as (u & v & -> & Hu & Hv). destruct (IH u Hl Hu) as [[Hs ->]|[Hw|Hw]].
        * apply orb_true_iff in Hc. destruct Hc as [Hc|Hc].
          -- apply lit_start_spec in Hc. destruct Hc as (_ & _ & Hc). contradiction.
          -- apply IHn; [apply any_count_allowed; assumption|assumption].
        * right. right. left. exists n. split; [assumption|]. exists u, v. auto.
        * apply orb_true_iff in Hc. destruct Hc as [Hc|Hc].
          -- apply lit_start_spec in Hc. destruct Hc as (_ & Hc & _). apply Hc in Hw. destruct Hw.
          -- right. right. right. exists n. split; [apply any_count_allowed; assumption|]. exists u, v. auto.
  Qed.

  Lemma impl_lang_lead e w : lead_ok e = true -> impl_lang e w <-> lang e w.
  Proof.
    intros H. split; [|apply lead_impl; assumption].
    intros [[Hs ->]|[Hw|Hw]]; [apply skippable_lang|apply lit_first_lang|apply lead_rep]; assumption.
  Qed.

  Lemma first_begun : forall e u, lit_first e u \/ rep_first e u -> impl_begun e u.
  Proof.
    induction e as [|e IH|e e2 es IH1 IH2| |l r IHl IHr|l q|e q IH] using expr_seq_ind; intros u H.
    - destruct H as [[]|[]].
    - rewrite lit_first_single, rep_first_single in H. left. apply IH. exact H.
    - rewrite lit_first_seq, rep_first_seq in H. apply impl_begun_seq.
      destruct H as [(u1 & u2 & -> & H1 & H2)|[(u1 & u2 & -> & H1 & H2)|[Hs H]]].
      + right. left. exists u1, u2. split; [reflexivity|]. split; [auto|apply lang_begun; assumption].
      + right. left. exists u1, u2. split; [reflexivity|]. split; [auto|apply lang_begun; assumption].
      + right. right. split; [assumption|]. apply IH2. exact H.
    - destruct H as [[]|[]].
    - destruct H as [[H|H]|[H|H]]; [left|right|left|right]; auto.
    - destruct q as [q|]; [|destruct H as [H|[]]; right; exact H]. destruct H as [[]|(n & _ & H)]. exists (S n). exact H.
    - destruct q as [q|]; [|apply IH; exact H]. destruct H as [[]|H].
      assert (Hb : forall n v, lang_pow (lang e) n v -> begun (EGroup e (Some q)) v).
      { intros n v Hv. exists n, v, []. split; [rewrite app_nil_r; reflexivity|]. split; [assumption|apply begun_nil]. }
      destruct H as [(n & _ & u1 & u2 & -> & H1 & H2)|(n & _ & u1 & u2 & -> & H1 & H2)]; right; exists u1, u2; eauto.
  Qed.
  Lemma impl_lang_begun e u : impl_lang e u -> impl_begun e u.
  Proof. intros [[_ ->]|H]; [apply impl_begun_nil|apply first_begun; exact H]. Qed.

  Lemma lead_begun : forall e, lead_ok e = true -> forall w, impl_begun e w <-> begun e w.
  Proof.
    induction e as [|e IH|e e2 es IH1 IH2| |l r IHl IHr|l q|e q IH] using expr_seq_ind; intros Hl w.
    - reflexivity.
    - rewrite begun_single. cbn in Hl. apply andb_true_iff in Hl. destruct Hl as [Hl _]. rewrite <- (IH Hl). rewrite impl_begun_seq. split; [|auto].
      intros [H|[(u & v & -> & H & E)|[_ ->]]]; [assumption| |apply impl_begun_nil]. cbn in E. subst v. rewrite app_nil_r. apply first_begun. exact H.
    - change (lead_ok (EConcat (e :: e2 :: es))) with (lead_ok e && (negb (may_skip e) || lead_ok (EConcat (e2 :: es)))) in Hl.
      apply andb_true_iff in Hl. destruct Hl as [Hl1 Hl2]. rewrite impl_begun_seq, begun_seq, (IH1 Hl1). split.
      + intros [H|[(u & v & -> & H & Hv)|[Hs H]]]; [auto| |].
        * right. exists u, v. split; [reflexivity|]. split; [|assumption].
          destruct H; [apply lit_first_lang|apply lead_rep]; assumption.
        * right. exists [], w. split; [reflexivity|]. split; [apply skippable_lang; assumption|].
          apply may_skip_skippable in Hs. rewrite Hs in Hl2. apply IH2; assumption.
      + intros [H|(u & v & -> & Hu & Hv)]; [auto|]. destruct (lead_impl e u Hl1 Hu) as [[Hs ->]|H].
        * right. right. split; [assumption|]. apply may_skip_skippable in Hs. rewrite Hs in Hl2. apply IH2; assumption.
        * right. left. exists u, v. auto.
    - reflexivity.
    - cbn in Hl. apply andb_true_iff in Hl. destruct Hl as [Hl1 Hl2]. cbn. rewrite (IHl Hl1), (IHr Hl2). reflexivity.
    - reflexivity.
    - destruct q as [q|]; [|apply IH; exact Hl]. cbn [lead_ok] in Hl. apply andb_true_iff in Hl. destruct Hl as [Hl _]. split.
      + intros [H|(u & v & -> & H & n & v1 & v2 & -> & H1 & H2)].
        * exists 0, [], w. split; [reflexivity|]. split; [reflexivity|]. apply IH; assumption.
        * exists (S n), (u ++ v1), v2. split; [apply app_assoc|]. split; [|assumption]. exists u, v1. split; [reflexivity|]. split; [|assumption].
          destruct H; [apply lit_first_lang|apply lead_rep]; assumption.
      + intros (n & u & v & -> & Hu & Hv). revert u Hu. induction n as [|n IHn]; intros u Hu.
        * cbn in Hu. subst u. left. apply IH; assumption.
        * destruct Hu as (u1 & u2 & -> & H1 & H2). destruct (lead_impl e u1 Hl H1) as [[Hs ->]|H]; [apply IHn; exact H2|].
          right. exists u1, (u2 ++ v). split; [symmetry; apply app_assoc|]. split; [assumption|]. exists n, u2, v. auto.
  Qed.

  Lemma app_split {A} (x y u v : list A) : u ++ v = x ++ y -> (exists z, u = x ++ z) \/ exists z, x = u ++ z /\ v = z ++ y.
  Proof.
    revert x. induction u as [|a u IH]; intros x E.
    - right. exists x. auto.
    - destruct x as [|b x]; [left; exists (a :: u); reflexivity|]. injection E as -> E. destruct (IH x E) as [(z & ->)|(z & -> & H)]; [left|right]; exists z; auto.
  Qed.

  Lemma begun_app : forall e x y, begun e (x ++ y) -> begun e x.
  Proof.
    induction e as [|e IH|e e2 es IH1 IH2| |l r IHl IHr|l q|e q IH] using expr_seq_ind; intros x y H.
    - apply app_eq_nil in H. apply H.
    - rewrite begun_single in *. eauto.
    - rewrite begun_seq in *. destruct H as [H|(u & v & E & Hu & Hv)]; [eauto|].
      destruct (app_split _ _ _ _ (eq_sym E)) as [(z & ->)|(z & -> & ->)]; [left; apply lang_begun in Hu; eauto|]. right. exists u, z. eauto.
    - apply app_eq_nil in H. apply H.
    - destruct H as [H|H]; [left|right]; eauto.
    - destruct q as [q|].
      + destruct H as (n & H). revert x H. induction n as [|n IHn]; intros x H.
        * cbn in H. apply app_eq_nil in H. exists 0. apply H.
        * destruct H as (u & v & E & (c & -> & Hc) & Hv). destruct x as [|a x]; [exists 0; reflexivity|]. injection E as -> E. rewrite <- E in Hv.
          destruct (IHn x Hv) as (j & Hj). exists (S j), [c], x. eauto.
      + destruct H as [H|(c & H & Hc)]; [apply app_eq_nil in H; left; apply H|]. destruct x as [|a [|b x]]; [left; reflexivity| |discriminate].
        injection H as -> _. right. eauto.
    - destruct q as [q|]; [|eapply IH; exact H]. destruct H as (n & u & v & E & Hu & Hv). revert x u E Hu. induction n as [|n IHn]; intros x u E Hu.
      + cbn in Hu. subst u. cbn in E. subst v. exists 0, [], x. split; [reflexivity|]. split; [reflexivity|eauto].
      + destruct Hu as (u1 & u2 & -> & H1 & H2). rewrite <- app_assoc in E.
        destruct (app_split _ _ _ _ (eq_sym E)) as [(z & ->)|(z & -> & Ez)].
        * exists 0, [], x. split; [reflexivity|]. split; [reflexivity|]. apply lang_begun in H1. eauto.
        * destruct (IHn z u2 (eq_sym Ez) H2) as (j & v1 & v2 & -> & Hj & Hv2). exists (S j), (u1 ++ v1), v2. split; [apply app_assoc|].
          split; [exists u1, v1; auto|assumption].
  Qed.

  Lemma impl_begun_app : forall e x y, impl_begun e (x ++ y) -> impl_begun e x.
  Proof.
    induction e as [|e IH|e e2 es IH1 IH2| |l r IHl IHr|l q|e q IH] using expr_seq_ind; intros x y H.
    - apply app_eq_nil in H. apply H.
    - rewrite impl_begun_seq in *. destruct H as [H|[(u & v & E & Hu & Hv)|[Hs H]]]; [eauto| |].
      + destruct (app_split _ _ _ _ (eq_sym E)) as [(z & ->)|(z & -> & ->)]; [left; apply first_begun in Hu; eauto|].
        right. left. exists u, z. split; [reflexivity|]. split; [assumption|]. eapply begun_app; eassumption.
      + right. right. split; [assumption|]. apply app_eq_nil in H. apply H.
    - rewrite impl_begun_seq in *. destruct H as [H|[(u & v & E & Hu & Hv)|[Hs H]]]; [eauto| |].
      + destruct (app_split _ _ _ _ (eq_sym E)) as [(z & ->)|(z & -> & ->)]; [left; apply first_begun in Hu; eauto|].
        right. left. exists u, z. split; [reflexivity|]. split; [assumption|]. eapply begun_app; eassumption.
      + right. right. eauto.
    - apply app_eq_nil in H. apply H.
    - destruct H as [H|H]; [left|right]; eauto.
    - eapply begun_app. exact H.
    - destruct q as [q|]; [|eapply IH; exact H]. destruct H as [H|(u & v & E & Hu & Hv)]; [left; eauto|].
      destruct (app_split _ _ _ _ (eq_sym E)) as [(z & ->)|(z & -> & ->)]; [left; apply first_begun in Hu; eauto|].
      right. exists u, z. split; [reflexivity|]. split; [assumption|]. eapply begun_app. exact Hv.
  Qed.
End Lead.
