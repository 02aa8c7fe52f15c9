(** Whether a regex matches a text, can be fed it or spins on it can be decided. *)
From Verif Require Import Base RegexModel SpecRegex RegexProofs NfaModel SpecNfa SpecSpin NfaLangProofs.

Definition settles (P : Prop) : Prop := P \/ ~ P.

Lemma settles_and P Q : settles P -> settles Q -> settles (P /\ Q).
Proof. unfold settles. tauto. Qed.
Lemma settles_or P Q : settles P -> settles Q -> settles (P \/ Q).
Proof. unfold settles. tauto. Qed.
Lemma settles_not P : settles P -> settles (~ P).
Proof. unfold settles. tauto. Qed.
Lemma settles_iff P Q : (P <-> Q) -> settles P -> settles Q.
Proof. unfold settles. tauto. Qed.
Lemma settles_true : settles True.
Proof. left. exact I. Qed.
Lemma settles_false : settles False.
Proof. right. exact (fun x => x). Qed.
Lemma settles_nil {A} (w : list A) : settles (w = []).
Proof. destruct w; [left; reflexivity|right; discriminate]. Qed.

(** A first part of a list. *)
Lemma settles_split {A} (P : list A -> list A -> Prop) : (forall u v, settles (P u v)) ->
  forall w, settles (exists u v, w = u ++ v /\ P u v).
Proof.
  intros H w. revert P H. induction w as [|c w IH]; intros P H.
  - destruct (H [] []) as [Hp|Hp]; [left; exists [], []; auto|]. right. intros (u & v & E & Hq). destruct u; [|discriminate]. cbn in E. subst v. contradiction.
  - destruct (H [] (c :: w)) as [Hp|Hp]; [left; exists [], (c :: w); auto|].
    destruct (IH (fun u v => P (c :: u) v) (fun u v => H _ _)) as [(u & v & -> & Hq)|Hq]; [left; exists (c :: u), v; auto|].
    right. intros ([|d u] & v & E & Hr); [cbn in E; subst v; contradiction|]. injection E as <- ->. apply Hq. eauto.
Qed.

(** A number below a bound. *)
Lemma settles_below (P : nat -> Prop) k : (forall n, settles (P n)) -> settles (exists n, n <= k /\ P n).
Proof.
  intros H. induction k as [|k IH].
  - destruct (H 0) as [Hp|Hp]; [left; exists 0; auto|]. right. intros (n & Hn & Hq). assert (n = 0) as -> by lia. contradiction.
  - destruct IH as [(n & Hn & Hp)|IH]; [left; exists n; auto|]. destruct (H (S k)) as [Hp|Hp]; [left; exists (S k); auto|].
    right. intros (n & Hn & Hq). destruct (Nat.eq_dec n (S k)) as [->|Hne]; [contradiction|]. apply IH. exists n. split; [lia|exact Hq].
Qed.

Lemma settles_member {A} (P : A -> Prop) (l : list A) : (forall a, In a l -> settles (P a)) -> settles (exists a, In a l /\ P a).
Proof.
  induction l as [|a l IH]; intros H; [right; intros (a & [] & _)|].
  destruct (H a (or_introl eq_refl)) as [Hp|Hp]; [left; exists a; split; [left; reflexivity|exact Hp]|].
  destruct IH as [(b & Hb & Hq)|IH]; [intros b Hb; apply H; right; exact Hb|left; exists b; split; [right; exact Hb|exact Hq]|].
  right. intros (b & [-> | Hb] & Hq); [contradiction|eauto].
Qed.

(** ** Repetitions *)
Section Powers.
  Variable L : list char -> Prop.
  Hypothesis HL : forall w, settles (L w).

  Lemma settles_cat (L1 L2 : list char -> Prop) w : (forall u, settles (L1 u)) -> (forall u, settles (L2 u)) -> settles (lang_cat L1 L2 w).
  Proof. intros H1 H2. apply settles_split. intros u v. apply settles_and; auto. Qed.

  Lemma settles_pow n : forall w, settles (lang_pow L n w).
  Proof. induction n as [|n IH]; intros w; [apply settles_nil|]. apply settles_cat; assumption. Qed.

  (** More rounds than characters: one round is empty. *)
  Lemma pow_less n : forall w, length w < n -> lang_pow L n w -> lang_pow L (pred n) w.
  Proof using.
    clear HL. induction n as [|n IH]; intros w Hl; [lia|]. intros (u & v & -> & Hu & Hv). cbn [pred].
    destruct u as [|c u]; [exact Hv|]. cbn in Hl. rewrite app_length in Hl. destruct n as [|n]; [lia|].
    exists (c :: u), v. split; [reflexivity|]. split; [exact Hu|]. apply (IH v); [lia|exact Hv].
  Qed.

  Lemma settles_rounds (P : nat -> Prop) c w : (forall n, settles (P n)) -> (forall n, c < n -> P n -> P (pred n)) ->
    settles (exists n, P n /\ lang_pow L n w).
  Proof.
    intros H Hc. apply (settles_iff (exists n, n <= Nat.max c (length w) /\ P n /\ lang_pow L n w)).
    - split; [intros (n & _ & Hn); eauto|]. intros (n & Hn & Hw). induction n as [|n IH]; [exists 0; split; [lia|auto]|].
      destruct (Nat.le_gt_cases (S n) (Nat.max c (length w))) as [Hl|Hl]; [exists (S n); auto|].
      apply IH; [apply (Hc (S n)); [lia|exact Hn]|apply (pow_less (S n)); [lia|exact Hw]].
    - apply settles_below. intros n. apply settles_and; [apply H|apply settles_pow].
  Qed.
End Powers.

Lemma settles_allowed q n : settles (allowed q n).
Proof.
  unfold settles. destruct q as [| | |m|m|a b]; cbn [allowed].
  - auto.
  - destruct (Nat.le_gt_cases 1 n); [auto|right; lia].
  - destruct (Nat.le_gt_cases n 1); [auto|right; lia].
  - destruct (N.eq_dec (N.of_nat n) m); auto.
  - destruct (N.le_gt_cases m (N.of_nat n)); [auto|right; lia].
  - destruct (N.le_gt_cases a (N.of_nat n)); [|right; lia]. destruct (N.le_gt_cases (N.of_nat n) b); [auto|right; lia].
Qed.

Definition floor_of (q : quant) : nat :=
  match q with QAsterisk => 0 | QPlus => 1 | QQuestion => 0 | QMax m => N.to_nat m | QMin m => N.to_nat m | QRange a _ => N.to_nat a end.
Lemma allowed_less q n : floor_of q < n -> allowed q n -> allowed q (pred n).
Proof. destruct q as [| | |m|m|a b]; cbn; intros; try lia. Qed.

Section Languages.
  Context {env : Env}.

  Lemma settles_lit l w : settles (exists c, w = [c] /\ lit_set l c).
  Proof.
    destruct w as [|c [|d w]]; [right; intros (c & E & _); discriminate| |right; intros (c' & E & _); discriminate].
    destruct (lit_contains l c) eqn:E; [left; exists c; split; [reflexivity|apply lit_spec; exact E]|].
    right. intros (d & [= <-] & Hd). apply lit_spec in Hd. congruence.
  Qed.

  Lemma settles_quant q L w : (forall v, settles (L v)) -> settles (lang_quant q L w).
  Proof.
    intros H. destruct q as [q|]; [|apply H]. apply (settles_rounds L H (allowed q) (floor_of q)); [apply settles_allowed|apply allowed_less].
  Qed.

  Lemma settles_lang e : forall w, settles (lang e w).
  Proof.
    induction e as [es IH| |l r IHl IHr|l q|e q IH] using expr_ind'; intros w.
    - cbn [lang]. revert w. induction IH as [|e es He _ IHes]; intros w; [apply settles_nil|]. apply settles_cat; assumption.
    - apply settles_nil.
    - apply settles_or; auto.
    - apply settles_quant. intros v. apply settles_lit.
    - apply settles_quant. exact IH.
  Qed.

  Lemma settles_skippable e : settles (skippable e).
  Proof.
    induction e as [es IH| |l r IHl IHr|l q|e q IH] using expr_ind'.
    - cbn [skippable]. induction IH as [|e es He _ IHes]; [apply settles_true|]. apply settles_and; assumption.
    - apply settles_true.
    - apply settles_or; assumption.
    - destruct q; [apply settles_allowed|apply settles_false].
    - destruct q; [apply settles_allowed|exact IH].
  Qed.

  Lemma settles_lit_first e : forall w, settles (lit_first e w).
  Proof.
    induction e as [es IH| |l r IHl IHr|l q|e q IH] using expr_ind'; intros w.
    - cbn [lit_first]. revert w. induction IH as [|e es He _ IHes]; intros w; [apply settles_false|]. apply settles_cat; [exact He|apply settles_lang].
    - apply settles_false.
    - apply settles_or; auto.
    - destruct q; [apply settles_false|apply settles_lit].
    - destruct q; [apply settles_false|apply IH].
  Qed.

  Lemma settles_cat_rounds (A L : list char -> Prop) (P : nat -> Prop) c w : (forall u, settles (A u)) -> (forall u, settles (L u)) ->
    (forall n, settles (P n)) -> (forall n, c < n -> P n -> P (pred n)) -> settles (exists n, P n /\ lang_cat A (lang_pow L n) w).
  Proof.
    intros HA HL HP Hc. apply (settles_iff (lang_cat A (fun v => exists n, P n /\ lang_pow L n v) w)).
    - split; [intros (u & v & -> & Hu & n & Hn & Hv); exists n; split; [exact Hn|exists u, v; auto]|].
      intros (n & Hn & u & v & -> & Hu & Hv). exists u, v. eauto.
    - apply settles_cat; [exact HA|]. intros v. exact (settles_rounds L HL P c v HP Hc).
  Qed.

  Lemma settles_rep_first e : forall w, settles (rep_first e w).
  Proof.
    induction e as [es IH| |l r IHl IHr|l q|e q IH] using expr_ind'; intros w.
    - cbn [rep_first]. revert w. induction IH as [|e es He _ IHes]; intros w; [apply settles_false|].
      apply settles_or; [apply settles_cat; [exact He|apply settles_lang]|]. apply settles_and; [apply settles_skippable|].
      apply settles_or; [apply settles_lit_first|apply IHes].
    - apply settles_false.
    - apply settles_or; auto.
    - destruct q as [q|]; [|apply settles_false]. cbn [rep_first].
      apply (settles_iff (exists n, allowed q (S n) /\ lang_cat (fun w => exists c, w = [c] /\ lit_set l c) (lang_pow (fun w => exists c, w = [c] /\ lit_set l c) n) w)); [reflexivity|].
      apply (settles_cat_rounds _ _ _ (floor_of q)); [apply settles_lit|apply settles_lit|intros n; apply settles_allowed|].
      intros n Hn Ha. assert (n = S (pred n)) by lia. rewrite <- H. apply (allowed_less q (S n)); [lia|exact Ha].
    - destruct q as [q|]; [|apply IH]. cbn [rep_first]. apply settles_or.
      + apply (settles_cat_rounds _ _ _ (floor_of q)); [apply settles_lit_first|apply settles_lang|intros n; apply settles_allowed|].
        intros n Hn Ha. assert (n = S (pred n)) by lia. rewrite <- H. apply (allowed_less q (S n)); [lia|exact Ha].
      + apply (settles_cat_rounds _ _ _ (floor_of q)); [exact IH|apply settles_lang|intros n; apply settles_allowed|apply allowed_less].
  Qed.

  Lemma settles_impl_lang e w : settles (impl_lang e w).
  Proof.
    apply settles_or; [apply settles_and; [apply settles_skippable|apply settles_nil]|].
    apply settles_or; [apply settles_lit_first|apply settles_rep_first].
  Qed.

  Lemma settles_rounds_cat (L B : list char -> Prop) w : (forall u, settles (L u)) -> (forall u, settles (B u)) ->
    settles (exists n, lang_cat (lang_pow L n) B w).
  Proof.
    intros HL HB. apply (settles_iff (lang_cat (fun u => exists n, True /\ lang_pow L n u) B w)).
    - split; [intros (u & v & -> & (n & _ & Hn) & Hv); exists n, u, v; auto|]. intros (n & u & v & -> & Hu & Hv). exists u, v. eauto.
    - apply settles_cat; [|exact HB]. intros u. apply (settles_rounds L HL (fun _ => True) 0); [intros n; apply settles_true|auto].
  Qed.

  Lemma settles_begun e : forall w, settles (begun e w).
  Proof.
    induction e as [es IH| |l r IHl IHr|l q|e q IH] using expr_ind'; intros w.
    - cbn [begun]. revert w. induction IH as [|e es He _ IHes]; intros w; [apply settles_nil|].
      apply settles_or; [apply He|apply settles_cat; [apply settles_lang|exact IHes]].
    - apply settles_nil.
    - apply settles_or; auto.
    - destruct q as [q|]; cbn [begun]; [|apply settles_or; [apply settles_nil|apply settles_lit]].
      apply (settles_iff (exists n, True /\ lang_pow (fun w => exists c, w = [c] /\ lit_set l c) n w)); [firstorder|].
      apply (settles_rounds _ (settles_lit l) (fun _ => True) 0); [intros n; apply settles_true|auto].
    - destruct q as [q|]; [|apply IH]. apply settles_rounds_cat; [apply settles_lang|exact IH].
  Qed.

  Lemma settles_impl_begun e : forall w, settles (impl_begun e w).
  Proof.
    induction e as [es IH| |l r IHl IHr|l q|e q IH] using expr_ind'; intros w.
    - cbn [impl_begun]. revert w. induction IH as [|e es He _ IHes]; intros w; [apply settles_nil|].
      apply settles_or; [apply He|]. apply settles_or; [|apply settles_and; [apply settles_skippable|apply IHes]].
      apply settles_cat; [intros u; apply settles_or; [apply settles_lit_first|apply settles_rep_first]|apply settles_begun].
    - apply settles_nil.
    - apply settles_or; auto.
    - apply settles_begun.
    - destruct q as [q|]; [|apply IH]. cbn [impl_begun]. apply settles_or; [apply IH|].
      apply settles_cat; [intros u; apply settles_or; [apply settles_lit_first|apply settles_rep_first]|apply settles_begun].
  Qed.

  Lemma settles_spins e : forall w, settles (spins e w).
  Proof.
    induction e as [es IH| |l r IHl IHr|l q|e q IH] using expr_ind'; intros w.
    - cbn [spins]. revert w. induction IH as [|e es He _ IHes]; intros w; [apply settles_false|].
      apply settles_or; [apply He|apply settles_cat; [apply settles_lang|exact IHes]].
    - apply settles_false.
    - apply settles_or; auto.
    - apply settles_false.
    - destruct q as [q|]; [|apply IH]. apply settles_rounds_cat; [apply settles_lang|].
      intros u. apply settles_or; [apply settles_and; [apply settles_nil|apply settles_lang]|apply IH].
  Qed.

  Lemma settles_impl_spins e : forall w, settles (impl_spins e w).
  Proof.
    induction e as [es IH| |l r IHl IHr|l q|e q IH] using expr_ind'; intros w.
    - cbn [impl_spins]. revert w. induction IH as [|e es He _ IHes]; intros w; [apply settles_false|].
      apply settles_or; [apply He|]. apply settles_or; [|apply settles_and; [apply settles_skippable|apply IHes]].
      apply settles_cat; [intros u; apply settles_or; [apply settles_lit_first|apply settles_rep_first]|apply settles_spins].
    - apply settles_false.
    - apply settles_or; auto.
    - apply settles_false.
    - destruct q as [q|]; [|apply IH]. cbn [impl_spins]. apply settles_or; [apply IH|].
      apply settles_cat; [intros u; apply settles_or; [apply settles_lit_first|apply settles_rep_first]|apply settles_spins].
  Qed.

  Lemma settles_spinning e w : settles (spinning e w).
  Proof. unfold spinning. apply settles_split. intros u v. apply settles_impl_spins. Qed.
End Languages.
