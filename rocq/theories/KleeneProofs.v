(** Proofs for C92: patterns match exactly the regular languages. *)
From Verif Require Import Base RegexModel SpecRegex RegexProofs NfaModel SpecNfa NfaCompileProofs NfaLangProofs NfaProofs NfaWitness
  LexerModel SpecPanic RegexParseProofs NfaVecProofs RegexPanicProofs SpecKleene.
From Coq Require Import Lia.

(** ** From regular expressions to patterns *)

Fixpoint has_one (r : rx) : bool :=
  match r with
  | Zero | Sym _ => false
  | One | Star _ => true
  | Plus r s => has_one r || has_one s
  | Times r s => has_one r && has_one s
  end.

(** Nothing, and the empty text. *)
Definition none : expr := ELit (LGroup false []) None.
Definition unit_expr : expr := ELit (LGroup false []) (Some QAsterisk).

(** All words but the empty one. *)
Fixpoint body_of (r : rx) : expr :=
  match r with
  | Zero | One => none
  | Sym l => ELit l None
  | Plus r s => EGroup (EAlt (body_of r) (body_of s)) None
  | Times r s => EGroup (EAlt (EConcat [body_of r; body_of s])
                              (EAlt (if has_one r then body_of s else none) (if has_one s then body_of r else none))) None
  | Star r => EGroup (EConcat [body_of r; EGroup (body_of r) (Some QAsterisk)]) None
  end.

Definition pattern_expr (r : rx) : expr := if has_one r then EAlt (body_of r) unit_expr else body_of r.

Section Kleene.
  Context {env : Env}.

  Lemma has_one_ok r : has_one r = true <-> words r [].
  Proof.
    induction r as [| |l|r IHr s IHs|r IHr s IHs|r IH]; cbn [has_one words].
    - split; [discriminate|contradiction].
    - split; reflexivity.
    - split; [discriminate|]. intros (c & E & _). discriminate.
    - rewrite orb_true_iff, IHr, IHs. reflexivity.
    - rewrite andb_true_iff, IHr, IHs. split.
      + intros [H1 H2]. exists [], []. auto.
      + intros (u & v & E & H1 & H2). symmetry in E. apply app_eq_nil in E. destruct E as [-> ->]. auto.
    - split; [intros _; constructor|reflexivity].
  Qed.

  Lemma none_lang w : ~ lang none w.
  Proof. intros (c & _ & x & [] & _). Qed.

  Lemma unit_lang w : lang unit_expr w <-> w = [].
  Proof.
    split.
    - intros (n & _ & H). destruct n as [|n]; [exact H|]. destruct H as (u & v & _ & (c & _ & x & [] & _) & _).
    - intros ->. exists 0. split; [exact I|reflexivity].
  Qed.

  Lemma pow_star L n : forall w, lang_pow L n w -> star L w.
  Proof. induction n as [|n IH]; intros w H; [cbn in H; subst; constructor|]. destruct H as (u & v & -> & Hu & Hv). constructor; auto. Qed.
  Lemma star_pow L w : star L w -> exists n, lang_pow L n w.
  Proof. induction 1 as [|u v Hu Hv (n & IH)]; [exists 0; reflexivity|]. exists (S n), u, v. auto. Qed.

  Lemma cat2 a b w : lang (EConcat [a; b]) w <-> lang_cat (lang a) (lang b) w.
  Proof.
    split.
    - intros (u & v & -> & Hu & (v1 & v2 & -> & Hv & E)). cbn in E. subst v2. exists u, v1. rewrite app_nil_r. auto.
    - intros (u & v & -> & Hu & Hv). exists u, v. split; auto. split; auto. exists v, []. rewrite app_nil_r. auto.
  Qed.

  (** Empty rounds of a star can be left out. *)
  Lemma star_bodies (L L' : list char -> Prop) w : (forall u, L' u <-> L u /\ u <> []) -> star L w <-> star L' w.
  Proof.
    intros H. split; induction 1 as [|u v Hu Hv IH].
    - constructor.
    - destruct u as [|c u]; [exact IH|]. constructor; auto. apply H. split; [auto|discriminate].
    - constructor.
    - constructor; [apply H; exact Hu|exact IH].
  Qed.
  Lemma star_body (L L' : list char -> Prop) w : (forall u, L' u <-> L u /\ u <> []) -> (star L w /\ w <> []) <-> lang_cat L' (star L') w.
  Proof.
    intros H. rewrite (star_bodies L L' w H). split.
    - intros [Hs Hw]. destruct Hs as [|u v Hu Hv]; [congruence|]. exists u, v. auto.
    - intros (u & v & -> & Hu & Hv). split; [constructor; auto|]. intros E. apply app_eq_nil in E. destruct E as [-> _]. apply H in Hu. tauto.
  Qed.

  Lemma body_lang r : forall w, lang (body_of r) w <-> words r w /\ w <> [].
  Proof.
    induction r as [| |l|r IHr s IHs|r IHr s IHs|r IH]; intros w; cbn [body_of words].
    - split; [intros H; destruct (none_lang _ H)|tauto].
    - split; [intros H; destruct (none_lang _ H)|tauto].
    - split; [|intros [H _]; exact H]. intros H. split; [exact H|]. destruct H as (c & -> & _). discriminate.
    - change (lang (body_of r) w \/ lang (body_of s) w <-> (words r w \/ words s w) /\ w <> []). rewrite IHr, IHs. tauto.
    - change (lang (EConcat [body_of r; body_of s]) w \/
        lang (if has_one r then body_of s else none) w \/ lang (if has_one s then body_of r else none) w <->
        (exists u v, w = u ++ v /\ words r u /\ words s v) /\ w <> []).
      rewrite cat2. split.
      + intros [(u & v & -> & Hu & Hv)|[H|H]].
        * apply IHr in Hu. apply IHs in Hv. split; [exists u, v; tauto|]. intros E. apply app_eq_nil in E. tauto.
        * destruct (has_one r) eqn:E; [|destruct (none_lang _ H)]. apply has_one_ok in E. apply IHs in H. split; [|tauto].
          exists [], w. tauto.
        * destruct (has_one s) eqn:E; [|destruct (none_lang _ H)]. apply has_one_ok in E. apply IHr in H. split; [|tauto].
          exists w, []. rewrite app_nil_r. tauto.
      + intros [(u & v & -> & Hu & Hv) Hw]. destruct u as [|c u].
        * apply has_one_ok in Hu. rewrite Hu. right. left. apply IHs. auto.
        * destruct v as [|d v].
          -- apply has_one_ok in Hv. rewrite Hv, app_nil_r. right. right. rewrite app_nil_r in Hw. apply IHr. auto.
          -- left. exists (c :: u), (d :: v). split; auto. split; [apply IHr|apply IHs]; (split; [auto|discriminate]).
    - change (lang (EConcat [body_of r; EGroup (body_of r) (Some QAsterisk)]) w <-> star (words r) w /\ w <> []).
      rewrite cat2, (star_body (words r) (lang (body_of r)) w IH). split.
      + intros (u & v & -> & Hu & (n & _ & Hn)). exists u, v. split; auto. split; auto. eapply pow_star; eauto.
      + intros (u & v & -> & Hu & Hv). destruct (star_pow _ _ Hv) as (n & Hn). exists u, v. split; auto. split; auto. exists n. split; [exact I|exact Hn].
  Qed.

  Lemma pattern_lang r w : lang (pattern_expr r) w <-> words r w.
  Proof.
    unfold pattern_expr. destruct (has_one r) eqn:E.
    - change (lang (body_of r) w \/ lang unit_expr w <-> words r w). rewrite body_lang, unit_lang. apply has_one_ok in E. split.
      + intros [[H _]| ->]; auto.
      + intros H. destruct w as [|c w]; [right; reflexivity|left]. split; [auto|discriminate].
    - rewrite body_lang. split; [tauto|]. intros H. split; auto. intros ->. apply has_one_ok in H. congruence.
  Qed.

  Lemma body_nullable r : nullable (body_of r) = false.
  Proof.
    destruct (nullable (body_of r)) eqn:E; auto. apply nullable_spec in E. apply body_lang in E. tauto.
  Qed.
End Kleene.

Lemma body_skip r : may_skip (body_of r) = false.
Proof.
  induction r as [| |l|r IHr s IHs|r IHr s IHs|r IH]; cbn [body_of]; auto.
  - cbn [may_skip]. rewrite IHr, IHs. reflexivity.
  - cbn [may_skip]. rewrite IHr. destruct (has_one r); destruct (has_one s); rewrite ?IHs, ?IHr; reflexivity.
  - cbn [may_skip]. rewrite IH. reflexivity.
Qed.

Lemma body_lead r : lead_ok (body_of r) = true.
Proof.
  induction r as [| |l|r IHr s IHs|r IHr s IHs|r IH]; cbn [body_of]; auto.
  - cbn [lead_ok]. rewrite IHr, IHs. reflexivity.
  - cbn [lead_ok]. rewrite IHr, body_skip. cbn [negb orb andb]. destruct (has_one r); destruct (has_one s); rewrite ?IHs, ?IHr; reflexivity.
  - cbn [lead_ok]. rewrite IH, body_skip. reflexivity.
Qed.

Lemma body_loops r : loops_ok (body_of r) = true.
Proof.
  induction r as [| |l|r IHr s IHs|r IHr s IHs|r IH]; cbn [body_of]; auto.
  - cbn [loops_ok]. rewrite IHr, IHs. reflexivity.
  - cbn [loops_ok]. rewrite IHr, IHs. destruct (has_one r); destruct (has_one s); rewrite ?IHs, ?IHr; reflexivity.
  - cbn [loops_ok]. rewrite IH, (body_nullable (env := ascii_env true)). reflexivity.
Qed.

Lemma body_item r : is_item (body_of r).
Proof.
  assert (Hs : forall a, is_item a -> is_sub a) by (intros; constructor; auto).
  assert (Hx : forall a, is_item a -> is_expr a) by (intros; constructor; auto).
  assert (Hn : is_item none) by (constructor; exact I).
  induction r as [| |l|r IHr s IHs|r IHr s IHs|r IH]; cbn [body_of]; auto.
  - constructor. exact I.
  - constructor; [|exact I]. apply is_expr_alt; auto.
  - constructor; [|exact I]. apply is_expr_alt; [apply is_sub_many; auto; constructor|].
    apply is_expr_alt; [destruct (has_one r); auto|destruct (has_one s); auto].
  - constructor; [|exact I]. apply is_expr_sub. apply is_sub_many; auto; [|constructor]. constructor; [auto|exact I].
Qed.

Lemma body_full r : has_empty (body_of r) = false.
Proof.
  induction r as [| |l|r IHr s IHs|r IHr s IHs|r IH]; cbn [body_of]; auto.
  - cbn. rewrite IHr, IHs. reflexivity.
  - cbn. rewrite IHr, IHs. destruct (has_one r); destruct (has_one s); cbn; rewrite ?IHs, ?IHr; reflexivity.
  - cbn. rewrite IH. reflexivity.
Qed.

Lemma pattern_good r : is_pattern (pattern_expr r) /\ has_empty (pattern_expr r) = false /\ lead_ok (pattern_expr r) = true /\ loops_ok (pattern_expr r) = true.
Proof.
  unfold pattern_expr. destruct (has_one r).
  - split; [|split; [|split]].
    + right. apply is_expr_alt; [constructor; apply body_item|]. repeat constructor.
    + cbn. rewrite body_full. reflexivity.
    + cbn. rewrite body_lead. reflexivity.
    + cbn. rewrite body_loops. reflexivity.
  - split; [right; constructor; constructor; apply body_item|]. split; [apply body_full|]. split; [apply body_lead|apply body_loops].
Qed.

(** ** From patterns to regular expressions *)

Fixpoint r_pow (r : rx) (n : nat) : rx := match n with 0 => One | S n' => Times r (r_pow r n') end.
(** At most [n] rounds. *)
Fixpoint r_upto (r : rx) (n : nat) : rx := match n with 0 => One | S n' => Plus One (Times r (r_upto r n')) end.

(** At least [a] rounds, and at most [b]; counts as [allowed] has them, less [k] rounds that were read before. *)
Definition r_count (r : rx) (q : quant) (k : nat) : rx :=
  match q with
  | QAsterisk => Star r
  | QPlus => Times (r_pow r (1 - k)) (Star r)
  | QQuestion => if k <=? 1 then r_upto r (1 - k) else Zero
  | QMax m => if (N.of_nat k <=? m)%N then r_pow r (N.to_nat m - k) else Zero
  | QMin m => Times (r_pow r (N.to_nat m - k)) (Star r)
  | QRange a b => if (a <=? b)%N && (N.of_nat k <=? b)%N
                  then Times (r_pow r (N.to_nat a - k)) (r_upto r (N.to_nat b - Nat.max (N.to_nat a) k)) else Zero
  end.

Section Back.
  Context {env : Env}.

  Lemma pow_words r n : forall w, words (r_pow r n) w <-> lang_pow (words r) n w.
  Proof.
    induction n as [|n IH]; intros w; [reflexivity|]. cbn [r_pow words lang_pow]. unfold lang_cat. split;
      intros (u & v & -> & Hu & Hv); exists u, v; (split; [reflexivity|split; [exact Hu|apply IH; exact Hv]]).
  Qed.

  Lemma pow_add (L : list char -> Prop) n m : forall w, lang_pow L (n + m) w <-> lang_cat (lang_pow L n) (lang_pow L m) w.
  Proof.
    induction n as [|n IH]; intros w; cbn [lang_pow Nat.add].
    - split; [intros H; exists [], w; auto|]. intros (u & v & -> & -> & Hv). exact Hv.
    - split.
      + intros (u & v & -> & Hu & Hv). apply IH in Hv. destruct Hv as (v1 & v2 & -> & H1 & H2). exists (u ++ v1), v2. rewrite app_assoc.
        split; auto. split; auto. exists u, v1. auto.
      + intros (x & v2 & -> & (u & v1 & -> & Hu & H1) & H2). exists u, (v1 ++ v2). rewrite app_assoc. split; auto. split; auto. apply IH.
        exists v1, v2. auto.
  Qed.

  Lemma upto_words r n : forall w, words (r_upto r n) w <-> exists i, i <= n /\ lang_pow (words r) i w.
  Proof.
    induction n as [|n IH]; intros w; cbn [r_upto words].
    - split; [intros ->; exists 0; split; [lia|reflexivity]|]. intros (i & Hi & H). replace i with 0 in H by lia. exact H.
    - split.
      + intros [->|(u & v & -> & Hu & Hv)]; [exists 0; split; [lia|reflexivity]|]. apply IH in Hv. destruct Hv as (i & Hi & H).
        exists (S i). split; [lia|]. exists u, v. auto.
      + intros ([|i] & Hi & H); [left; exact H|right]. destruct H as (u & v & -> & Hu & Hv). exists u, v. split; auto. split; auto.
        apply IH. exists i. split; [lia|auto].
  Qed.

  Lemma cat_pow (L : list char -> Prop) n (P : nat -> Prop) w :
    (exists u v, w = u ++ v /\ lang_pow L n u /\ exists i, P i /\ lang_pow L i v) <-> exists i, P i /\ lang_pow L (n + i) w.
  Proof.
    split.
    - intros (u & v & E & Hu & i & Hi & Hv). exists i. split; auto. apply pow_add. exists u, v. auto.
    - intros (i & Hi & H). apply pow_add in H. destruct H as (u & v & -> & Hu & Hv). exists u, v. eauto.
  Qed.

  Lemma star_words (L : list char -> Prop) w : star L w <-> exists i, True /\ lang_pow L i w.
  Proof. split; [intros H; destruct (star_pow _ _ H) as (n & Hn); eauto|]. intros (n & _ & H). eapply pow_star; eauto. Qed.

  (** A prefix of rounds and then any rounds allowed. *)
  Lemma count_words r q k w : words (r_count r q k) w <-> exists n, allowed q (n + k) /\ lang_pow (words r) n w.
  Proof.
    assert (Hst : forall m, words (Times (r_pow r (m - k)) (Star r)) w <-> exists n, m <= n + k /\ lang_pow (words r) n w).
    { intros m. cbn [words]. setoid_rewrite pow_words. setoid_rewrite star_words. rewrite cat_pow. split.
      - intros (i & _ & H). exists (m - k + i). split; [lia|exact H].
      - intros (n & Hn & H). exists (n - (m - k)). split; auto. replace (m - k + (n - (m - k))) with n by lia. exact H. }
    destruct q as [| | |m|m|a b]; cbn [r_count allowed].
    - cbn [words]. rewrite star_words. reflexivity.
    - apply Hst.
    - destruct (Nat.leb_spec k 1) as [Hk|Hk].
      + rewrite upto_words. split; intros (i & Hi & H); exists i; (split; [lia|exact H]).
      + cbn [words]. split; [contradiction|]. intros (n & Hn & _). lia.
    - destruct (N.leb_spec (N.of_nat k) m) as [Hk|Hk].
      + rewrite pow_words. split.
        * intros H. exists (N.to_nat m - k). split; [lia|exact H].
        * intros (n & Hn & H). replace (N.to_nat m - k) with n by lia. exact H.
      + cbn [words]. split; [contradiction|]. intros (n & Hn & _). lia.
    - rewrite Hst. split; intros (n & Hn & H); exists n; (split; [lia|exact H]).
    - destruct (N.leb_spec a b) as [Hab|Hab]; [destruct (N.leb_spec (N.of_nat k) b) as [Hk|Hk]|]; cbn [andb].
      + cbn [words]. setoid_rewrite pow_words. setoid_rewrite upto_words. rewrite cat_pow. split.
        * intros (i & Hi & H). exists (N.to_nat a - k + i). split; [lia|exact H].
        * intros (n & Hn & H). exists (n - (N.to_nat a - k)). split; [lia|]. replace (N.to_nat a - k + (n - (N.to_nat a - k))) with n by lia. exact H.
      + cbn [words]. split; [contradiction|]. intros (n & Hn & _). lia.
      + cbn [words]. split; [contradiction|]. intros (n & Hn & _). lia.
  Qed.
End Back.

(** The textbook language of a pattern. *)
Fixpoint r_lang (e : expr) : rx :=
  match e with
  | EConcat es => (fix go (es : list expr) : rx := match es with [] => One | e :: es' => Times (r_lang e) (go es') end) es
  | EEmpty => One
  | EAlt l r => Plus (r_lang l) (r_lang r)
  | ELit l None => Sym l
  | ELit l (Some q) => r_count (Sym l) q 0
  | EGroup e None => r_lang e
  | EGroup e (Some q) => r_count (r_lang e) q 0
  end.

(** The texts that begin with an unquantified literal. *)
Fixpoint r_lit (e : expr) : rx :=
  match e with
  | EConcat es => (fix go (es : list expr) : rx := match es with [] => Zero | e :: es' => Times (r_lit e) (r_lang (EConcat es')) end) es
  | EEmpty => Zero
  | EAlt l r => Plus (r_lit l) (r_lit r)
  | ELit l None => Sym l
  | ELit _ (Some _) => Zero
  | EGroup e None => r_lit e
  | EGroup _ (Some _) => Zero
  end.

(** The texts that begin inside a repetition. *)
Fixpoint r_rep (e : expr) : rx :=
  match e with
  | EConcat es => (fix go (es : list expr) : rx :=
                     match es with
                     | [] => Zero
                     | e :: es' => Plus (Times (r_rep e) (r_lang (EConcat es'))) (if may_skip e then Plus (r_lit (EConcat es')) (go es') else Zero)
                     end) es
  | EEmpty => Zero
  | EAlt l r => Plus (r_rep l) (r_rep r)
  | ELit _ None => Zero
  | ELit l (Some q) => Times (Sym l) (r_count (Sym l) q 1)
  | EGroup e None => r_rep e
  | EGroup e (Some q) => Plus (Times (r_lit e) (r_count (r_lang e) q 1)) (Times (r_rep e) (r_count (r_lang e) q 0))
  end.

Definition r_impl (e : expr) : rx := Plus (if may_skip e then One else Zero) (Plus (r_lit e) (r_rep e)).

Lemma expr_cons_ind (P : expr -> Prop) : P (EConcat []) -> (forall e es, P e -> P (EConcat es) -> P (EConcat (e :: es))) -> P EEmpty ->
  (forall l r, P l -> P r -> P (EAlt l r)) -> (forall l q, P (ELit l q)) -> (forall e q, P e -> P (EGroup e q)) -> forall e, P e.
Proof. intros H0 H1 He Ha Hl Hg. apply expr_seq_ind; auto. Qed.

Section Impl.
  Context {env : Env}.

  Lemma pow_ext (L L' : list char -> Prop) n : (forall w, L w <-> L' w) -> forall w, lang_pow L n w <-> lang_pow L' n w.
  Proof.
    intros H. induction n as [|n IH]; intros w; [reflexivity|]. cbn [lang_pow]. unfold lang_cat.
    split; intros (u & v & E & Hu & Hv); exists u, v; (split; [exact E|split; [apply H; exact Hu|apply IH; exact Hv]]).
  Qed.

  Lemma count_zero r q w : words (r_count r q 0) w <-> exists n, allowed q n /\ lang_pow (words r) n w.
  Proof. rewrite count_words. setoid_rewrite Nat.add_0_r. reflexivity. Qed.
  Lemma count_one r q w : words (r_count r q 1) w <-> exists n, allowed q (S n) /\ lang_pow (words r) n w.
  Proof. rewrite count_words. setoid_rewrite Nat.add_1_r. reflexivity. Qed.

  Lemma r_lang_ok e : forall w, words (r_lang e) w <-> lang e w.
  Proof.
    induction e as [|e es IHe IHes| |l r IHl IHr|l q|e q IH] using expr_cons_ind; intros w.
    - reflexivity.
    - change ((exists u v, w = u ++ v /\ words (r_lang e) u /\ words (r_lang (EConcat es)) v) <-> lang_cat (lang e) (lang (EConcat es)) w).
      setoid_rewrite IHe. setoid_rewrite IHes. reflexivity.
    - reflexivity.
    - cbn [r_lang words lang]. rewrite IHl, IHr. reflexivity.
    - destruct q as [q|]; [|reflexivity]. cbn [r_lang]. rewrite count_zero. reflexivity.
    - destruct q as [q|]; [|apply IH]. cbn [r_lang]. rewrite count_zero.
      change ((exists n, allowed q n /\ lang_pow (words (r_lang e)) n w) <-> exists n, allowed q n /\ lang_pow (lang e) n w).
      setoid_rewrite (pow_ext _ _ _ IH). reflexivity.
  Qed.

  Lemma r_lit_ok e : forall w, words (r_lit e) w <-> lit_first e w.
  Proof.
    induction e as [|e es IHe IHes| |l r IHl IHr|l q|e q IH] using expr_cons_ind; intros w.
    - reflexivity.
    - change ((exists u v, w = u ++ v /\ words (r_lit e) u /\ words (r_lang (EConcat es)) v) <-> lang_cat (lit_first e) (lang (EConcat es)) w).
      setoid_rewrite IHe. setoid_rewrite r_lang_ok. reflexivity.
    - reflexivity.
    - cbn [r_lit words lit_first]. rewrite IHl, IHr. reflexivity.
    - destruct q; reflexivity.
    - destruct q as [q|]; [reflexivity|apply IH].
  Qed.

  Lemma r_rep_ok e : forall w, words (r_rep e) w <-> rep_first e w.
  Proof.
    induction e as [|e es IHe IHes| |l r IHl IHr|l q|e q IH] using expr_cons_ind; intros w.
    - reflexivity.
    - change (((exists u v, w = u ++ v /\ words (r_rep e) u /\ words (r_lang (EConcat es)) v) \/
          words (if may_skip e then Plus (r_lit (EConcat es)) (r_rep (EConcat es)) else Zero) w) <->
        (lang_cat (rep_first e) (lang (EConcat es)) w \/ (skippable e /\ (lit_first (EConcat es) w \/ rep_first (EConcat es) w)))).
      setoid_rewrite IHe. setoid_rewrite r_lang_ok. rewrite <- may_skip_skippable.
      assert (HE : words (if may_skip e then Plus (r_lit (EConcat es)) (r_rep (EConcat es)) else Zero) w <->
        may_skip e = true /\ (lit_first (EConcat es) w \/ rep_first (EConcat es) w)).
      { destruct (may_skip e); [|cbn [words]; split; [contradiction|intros [? _]; discriminate]].
        change (words (r_lit (EConcat es)) w \/ words (r_rep (EConcat es)) w <-> true = true /\ (lit_first (EConcat es) w \/ rep_first (EConcat es) w)).
        rewrite IHes, r_lit_ok. tauto. }
      rewrite HE. reflexivity.
    - reflexivity.
    - cbn [r_rep words rep_first]. rewrite IHl, IHr. reflexivity.
    - destruct q as [q|]; [|reflexivity].
      change ((exists u v, w = u ++ v /\ words (Sym l) u /\ words (r_count (Sym l) q 1) v) <->
        exists n, allowed q (S n) /\ lang_cat (words (Sym l)) (lang_pow (words (Sym l)) n) w).
      setoid_rewrite count_one. split.
      + intros (u & v & E & Hu & n & Hn & Hv). exists n. split; auto. exists u, v. auto.
      + intros (n & Hn & u & v & E & Hu & Hv). exists u, v. eauto.
    - destruct q as [q|]; [|apply IH].
      change (((exists u v, w = u ++ v /\ words (r_lit e) u /\ words (r_count (r_lang e) q 1) v) \/
               (exists u v, w = u ++ v /\ words (r_rep e) u /\ words (r_count (r_lang e) q 0) v)) <->
        (exists n, allowed q (S n) /\ lang_cat (lit_first e) (lang_pow (lang e) n) w) \/
        (exists n, allowed q n /\ lang_cat (rep_first e) (lang_pow (lang e) n) w)).
      setoid_rewrite count_one. setoid_rewrite count_zero. setoid_rewrite (pow_ext _ _ _ (r_lang_ok e)). setoid_rewrite IH. setoid_rewrite r_lit_ok.
      split; (intros [H|H]; [left|right]).
      1-2: destruct H as (u & v & E & Hu & n & Hn & Hv); exists n; split; auto; exists u, v; auto.
      1-2: destruct H as (n & Hn & u & v & E & Hu & Hv); exists u, v; eauto.
  Qed.

  Lemma r_impl_ok e w : words (r_impl e) w <-> impl_lang e w.
  Proof.
    unfold r_impl, impl_lang. rewrite <- may_skip_skippable, <- r_lit_ok, <- r_rep_ok.
    destruct (may_skip e); cbn [words]; [tauto|]. split; [tauto|]. intros [[H _]|H]; [discriminate|tauto].
  Qed.
End Impl.

(** [add_token] takes the pattern. *)
Lemma taken p e m (env : Env) (K : Type) (lg0 lg : lexgen K) ts g : regex_parse p = Val (ParseOk e) -> nfa_from e = Val m ->
  lexgen_new = Val lg0 -> add_tokens lg0 ts = Val (inl lg) -> exists lg', add_token lg p g = Val (inl lg').
Proof.
  intros Hp Hm H0 H. apply (add_token_cases K lg0 lg ts p g H0 H). exists e. split; [apply pattern_of_ok; exact Hp|].
  rewrite gapped_ok. pose proof (proj1 (nfa_from_some e) (ex_intro _ m Hm)). congruence.
Qed.

(** Every regular expression has a pattern, of the given textbook language, that [add_token] takes and whose matcher answers for
    every text. *)
Lemma every_regular r : exists p e m, forall (env : Env),
  regex_parse p = Val (ParseOk e) /\ nfa_from e = Val m /\ (forall x, lang e x <-> words r x) /\
  (forall x, exists N b, (b = true <-> words r x) /\ forall (ho : HashOrder) fuel, N <= fuel -> simulate fuel m x = Val b) /\
  forall (K : Type) (lg0 lg : lexgen K) ts g, lexgen_new = Val lg0 -> add_tokens lg0 ts = Val (inl lg) -> exists lg', add_token lg p g = Val (inl lg').
Proof.
  destruct (pattern_good r) as (Hp & Hf & Hl & Ho). destruct (proj2 (nfa_from_some (pattern_expr r)) Hf) as (m & Hm).
  exists (print_expr (pattern_expr r)), (pattern_expr r), m. intros env. split; [apply round_trip; exact Hp|]. split; [exact Hm|].
  split; [apply pattern_lang|]. split; [|intros K lg0 lg ts g; apply (taken _ (pattern_expr r) m); [apply round_trip; exact Hp|exact Hm]].
  intros x. destruct (regex_terminates _ _ x Hm Ho) as (N & HN). destruct (HN id_order N (le_n N)) as (b & Hb).
  exists N, b. split.
  - rewrite (regex_lead _ _ _ _ _ _ Hm Hl Hb). apply pattern_lang.
  - intros ho fuel Hfu. destruct (HN ho fuel Hfu) as (b' & Hb'). rewrite Hb'. f_equal.
    pose proof (regex_lead _ _ _ _ _ _ Hm Hl Hb). pose proof (regex_lead _ _ _ _ _ _ Hm Hl Hb').
    assert (HE : b = true <-> b' = true) by tauto. destruct b, b'; auto; [|symmetry]; apply HE; reflexivity.
Qed.

Lemma only_regular e m : nfa_from e = Val m -> exists r, forall (env : Env) (ho : HashOrder) fuel x b,
  simulate fuel m x = Val b -> (b = true <-> words r x).
Proof. intros H. exists (r_impl e). intros env ho fuel x b Hs. rewrite r_impl_ok. eapply simulate_impl; eauto. Qed.

Lemma textbook_regular e : exists r, forall (env : Env) x, lang e x <-> words r x.
Proof. exists (r_lang e). intros env x. symmetry. apply r_lang_ok. Qed.

(** What a pattern matches, though the textbook has it otherwise, another pattern matches that the textbook reads that way. *)
Lemma has_replacement e m : nfa_from e = Val m -> exists p' e' m', forall (env : Env),
  regex_parse p' = Val (ParseOk e') /\ nfa_from e' = Val m' /\
  (forall (ho : HashOrder) fuel x b, simulate fuel m x = Val b -> (b = true <-> lang e' x)) /\
  (forall (ho : HashOrder) fuel x b, simulate fuel m x = Val b -> exists N, forall (ho' : HashOrder) fuel', N <= fuel' -> simulate fuel' m' x = Val b).
Proof.
  intros H. destruct (only_regular e m H) as (r & Hr). destruct (every_regular r) as (p' & e' & m' & H'). exists p', e', m'. intros env.
  destruct (H' env) as (Hp & Hm & Hl & Hx & _). split; auto. split; auto. split.
  - intros ho fuel x b Hs. rewrite Hl. eapply Hr; eauto.
  - intros ho fuel x b Hs. destruct (Hx x) as (N & b' & Hb & HN). exists N. intros ho' fuel' Hf. rewrite (HN ho' fuel' Hf). f_equal.
    pose proof (Hr env ho fuel x b Hs). assert (HE : b = true <-> b' = true) by tauto. destruct b, b'; auto; [|symmetry]; apply HE; reflexivity.
Qed.

(** ** An even number of [b] *)
Definition even_b : rx := Star (Plus (Sym (LMatch ($"a"))) (Times (Sym (LMatch ($"b"))) (Times (Star (Sym (LMatch ($"a")))) (Sym (LMatch ($"b")))))).

Lemma even_b_not {env : Env} : ~ words even_b (str "b"%string).
Proof.
  cbn [words even_b]. intros H. remember (str "b"%string) as w eqn:E. revert E. induction H as [|u v Hu Hv IH]; [discriminate|].
  intros E. destruct Hu as [(c & -> & Hc)|(u1 & u2 & -> & (c & -> & _) & (u3 & u4 & -> & _ & (d & -> & _)))].
  - cbn in Hc. subst c. discriminate.
  - cbn in E. destruct u3; discriminate.
Qed.

Definition odd_expr : expr := EGroup (EConcat [ELit (LMatch ($"a")) (Some QAsterisk); ELit (LMatch ($"b")) None]) (Some (QMax 1)).
Lemma odd_not {env : Env} : ~ lang odd_expr (str "abab"%string).
Proof.
  intros (n & Hn & H). cbn [allowed] in Hn. destruct n as [|[|n]]; [discriminate| |lia].
  destruct H as (u & v & E & Hu & Hv). cbn in Hv. subst v. rewrite app_nil_r in E. subst u.
  apply cat2 in Hu. destruct Hu as (u & v & E & (k & _ & Hu) & (c & -> & Hc)).
  assert (Ha : forall k u, lang_pow (fun w => exists c, w = [c] /\ lit_set (LMatch ($"a")) c) k u -> forall x, In x u -> x = $"a").
  { clear. induction k as [|k IH]; intros u H x Hx; [cbn in H; subst; destruct Hx|]. destruct H as (u1 & v1 & -> & (d & -> & Hd) & Hv).
    destruct Hx as [<-|Hx]; [exact Hd|eapply IH; eauto]. }
  assert (Hin : In ($"b") u).
  { destruct u as [|c1 [|c2 u]]; cbn in E; [discriminate|discriminate|]. right. left. exact (eq_sym (f_equal (fun l => nth 1 l 0%N) E)). }
  specialize (Ha k u Hu _ Hin). discriminate.
Qed.
