(** Where the simulator goes around for ever. *)
From Verif Require Import Base RegexModel SpecRegex RegexParseProofs RegexProofs NfaModel SpecNfa SpecSpin NfaCompileProofs NfaLangProofs NfaSimProofs NfaMachineProofs NfaTermProofs NfaProofs.

(** ** Paths along a regex that end at a bad state *)
Section Graph.
  Context {env : Env}.
  Variable G : edge -> Prop.
  Variable F : nat -> Prop.
  Notation acc := (acc G F). Notation accs := (accs G F). Notation via := (via G F). Notation placed := (placed G).
  Notation sacc := (sacc G F). Notation svia := (svia G F). Notation isq := (isq G). Notation ceq := (ceq G).

  Definition only (e : expr) (n : nat) : Prop := forall x, n <= x < n + size e -> F x -> In x (bads e n).

  Lemma spins_seq e es w : spins (EConcat (e :: es)) w <-> spins e w \/ lang_cat (lang e) (spins (EConcat es)) w.
  Proof. reflexivity. Qed.
  Lemma impl_spins_seq e es w : impl_spins (EConcat (e :: es)) w <->
    impl_spins e w \/ lang_cat (fun u => lit_first e u \/ rep_first e u) (spins (EConcat es)) w \/ (skippable e /\ impl_spins (EConcat es) w).
  Proof. reflexivity. Qed.

  Lemma only_seq e e2 es n : only (EConcat (e :: e2 :: es)) n ->
    only e (S n) /\ ~ F n /\ only (EConcat (e2 :: es)) (S n + size e).
  Proof.
    unfold only. rewrite size_seq, bads_seq. intros H. split; [|split].
    - intros x Hx Hf. apply H in Hf; [|lia]. apply in_app_or in Hf. destruct Hf as [Hf|Hf]; [assumption|]. apply bads_range in Hf. lia.
    - intros Hf. apply H in Hf; [|lia]. apply in_app_or in Hf. destruct Hf as [Hf|Hf]; apply bads_range in Hf; lia.
    - intros x Hx Hf. apply H in Hf; [|lia]. apply in_app_or in Hf. destruct Hf as [Hf|Hf]; [|assumption]. apply bads_range in Hf. lia.
  Qed.
  Lemma only_alt l r n : only (EAlt l r) n -> only l n /\ only r (n + size l).
  Proof.
    unfold only. cbn [size bads]. intros H. split; intros x Hx Hf; (apply H in Hf; [|lia]); apply in_app_or in Hf;
      destruct Hf as [Hf|Hf]; try assumption; apply bads_range in Hf; lia.
  Qed.
  Lemma only_group e q n : only (EGroup e (Some q)) n -> only e (S n) /\ (F n -> lang e []).
  Proof.
    unfold only. cbn [size]. intros H. split.
    - intros x Hx Hf. apply H in Hf; [|lia]. apply bads_group in Hf. destruct Hf as [[-> _]|Hf]; [lia|assumption].
    - intros Hf. apply H in Hf; [|lia]. apply bads_group in Hf. destruct Hf as [[_ Hf]|Hf]; [apply nullable_spec; exact Hf|].
      apply bads_range in Hf. lia.
  Qed.

  Definition spin_sound_at (e : expr) : Prop := forall n s t k c w,
    placed e n s t -> only e n -> (forall i, isq i -> n <= i < n + size e -> c i = 0) ->
    via (fun x => In x (edges e n s t)) k s c w ->
    spins e w \/
    exists u v c' k', k' <= k /\ w = u ++ v /\ lang e u /\ acc k' t c' v /\ ceq c' (inc s c).

  Lemma quant_spin e q : spin_sound_at e -> forall n s t, placed (EGroup e (Some q)) n s t -> only (EGroup e (Some q)) n ->
    forall k c w, (forall i, isq i -> S n <= i < S n + size e -> c i = 0) ->
    acc k n c w ->
    spins (EGroup e (Some q)) w \/
    exists j u v c' k', k' <= k /\ is_satisfied q (c n + j) = true /\ w = u ++ v /\ lang_pow (lang e) j u /\
      acc k' t c' v /\ ceq c' (zer n c).
  Proof.
    intros He n s t Hp Ho. destruct (placed_quant _ _ _ _ _ _ Hp) as (Hpe & Hq & Hi & Hisq & Hout).
    destruct (only_group _ _ _ Ho) as [Hoe Hon].
    induction k as [k IH] using lt_wf_ind. intros c w Hz Hacc.
    destruct (acc_via _ _ _ _ _ _ Hacc) as [[-> HF]|(k1 & -> & i & y & Hg & Hn)].
    { left. exists 0, [], []. split; [reflexivity|]. split; [reflexivity|]. auto. }
    destruct (Hout _ _ Hg) as [[-> ->]|Hin].
    - destruct Hn as [Hs Hn]. right. exists 0, [], w, (zer n c), k1. rewrite Nat.add_0_r.
      split; [lia|]. split; [assumption|]. split; [reflexivity|]. split; [reflexivity|]. split; [assumption|apply ceq_refl].
    - destruct (He (S n) n n k1 c w Hpe Hoe) as [Hb|(u & v & c1 & k2 & Hk & -> & Hu & Ha & Hc)].
      { intros j Hj Hr. apply Hz; assumption. }
      { exists i, y. auto. }
      { left. exists 0, [], w. split; [reflexivity|]. split; [reflexivity|auto]. }
      destruct (IH k2 ltac:(lia) c1 v) as [(j & u2 & v2 & -> & Hu2 & Hv2)|(j & u2 & v2 & c2 & k3 & Hk3 & Hs & -> & Hu2 & Ha2 & Hc2)].
      { intros m Hm Hr. rewrite Hc by assumption. unfold inc. destruct (Nat.eqb_spec m n); [lia|]. apply Hz; assumption. }
      { assumption. }
      { left. exists (S j), (u ++ u2), v2. split; [rewrite app_assoc; reflexivity|]. split; [exists u, u2; auto|assumption]. }
      right. exists (S j), (u ++ u2), v2, c2, k3. split; [lia|]. split.
      { rewrite Hc in Hs by assumption. unfold inc in Hs. rewrite Nat.eqb_refl in Hs.
        replace (c n + S j) with (S (c n) + j) by lia. assumption. }
      split; [rewrite app_assoc; reflexivity|]. split; [exists u, u2; auto|]. split; [assumption|].
      intros m Hm. rewrite Hc2 by assumption. unfold zer. destruct (Nat.eqb_spec m n); [reflexivity|].
      rewrite Hc by assumption. unfold inc. destruct (Nat.eqb_spec m n); [contradiction|reflexivity].
  Qed.

  Lemma quant_spin_at e q : spin_sound_at e -> spin_sound_at (EGroup e (Some q)).
  Proof.
    intros He n s t k c w Hp Ho Hz (i & y & Hin & Hn).
    pose proof Hp as (Hs & _). cbn [edges] in Hin. cbn [size] in Hz.
    destruct Hin as [[= ]|[[= <- <-]|Hin]]; [lia| |apply edges_range in Hin; lia].
    cbn in Hn.
    destruct (quant_spin e q He n s t Hp Ho k (inc s c) w) as [H|(j & u & v & c' & k' & Hk & Hsat & -> & Hu & Ha & Hc)].
    { intros m Hm Hr. unfold inc. destruct (Nat.eqb_spec m s); [lia|]. apply Hz; [assumption|lia]. }
    { assumption. }
    { left. exact H. }
    assert (Hn0 : inc s c n = 0).
    { unfold inc. destruct (Nat.eqb_spec n s); [lia|]. apply Hz; [|lia]. apply (placed_quant _ _ _ _ _ _ Hp). }
    rewrite Hn0 in Hsat. right. exists u, v, c', k'. split; [assumption|]. split; [reflexivity|]. split.
    { exists j. split; [apply satisfied_allowed; assumption|assumption]. }
    split; [assumption|]. intros m Hm. rewrite Hc by assumption. unfold zer.
    destruct (Nat.eqb_spec m n) as [->|]; [symmetry; assumption|reflexivity].
  Qed.

  Lemma lit_spin l : spin_sound_at (ELit l None).
  Proof.
    intros n s t k c w Hp Ho Hz (i & y & Hin & Hn). cbn in Hin. destruct Hin as [[= <- <-]|[]].
    cbn in Hn. destruct Hn as (x & w' & -> & Hx & Ha). right. exists [x], w', (inc s c), k.
    split; [lia|]. split; [reflexivity|]. split; [|split; [assumption|apply ceq_refl]].
    cbn. exists x. split; [reflexivity|]. apply lit_spec; assumption.
  Qed.

  (** A repeated literal never spins. *)
  Lemma spins_lit l q w : ~ spins (EGroup (ELit l None) (Some q)) w.
  Proof. intros (n & u & v & _ & _ & [[_ (c & [=] & _)]|[]]). Qed.

  Lemma expr_spin : forall e, spin_sound_at e.
  Proof.
    induction e as [|e IH|e e2 es IH1 IH2| |l r IHl IHr|l q|e q IH] using expr_seq_ind.
    - intros n s t k c w _ _ _ (i & y & [] & _).
    - intros n s t k c w Hp Ho Hz Hv. destruct (IH n s t k c w Hp Ho Hz Hv) as [Hb|(u & v & c' & k' & H)].
      + left. left. assumption.
      + right. exists u, v, c', k'. rewrite lang_single. exact H.
    - intros n s t k c w Hp Ho Hz Hv. rewrite size_seq in Hz. destruct (only_seq _ _ _ _ Ho) as (Ho1 & Hon & Ho2).
      destruct (placed_seq _ _ _ _ _ _ _ Hp) as (Hp1 & Hp2 & Hout & Hnq).
      assert (Hv1 : via (fun x => In x (edges e (S n) s n)) k s c w).
      { eapply via_mono; [|exact Hv]. intros i y Hin. rewrite edges_seq in Hin. apply in_app_or in Hin.
        destruct Hin as [Hin|Hin]; [assumption|]. apply edges_range in Hin. pose proof Hp as (Hs & _). lia. }
      destruct (IH1 (S n) s n k c w Hp1 Ho1) as [Hb|(u & v & c1 & k1 & Hk1 & -> & Hu & Ha & Hc1)].
      { intros i Hi Hr. apply Hz; [assumption|lia]. }
      { assumption. }
      { left. apply spins_seq. left. assumption. }
      destruct (acc_via _ _ _ _ _ _ Ha) as [[-> HF]|(k2 & -> & Hv2)]; [contradiction|].
      destruct (IH2 (S n + size e) n t k2 c1 v Hp2 Ho2) as [Hb|(u2 & v2 & c2 & k3 & Hk3 & -> & Hu2 & Ha2 & Hc2)].
      { intros i Hi Hr. rewrite Hc1 by assumption. unfold inc. destruct (Nat.eqb_spec i s).
        - pose proof Hp as (Hs & _). lia.
        - apply Hz; [assumption|lia]. }
      { eapply via_mono; [|exact Hv2]. exact Hout. }
      { left. apply spins_seq. right. exists u, v. auto. }
      right. exists (u ++ u2), v2, c2, k3. split; [lia|]. split; [rewrite app_assoc; reflexivity|].
      split; [apply lang_seq; exists u, u2; auto|]. split; [assumption|].
      eapply ceq_trans; [exact Hc2|]. eapply ceq_trans; [apply ceq_inc_l; assumption|assumption].
    - intros n s t k c w Hp Ho Hz (i & y & Hin & Hn). cbn in Hin. destruct Hin as [[= <- <-]|[]].
      cbn in Hn. right. exists [], w, (inc s c), k. repeat split; auto.
    - intros n s t k c w Hp Ho Hz (i & y & Hin & Hn). cbn [size] in Hz. cbn [edges] in Hin.
      destruct (placed_alt _ _ _ _ _ _ Hp) as [Hpl Hpr]. destruct (only_alt _ _ _ Ho) as [Hol Hor].
      apply in_app_or in Hin. destruct Hin as [Hin|Hin].
      + destruct (IHl n s t k c w Hpl Hol) as [Hb|(u & v & c' & k' & H1 & H2 & H3 & H4)].
        { intros j Hj Hr. apply Hz; [assumption|lia]. }
        { exists i, y. auto. }
        { left. left. assumption. }
        right. exists u, v, c', k'. cbn. auto.
      + destruct (IHr (n + size l) s t k c w Hpr Hor) as [Hb|(u & v & c' & k' & H1 & H2 & H3 & H4)].
        { intros j Hj Hr. apply Hz; [assumption|lia]. }
        { exists i, y. auto. }
        { left. right. assumption. }
        right. exists u, v, c', k'. cbn. auto.
    - destruct q as [q|]; [|apply lit_spin]. intros n s t k c w Hp Ho Hz Hv.
      destruct (quant_spin_at (ELit l None) q (lit_spin l) n s t k c w Hp) as [H|H]; [|exact Hz|exact Hv|apply spins_lit in H; destruct H|right; exact H].
      intros x Hx Hf. destruct (Ho x Hx Hf).
    - destruct q as [q|]; [apply quant_spin_at; assumption|]. exact IH.
  Qed.

  (** *** From the states where the simulator starts *)
  Definition spin_starts (e : expr) (n s t k : nat) (w : list char) : Prop :=
    impl_spins e w \/
    (exists u v, w = u ++ v /\ lit_first e u /\ accs t (inc s zero) v) \/
    (exists u v, w = u ++ v /\ rep_first e u /\ accs t zero v) \/
    (skippable e /\ exists k', k' <= k /\ sacc k' t w).

  Definition spin_static_at (e : expr) : Prop := forall n s t k w,
    placed e n s t -> only e n -> w <> [] -> svia (fun x => In x (edges e n s t)) k s w -> spin_starts e n s t k w.

  Lemma quant_spin_static e q : spin_static_at e -> spin_static_at (EGroup e (Some q)).
  Proof.
    intros He n s t k w Hp Ho Hw Hv. pose proof Hp as (Hs & _).
    destruct (placed_quant _ _ _ _ _ _ Hp) as (Hpe & Hq & Hi & Hisq & Hout). destruct (only_group _ _ _ Ho) as [Hoe Hon].
    assert (Hn : sacc k n w).
    { destruct Hv as [(l & y & x & w' & Hin & _)|(i & y & Hin & Hst & Ha)]; cbn [edges] in Hin.
      - destruct Hin as [[= ]|[[= ]|Hin]]. apply edges_range in Hin. lia.
      - destruct Hin as [[= ]|[[= <- <-]|Hin]]; [lia|assumption|apply edges_range in Hin; lia]. }
    clear Hv. revert Hn. induction k as [k IH] using lt_wf_ind. intros Ha.
    destruct (sacc_svia _ _ _ _ _ Ha) as [[-> HF]|(k1 & -> & Hv)]; [congruence|].
    assert (Hcase : (is_satisfied q 0 = true /\ sacc k1 t w) \/ svia (fun x => In x (edges e (S n) n n)) k1 n w).
    { destruct Hv as [(l & y & x & w' & Hg & H)|(i & y & Hg & Hst & H)].
      - destruct (Hout _ _ Hg) as [[[=] _]|Hin]. right. left. exists l, y, x, w'. auto.
      - destruct (Hout _ _ Hg) as [[-> ->]|Hin]; [left; auto|]. right. right. exists i, y. auto. }
    destruct Hcase as [[Hsat Hacc]|Hve].
    { right. right. right. split; [apply satisfied_allowed; assumption|]. exists k1. split; [lia|assumption]. }
    destruct (He _ _ _ _ _ Hpe Hoe Hw Hve) as [Hb|[(u & v & -> & Hu & k2 & Hacc)|[(u & v & -> & Hu & k2 & Hacc)|(Hsk & k2 & Hk2 & Hacc)]]].
    - left. left. assumption.
    - destruct (quant_spin e q (expr_spin e) n s t Hp Ho k2 (inc n zero) v) as [Hb|(j & u2 & v2 & c' & k3 & _ & Hsat & -> & Hu2 & Ha2 & Hc)].
      { intros i _ Hr. unfold inc, zero. destruct (Nat.eqb_spec i n); [lia|reflexivity]. }
      { assumption. }
      { left. right. exists u, v. auto. }
      right. right. left. exists (u ++ u2), v2. split; [rewrite app_assoc; reflexivity|]. split.
      + left. exists j. split; [|exists u, u2; auto]. apply satisfied_allowed.
        unfold inc, zero in Hsat. rewrite Nat.eqb_refl in Hsat. exact Hsat.
      + exists k3. eapply acc_ceq; [|exact Ha2]. eapply ceq_trans; [exact Hc|].
        intros i _. unfold zer, inc, zero. destruct (i =? n); reflexivity.
    - destruct (quant_spin e q (expr_spin e) n s t Hp Ho k2 zero v) as [Hb|(j & u2 & v2 & c' & k3 & _ & Hsat & -> & Hu2 & Ha2 & Hc)].
      { reflexivity. }
      { assumption. }
      { left. right. exists u, v. auto. }
      right. right. left. exists (u ++ u2), v2. split; [rewrite app_assoc; reflexivity|]. split.
      + right. exists j. split; [|exists u, u2; auto]. apply satisfied_allowed. exact Hsat.
      + exists k3. eapply acc_ceq; [|exact Ha2]. eapply ceq_trans; [exact Hc|].
        intros i _. unfold zer, zero. destruct (i =? n); reflexivity.
    - destruct (IH k2 ltac:(lia) Hacc) as [H|[H|[H|(Hq0 & k3 & Hk3 & H3)]]].
      + left. exact H.
      + right. left. exact H.
      + right. right. left. exact H.
      + right. right. right. split; [assumption|]. exists k3. split; [lia|assumption].
  Qed.

  Lemma lit_spin_static l : spin_static_at (ELit l None).
  Proof.
    intros n s t k w Hp Ho Hw [(l' & y & x & w' & Hin & -> & Hx & Ha)|(i & y & Hin & Hst & _)].
    - destruct Hin as [[= <- <-]|[]]. right. left. exists [x], w'. split; [reflexivity|]. split; [|assumption].
      exists x. split; [reflexivity|]. apply lit_spec. assumption.
    - destruct Hin as [[= <- <-]|[]]. destruct Hst.
  Qed.

  Lemma expr_spin_static : forall e, spin_static_at e.
  Proof.
    induction e as [|e IH|e e2 es IH1 IH2| |l r IHl IHr|l q|e q IH] using expr_seq_ind.
    - intros n s t k w _ _ _ [(l & y & x & w' & [] & _)|(i & y & [] & _)].
    - intros n s t k w Hp Ho Hw Hv.
      destruct (IH n s t k w Hp Ho Hw Hv) as [Hb|[(u & v & -> & Hu & Ha)|[(u & v & -> & Hu & Ha)|(Hsk & H)]]].
      + left. left. assumption.
      + right. left. exists u, v. rewrite lit_first_single. auto.
      + right. right. left. exists u, v. rewrite rep_first_single. auto.
      + right. right. right. split; [split; [assumption|exact I]|assumption].
    - intros n s t k w Hp Ho Hw Hv. pose proof Hp as (Hs & _). destruct (only_seq _ _ _ _ Ho) as (Ho1 & Hon & Ho2).
      destruct (placed_seq _ _ _ _ _ _ _ Hp) as (Hp1 & Hp2 & Hout & Hnq).
      assert (Hv1 : svia (fun x => In x (edges e (S n) s n)) k s w).
      { eapply svia_mono; [|exact Hv]. intros i y Hin. rewrite edges_seq in Hin. apply in_app_or in Hin.
        destruct Hin as [Hin|Hin]; [assumption|]. apply edges_range in Hin. lia. }
      assert (Hrest : forall c v, (forall i, S n <= i -> c i = 0) -> accs n c v ->
        spins (EConcat (e2 :: es)) v \/
        exists u2 v2, v = u2 ++ v2 /\ lang (EConcat (e2 :: es)) u2 /\ accs t c v2).
      { intros c v Hz (k1 & Ha). destruct (acc_via _ _ _ _ _ _ Ha) as [[-> HF]|(k2 & -> & Hv2)]; [contradiction|].
        destruct (expr_spin (EConcat (e2 :: es)) (S n + size e) n t k2 c v Hp2 Ho2) as [Hb|(u2 & v2 & c2 & k3 & _ & -> & Hu2 & Ha2 & Hc2)].
        { intros i _ Hr. apply Hz. lia. }
        { eapply via_mono; [|exact Hv2]. exact Hout. }
        { left. assumption. }
        right. exists u2, v2. split; [reflexivity|]. split; [assumption|]. exists k3. eapply acc_ceq; [|exact Ha2].
        eapply ceq_trans; [exact Hc2|apply ceq_inc_l; assumption]. }
      destruct (IH1 (S n) s n k w Hp1 Ho1 Hw Hv1) as [Hb|[(u & v & -> & Hu & Ha)|[(u & v & -> & Hu & Ha)|(Hsk & k1 & Hk1 & Ha)]]].
      + left. apply impl_spins_seq. left. assumption.
      + destruct (Hrest (inc s zero) v) as [Hb|(u2 & v2 & -> & Hu2 & Ha2)].
        { intros i Hi. unfold inc, zero. destruct (Nat.eqb_spec i s); [lia|reflexivity]. }
        { assumption. }
        { left. apply impl_spins_seq. right. left. exists u, v. auto. }
        right. left. exists (u ++ u2), v2. split; [apply app_assoc|]. split; [|assumption]. apply lit_first_seq. exists u, u2. auto.
      + destruct (Hrest zero v) as [Hb|(u2 & v2 & -> & Hu2 & Ha2)].
        { reflexivity. }
        { assumption. }
        { left. apply impl_spins_seq. right. left. exists u, v. auto. }
        right. right. left. exists (u ++ u2), v2. split; [apply app_assoc|]. split; [|assumption]. apply rep_first_seq. left.
        exists u, u2. auto.
      + destruct (sacc_svia _ _ _ _ _ Ha) as [[-> HF]|(k2 & -> & Hv2)]; [contradiction|].
        destruct (IH2 (S n + size e) n t k2 w Hp2 Ho2 Hw) as [Hb|[(u & v & -> & Hu & Ha2)|[(u & v & -> & Hu & Ha2)|(Hsk2 & k3 & Hk3 & Ha3)]]].
        { eapply svia_mono; [|exact Hv2]. exact Hout. }
        * left. apply impl_spins_seq. right. right. auto.
        * right. right. left. exists u, v. split; [reflexivity|]. split; [apply rep_first_seq; auto|].
          eapply accs_ceq; [|exact Ha2]. apply ceq_inc_l. assumption.
        * right. right. left. exists u, v. split; [reflexivity|]. split; [apply rep_first_seq; auto|]. assumption.
        * right. right. right. split; [split; assumption|]. exists k3. split; [lia|assumption].
    - intros n s t k w Hp Ho Hw [(l' & y & x & w' & Hin & _)|(i & y & Hin & Hst & Ha)].
      + destruct Hin as [[= ]|[]].
      + destruct Hin as [[= <- <-]|[]]. right. right. right. split; [exact I|]. exists k. auto.
    - intros n s t k w Hp Ho Hw Hv. destruct (placed_alt _ _ _ _ _ _ Hp) as [Hpl Hpr]. destruct (only_alt _ _ _ Ho) as [Hol Hor].
      assert (Hcase : svia (fun x => In x (edges l n s t)) k s w \/ svia (fun x => In x (edges r (n + size l) s t)) k s w).
      { destruct Hv as [(l' & y & x & w' & Hin & H)|(i & y & Hin & H)]; cbn [edges] in Hin; apply in_app_or in Hin;
          destruct Hin; [left; left|right; left|left; right|right; right];
          [exists l', y, x, w'|exists l', y, x, w'|exists i, y|exists i, y]; split; assumption. }
      destruct Hcase as [Hc|Hc];
        [destruct (IHl _ _ _ _ _ Hpl Hol Hw Hc) as [H1|[(u & v & H1 & H2 & H3)|[(u & v & H1 & H2 & H3)|(H1 & H2)]]]
        |destruct (IHr _ _ _ _ _ Hpr Hor Hw Hc) as [H1|[(u & v & H1 & H2 & H3)|[(u & v & H1 & H2 & H3)|(H1 & H2)]]]];
        [left|right; left; exists u, v|right; right; left; exists u, v|right; right; right
        |left|right; left; exists u, v|right; right; left; exists u, v|right; right; right]; cbn; auto.
    - destruct q as [q|]; [|apply lit_spin_static].
      intros n s t k w Hp Ho Hw Hv.
      destruct (quant_spin_static (ELit l None) q (lit_spin_static l) n s t k w Hp) as [H|[(u & v & H1 & [] & H3)|[(u & v & H1 & H2 & H3)|H]]].
      + intros x Hx Hf. destruct (Ho x Hx Hf).
      + exact Hw.
      + exact Hv.
      + destruct H as [[]|(u & v & _ & _ & H)]. apply spins_lit in H. destruct H.
      + right. right. left. exists u, v. rewrite rep_first_lit. auto.
      + right. right. right. exact H.
    - destruct q as [q|]; [apply quant_spin_static; assumption|]. exact IH.
  Qed.

  (** *** Completeness *)
  Definition spin_complete_at (e : expr) : Prop := forall n s t c u,
    placed e n s t -> (forall x, In x (bads e n) -> F x) -> (forall i, isq i -> n <= i < n + size e -> c i = 0) ->
    spins e u -> exists k, via (fun x => In x (edges e n s t)) k s c u.

  Lemma accs_spins e n s t c u : spin_complete_at e -> placed e n s t -> (forall x, In x (bads e n) -> F x) ->
    (forall i, isq i -> n <= i < n + size e -> c i = 0) -> spins e u -> accs s c u.
  Proof.
    intros He Hp Hb Hz Hu. destruct (He n s t c u Hp Hb Hz Hu) as (k & Hv). exists (S k). apply via_acc.
    eapply via_mono; [|exact Hv]. intros i y. apply Hp.
  Qed.

  Lemma quant_spins e q : has_empty e = false -> spin_complete_at e -> forall n s t, placed (EGroup e (Some q)) n s t ->
    (forall x, In x (bads (EGroup e (Some q)) n) -> F x) ->
    forall c u, (forall i, isq i -> S n <= i < S n + size e -> c i = 0) -> spins (EGroup e (Some q)) u -> accs n c u.
  Proof.
    intros Hne He n s t Hp Hb c u Hz (j & u1 & u2 & -> & H1 & H2). destruct (placed_quant _ _ _ _ _ _ Hp) as (Hpe & Hq & Hi & Hisq & Hout).
    revert c u1 Hz H1. induction j as [|j IH]; intros c u1 Hz H1.
    - cbn in H1. subst u1. destruct H2 as [[-> Hn]|H2].
      + exists 0. split; [reflexivity|]. apply Hb, bads_group. left. split; [reflexivity|]. apply nullable_spec. exact Hn.
      + eapply accs_spins; [exact He|exact Hpe| |exact Hz|exact H2]. intros x Hx. apply Hb, bads_group. auto.
    - destruct H1 as (v1 & v2 & -> & Hv1 & Hv2). destruct (IH (inc n c) v2) as (k1 & Ha).
      { intros i Hqi Hr. unfold inc. destruct (Nat.eqb_spec i n); [lia|auto]. }
      { assumption. }
      destruct (expr_complete G F e Hne (S n) n n k1 c (inc n c) v1 (v2 ++ u2) Hpe) as (k2 & Hv); auto.
      { apply ceq_refl. }
      exists (S k2). rewrite <- app_assoc. apply via_acc. eapply via_mono; [|exact Hv]. intros i y. apply Hpe.
  Qed.

  Lemma expr_spins : forall e, has_empty e = false -> spin_complete_at e.
  Proof.
    induction e as [|e IH|e e2 es IH1 IH2| |l r IHl IHr|l q|e q IH] using expr_seq_ind; intros Hne.
    - discriminate.
    - intros n s t c u Hp Hb Hz Hu. cbn in Hne. rewrite orb_false_r in Hne.
      destruct Hu as [Hu|(u1 & u2 & _ & _ & [])]. exact (IH Hne n s t c u Hp Hb Hz Hu).
    - intros n s t c u Hp Hb Hz Hu. rewrite size_seq in Hz. rewrite bads_seq in Hb. pose proof Hp as (Hs & _).
      change (has_empty (EConcat (e :: e2 :: es))) with (has_empty e || has_empty (EConcat (e2 :: es))) in Hne.
      apply orb_false_iff in Hne. destruct Hne as [Hn1 Hn2].
      destruct (placed_seq _ _ _ _ _ _ _ Hp) as (Hp1 & Hp2 & Hout & Hnq).
      assert (Hex : exists k, via (fun x => In x (edges e (S n) s n)) k s c u).
      { apply spins_seq in Hu. destruct Hu as [Hu|(u1 & u2 & -> & H1 & H2)].
        - apply (IH1 Hn1 (S n) s n c u Hp1); [| |assumption].
          + intros x Hx. apply Hb, in_or_app. auto.
          + intros i Hi Hr. apply Hz; [assumption|lia].
        - destruct (accs_spins (EConcat (e2 :: es)) (S n + size e) n t (inc s c) u2 (IH2 Hn2) Hp2) as (k1 & Ha).
          { intros x Hx. apply Hb, in_or_app. auto. }
          { intros i Hi Hr. unfold inc. destruct (Nat.eqb_spec i s); [lia|]. apply Hz; [assumption|lia]. }
          { assumption. }
          apply (expr_complete G F e Hn1 (S n) s n k1 c (inc s c) u1 u2 Hp1); auto.
          { intros i Hi Hr. apply Hz; [assumption|lia]. }
          { apply ceq_refl. } }
      destruct Hex as (k & Hv). exists k. eapply via_mono; [|exact Hv]. intros i y H. rewrite edges_seq. apply in_or_app. auto.
    - intros n s t c u Hp Hb Hz [].
    - intros n s t c u Hp Hb Hz Hu. cbn [size] in Hz.
      destruct (placed_alt _ _ _ _ _ _ Hp) as [Hpl Hpr]. cbn in Hne. apply orb_false_iff in Hne. destruct Hne as [Hn1 Hn2].
      destruct Hu as [Hu|Hu].
      + destruct (IHl Hn1 n s t c u Hpl) as (k & Hv); auto.
        { intros x Hx. apply Hb. cbn. apply in_or_app. auto. }
        { intros j Hj Hr. apply Hz; [assumption|lia]. }
        exists k. eapply via_mono; [|exact Hv]. intros i y H. cbn. apply in_or_app. auto.
      + destruct (IHr Hn2 (n + size l) s t c u Hpr) as (k & Hv); auto.
        { intros x Hx. apply Hb. cbn. apply in_or_app. auto. }
        { intros j Hj Hr. apply Hz; [assumption|lia]. }
        exists k. eapply via_mono; [|exact Hv]. intros i y H. cbn. apply in_or_app. auto.
    - intros n s t c u Hp Hb Hz [].
    - cbn in Hne. destruct q as [q|]; [|exact (IH Hne)]. intros n s t c u Hp Hb Hz Hu. pose proof Hp as (Hs & _). cbn [size] in Hz.
      destruct (quant_spins e q Hne (IH Hne) n s t Hp Hb (inc s c) u) as (k & Ha).
      + intros i Hqi Hr. unfold inc. destruct (Nat.eqb_spec i s); [lia|]. apply Hz; [assumption|lia].
      + assumption.
      + exists k, IEps, n. split; [cbn; auto|]. exact Ha.
  Qed.

  Lemma expr_static_spins : forall e, has_empty e = false -> forall n s t u, placed e n s t -> (forall x, In x (bads e n) -> F x) ->
    impl_spins e u -> exists k, svia (fun x => In x (edges e n s t)) k s u.
  Proof.
    induction e as [|e IH|e e2 es IH1 IH2| |l r IHl IHr|l q|e q IH] using expr_seq_ind; intros Hne n s t u Hp Hb Hu.
    - discriminate.
    - cbn in Hne. rewrite orb_false_r in Hne. apply impl_spins_seq in Hu.
      destruct Hu as [Hu|[(u1 & u2 & -> & H1 & [])|[_ []]]]. exact (IH Hne n s t u Hp Hb Hu).
    - change (has_empty (EConcat (e :: e2 :: es))) with (has_empty e || has_empty (EConcat (e2 :: es))) in Hne.
      apply orb_false_iff in Hne. destruct Hne as [Hn1 Hn2]. pose proof Hp as (Hs & _). rewrite bads_seq in Hb.
      destruct (placed_seq _ _ _ _ _ _ _ Hp) as (Hp1 & Hp2 & Hout & Hnq).
      assert (Hex : exists k, svia (fun x => In x (edges e (S n) s n)) k s u).
      { apply impl_spins_seq in Hu. destruct Hu as [Hu|[(u1 & u2 & -> & H1 & H2)|[Hsk Hu]]].
        - apply (IH1 Hn1 (S n) s n u Hp1); [|exact Hu]. intros x Hx. apply Hb, in_or_app. auto.
        - apply (first_svia G F e (S n) s n zero); auto. intros c Hc.
          eapply accs_spins; [apply expr_spins; exact Hn2|exact Hp2| | |exact H2].
          + intros x Hx. apply Hb, in_or_app. auto.
          + intros i _ Hr. destruct Hc as [-> | ->]; [|reflexivity]. unfold inc, zero. destruct (Nat.eqb_spec i s); [lia|reflexivity].
        - destruct (IH2 Hn2 (S n + size e) n t u Hp2) as (k & Hv); [|exact Hu|].
          { intros x Hx. apply Hb, in_or_app. auto. }
          destruct (expr_static_complete G F e Hn1 (S n) s n Hp1) as (_ & _ & A3).
          apply (A3 (S k) u Hsk). apply svia_sacc. eapply svia_mono; [|exact Hv]. intros i y. apply Hp2. }
      destruct Hex as (k & Hv). exists k. eapply svia_mono; [|exact Hv]. intros i y Hi. rewrite edges_seq. apply in_or_app. auto.
    - destruct Hu.
    - cbn in Hne. apply orb_false_iff in Hne. destruct Hne as [Hn1 Hn2].
      destruct (placed_alt _ _ _ _ _ _ Hp) as [Hpl Hpr]. destruct Hu as [Hu|Hu];
        [destruct (IHl Hn1 n s t u Hpl) as (k & Hv); [|exact Hu|]|destruct (IHr Hn2 (n + size l) s t u Hpr) as (k & Hv); [|exact Hu|]];
        try (intros x Hx; apply Hb; cbn; apply in_or_app; auto);
        exists k; (eapply svia_mono; [|exact Hv]); intros i y Hi; cbn; apply in_or_app; auto.
    - destruct Hu.
    - cbn in Hne. destruct q as [q|]; [|exact (IH Hne n s t u Hp Hb Hu)]. pose proof Hp as (Hs & _).
      destruct (placed_quant _ _ _ _ _ _ Hp) as (Hpe & Hq & Hi & Hisq & Hout).
      assert (Hex : exists k, svia (fun x => In x (edges e (S n) n n)) k n u).
      { destruct Hu as [Hu|(u1 & u2 & -> & H1 & H2)].
        - apply (IH Hne (S n) n n u Hpe); [|exact Hu]. intros x Hx. apply Hb, bads_group. auto.
        - apply (first_svia G F e (S n) n n zero); auto. intros c Hc. eapply quant_spins; [exact Hne|apply expr_spins; exact Hne|exact Hp|exact Hb| |exact H2].
          intros i _ Hr. destruct Hc as [-> | ->]; [|reflexivity]. unfold inc, zero. destruct (Nat.eqb_spec i n); [lia|reflexivity]. }
      destruct Hex as (k & Hv). exists (S k). right. exists IEps, n. split; [cbn; auto|]. split; [exact I|].
      apply svia_sacc. eapply svia_mono; [|exact Hv]. intros i y. apply Hpe.
  Qed.

  (** ** Going around without reading *)
  Inductive quiet : nat -> cnt -> nat -> cnt -> Prop :=
  | quiet_nil p c : quiet p c p c
  | quiet_cons p c i y c' z c'' : G (p, i, y) -> silent p c i c' -> quiet y c' z c'' -> quiet p c z c''.

  Lemma quiet_ceq p c z d : quiet p c z d -> forall c', ceq c c' -> exists d', quiet p c' z d' /\ ceq d d'.
  Proof.
    induction 1 as [p c|p c i y c1 z c2 Hg Hs _ IH]; intros c' Hc; [exists c'; split; [constructor|assumption]|].
    destruct i as [l| |q]; cbn in Hs.
    - destruct Hs.
    - subst c1. destruct (IH (inc p c') (ceq_inc G p c c' Hc)) as (d' & H1 & H2). exists d'. split; [|assumption].
      eapply quiet_cons; [exact Hg|reflexivity|exact H1].
    - destruct Hs as [Hs ->]. destruct (IH (zer p c') (ceq_zer G p c c' Hc)) as (d' & H1 & H2). exists d'. split; [|assumption].
      eapply quiet_cons; [exact Hg| |exact H1]. split; [|reflexivity]. rewrite <- (Hc p) by (exists q, y; assumption). assumption.
  Qed.
  Lemma quiet_trans p c y d z d' : quiet p c y d -> quiet y d z d' -> quiet p c z d'.
  Proof. induction 1; [auto|]. intros. eapply quiet_cons; eauto. Qed.

  Definition null_at (e : expr) : Prop := forall n s t c, placed e n s t -> (forall i, isq i -> n <= i < n + size e -> c i = 0) ->
    nullable e = true -> exists d, quiet s c t d /\ ceq d (inc s c).

  Lemma rounds_quiet e q : null_at e -> nullable e = true -> forall n s t, placed (EGroup e (Some q)) n s t ->
    forall j c, (forall i, isq i -> S n <= i < S n + size e -> c i = 0) ->
    exists d, quiet n c n d /\ d n = j + c n /\ (forall i, isq i -> i <> n -> d i = c i).
  Proof.
    intros He Hnull n s t Hp. destruct (placed_quant _ _ _ _ _ _ Hp) as (Hpe & Hq & Hi & Hisq & Hout).
    induction j as [|j IH]; intros c Hz.
    - exists c. split; [constructor|]. auto.
    - destruct (He (S n) n n c Hpe Hz Hnull) as (d1 & H1 & Hd1).
      destruct (IH d1) as (d2 & H2 & Hn2 & Ho2).
      { intros i Hqi Hr. rewrite Hd1 by assumption. unfold inc. destruct (Nat.eqb_spec i n); [lia|]. apply Hz; assumption. }
      exists d2. split; [eapply quiet_trans; eassumption|]. split.
      + rewrite Hn2, Hd1 by assumption. unfold inc. rewrite Nat.eqb_refl. lia.
      + intros i Hqi Hne. rewrite Ho2, Hd1 by assumption. unfold inc. destruct (Nat.eqb_spec i n); congruence.
  Qed.

  Lemma some_allowed q : some_count q = true -> exists j, is_satisfied q j = true.
  Proof.
    intros H. destruct q as [| | |m|m|a b].
    - exists 0. reflexivity.
    - exists 1. reflexivity.
    - exists 0. reflexivity.
    - exists (N.to_nat m). apply satisfied_allowed. cbn. lia.
    - exists (N.to_nat m). apply satisfied_allowed. cbn. lia.
    - cbn in H. apply N.leb_le in H. exists (N.to_nat a). apply satisfied_allowed. cbn. lia.
  Qed.

  Lemma expr_null : forall e, has_empty e = false -> null_at e.
  Proof.
    induction e as [|e IH|e e2 es IH1 IH2| |l r IHl IHr|l q|e q IH] using expr_seq_ind; intros Hne n s t c Hp Hz Hn.
    - discriminate.
    - cbn in Hne, Hn. rewrite orb_false_r in Hne. rewrite andb_true_r in Hn. exact (IH Hne n s t c Hp Hz Hn).
    - change (has_empty (EConcat (e :: e2 :: es))) with (has_empty e || has_empty (EConcat (e2 :: es))) in Hne.
      apply orb_false_iff in Hne. destruct Hne as [Hn1 Hn2]. rewrite nullable_seq in Hn. apply andb_true_iff in Hn. destruct Hn as [Hu1 Hu2].
      rewrite size_seq in Hz. pose proof Hp as (Hs & _). destruct (placed_seq _ _ _ _ _ _ _ Hp) as (Hp1 & Hp2 & Hout & Hnq).
      destruct (IH1 Hn1 (S n) s n c Hp1) as (d1 & Hd1 & Hc1); [intros i Hi Hr; apply Hz; [assumption|lia]|assumption|].
      destruct (IH2 Hn2 (S n + size e) n t d1 Hp2) as (d2 & Hd2 & Hc2); [|assumption|].
      { intros i Hi Hr. rewrite Hc1 by assumption. unfold inc. destruct (Nat.eqb_spec i s); [lia|]. apply Hz; [assumption|lia]. }
      exists d2. split; [eapply quiet_trans; eassumption|].
      eapply ceq_trans; [exact Hc2|]. eapply ceq_trans; [apply ceq_inc_l; assumption|exact Hc1].
    - exists (inc s c). split; [|apply ceq_refl]. apply (quiet_cons s c IEps t (inc s c)); [apply Hp; left; reflexivity|reflexivity|constructor].
    - cbn in Hne, Hn. apply orb_false_iff in Hne. destruct Hne as [Hn1 Hn2]. destruct (placed_alt _ _ _ _ _ _ Hp) as [Hpl Hpr]. cbn [size] in Hz.
      apply orb_true_iff in Hn. destruct Hn as [Hn|Hn].
      + apply (IHl Hn1 n s t c Hpl); [|assumption]. intros i Hi Hr. apply Hz; [assumption|lia].
      + apply (IHr Hn2 (n + size l) s t c Hpr); [|assumption]. intros i Hi Hr. apply Hz; [assumption|lia].
    - destruct q as [q|]; [|discriminate]. cbn in Hn. pose proof Hp as (Hs & _).
      destruct (placed_quant G (ELit l None) q n s t Hp) as (_ & Hq & Hi & Hisq & _).
      assert (Hn0 : inc s c n = 0). { unfold inc. destruct (Nat.eqb_spec n s); [lia|]. apply Hz; [assumption|cbn; lia]. }
      exists (zer n (inc s c)). split.
      + eapply quiet_cons; [exact Hi|reflexivity|]. eapply quiet_cons; [exact Hq| |constructor]. split; [|reflexivity]. rewrite Hn0. assumption.
      + intros i _. unfold zer. destruct (Nat.eqb_spec i n) as [->|]; [symmetry; assumption|reflexivity].
    - cbn in Hne. destruct q as [q|]; [|exact (IH Hne n s t c Hp Hz Hn)]. pose proof Hp as (Hs & _). cbn [size] in Hz.
      destruct (placed_quant _ _ _ _ _ _ Hp) as (_ & Hq & Hi & Hisq & _).
      assert (Hn0 : inc s c n = 0). { unfold inc. destruct (Nat.eqb_spec n s); [lia|]. apply Hz; [assumption|lia]. }
      assert (Hj : exists j d, quiet n (inc s c) n d /\ is_satisfied q j = true /\ d n = j /\ (forall i, isq i -> i <> n -> d i = inc s c i)).
      { cbn in Hn. apply orb_true_iff in Hn. destruct Hn as [Hn|Hn].
        - exists 0, (inc s c). split; [constructor|]. split; [assumption|]. split; [assumption|reflexivity].
        - apply andb_true_iff in Hn. destruct Hn as [Hn Hc]. destruct (some_allowed q Hc) as (j & Hj).
          destruct (rounds_quiet e q (IH Hne) Hn n s t Hp j (inc s c)) as (d & H1 & H2 & H3).
          { intros i Hqi Hr. unfold inc. destruct (Nat.eqb_spec i s); [lia|]. apply Hz; [assumption|lia]. }
          exists j, d. split; [assumption|]. split; [assumption|]. split; [lia|assumption]. }
      destruct Hj as (j & d & H1 & H2 & H3 & H4). exists (zer n d). split.
      + eapply quiet_cons; [exact Hi|reflexivity|]. eapply quiet_trans; [exact H1|]. eapply quiet_cons; [exact Hq| |constructor].
        split; [|reflexivity]. rewrite H3. assumption.
      + intros i Hqi. unfold zer. destruct (Nat.eqb_spec i n) as [->|]; [symmetry; assumption|]. apply H4; assumption.
  Qed.

  (** A bad state can be returned to with every larger counter. *)
  Lemma bads_quiet : forall e, has_empty e = false -> forall n s t x c, placed e n s t -> In x (bads e n) ->
    (forall i, isq i -> x < i < n + size e -> c i = 0) -> forall j, exists d, quiet x c x d /\ d x = j + c x.
  Proof.
    induction e as [|e IH|e e2 es IH1 IH2| |l r IHl IHr|l q|e q IH] using expr_seq_ind; intros Hne n s t x c Hp Hx Hz j.
    - destruct Hx.
    - cbn in Hne. rewrite orb_false_r in Hne. exact (IH Hne n s t x c Hp Hx Hz j).
    - change (has_empty (EConcat (e :: e2 :: es))) with (has_empty e || has_empty (EConcat (e2 :: es))) in Hne.
      apply orb_false_iff in Hne. destruct Hne as [Hn1 Hn2]. rewrite size_seq in Hz.
      destruct (placed_seq _ _ _ _ _ _ _ Hp) as (Hp1 & Hp2 & Hout & Hnq). rewrite bads_seq in Hx. apply in_app_or in Hx. destruct Hx as [Hx|Hx].
      + eapply (IH1 Hn1 (S n) s n x c Hp1 Hx). intros i Hi Hr. apply Hz; [assumption|lia].
      + eapply (IH2 Hn2 (S n + size e) n t x c Hp2 Hx). intros i Hi Hr. apply Hz; [assumption|lia].
    - destruct Hx.
    - cbn in Hne. apply orb_false_iff in Hne. destruct Hne as [Hn1 Hn2]. destruct (placed_alt _ _ _ _ _ _ Hp) as [Hpl Hpr]. cbn [size] in Hz.
      cbn in Hx. apply in_app_or in Hx. destruct Hx as [Hx|Hx].
      + eapply (IHl Hn1 n s t x c Hpl Hx). intros i Hi Hr. apply Hz; [assumption|lia].
      + eapply (IHr Hn2 (n + size l) s t x c Hpr Hx). intros i Hi Hr. apply Hz; [assumption|lia].
    - destruct Hx.
    - cbn in Hne. destruct q as [q|]; [|exact (IH Hne n s t x c Hp Hx Hz j)]. cbn [size] in Hz. apply bads_group in Hx. destruct Hx as [[-> Hn]|Hx].
      + destruct (rounds_quiet e q (expr_null e Hne) Hn n s t Hp j c) as (d & H1 & H2 & _); [|eauto].
        intros i Hi Hr. apply Hz; [assumption|lia].
      + destruct (placed_quant _ _ _ _ _ _ Hp) as (Hpe & _). eapply (IH Hne (S n) n n x c Hpe Hx). intros i Hi Hr. apply Hz; [assumption|lia].
  Qed.
End Graph.

Section Machine.
  Context {env : Env}.

  Lemma first_nonempty : forall e w, lit_first e w \/ rep_first e w -> w <> [].
  Proof.
    assert (Hcat : forall (L L' : list char -> Prop), (forall w, L w -> w <> []) -> forall w, lang_cat L L' w -> w <> []).
    { intros L L' H w (u & v & -> & Hu & _) E. apply app_eq_nil in E. apply (H u Hu). apply E. }
    induction e as [|e IH|e e2 es IH1 IH2| |l r IHl IHr|l q|e q IH] using expr_seq_ind; intros w H.
    - destruct H as [[]|[]].
    - rewrite lit_first_single, rep_first_single in H. auto.
    - rewrite lit_first_seq, rep_first_seq in H. destruct H as [H|[H|[_ H]]].
      + eapply Hcat; [|exact H]. auto.
      + eapply Hcat; [|exact H]. auto.
      + apply IH2. exact H.
    - destruct H as [[]|[]].
    - destruct H as [[H|H]|[H|H]]; auto.
    - destruct q as [q|].
      + destruct H as [[]|(n & _ & H)]. eapply Hcat; [|exact H]. intros v (c & -> & _). discriminate.
      + destruct H as [(c & -> & _)|[]]. discriminate.
    - destruct q as [q|]; [|exact (IH w H)]. destruct H as [[]|[(n & _ & H)|(n & _ & H)]]; (eapply Hcat; [|exact H]); auto.
  Qed.
  Lemma impl_spins_nonempty : forall e w, impl_spins e w -> w <> [].
  Proof.
    assert (Hcat : forall e (L' : list char -> Prop) w, lang_cat (fun u => lit_first e u \/ rep_first e u) L' w -> w <> []).
    { intros e L' w (u & v & -> & Hu & _) E. apply app_eq_nil in E. apply (first_nonempty e u Hu). apply E. }
    induction e as [|e IH|e e2 es IH1 IH2| |l r IHl IHr|l q|e q IH] using expr_seq_ind; intros w H.
    - destruct H.
    - apply impl_spins_seq in H. destruct H as [H|[H|[_ []]]]; [auto|]. eapply Hcat. exact H.
    - apply impl_spins_seq in H. destruct H as [H|[H|[_ H]]]; [auto| |auto]. eapply Hcat. exact H.
    - destruct H.
    - destruct H; auto.
    - destruct H.
    - destruct q as [q|]; [|exact (IH w H)]. destruct H as [H|H]; [auto|]. eapply Hcat. exact H.
  Qed.

  Lemma bads_isq G : forall e n s t x, placed G e n s t -> In x (bads e n) -> isq G x.
  Proof.
    induction e as [|e IH|e e2 es IH1 IH2| |l r IHl IHr|l q|e q IH] using expr_seq_ind; intros n s t x Hp Hx.
    - destruct Hx.
    - exact (IH n s t x Hp Hx).
    - destruct (placed_seq _ _ _ _ _ _ _ Hp) as (Hp1 & Hp2 & _). rewrite bads_seq in Hx. apply in_app_or in Hx. destruct Hx as [Hx|Hx]; eauto.
    - destruct Hx.
    - destruct (placed_alt _ _ _ _ _ _ Hp) as [Hpl Hpr]. cbn in Hx. apply in_app_or in Hx. destruct Hx as [Hx|Hx]; eauto.
    - destruct Hx.
    - destruct q as [q|]; [|exact (IH n s t x Hp Hx)]. destruct (placed_quant _ _ _ _ _ _ Hp) as (Hpe & _ & _ & Hisq & _).
      apply bads_group in Hx. destruct Hx as [[-> _]|Hx]; [assumption|]. eapply IH; eassumption.
  Qed.

  Variables (m : nfa) (k : nat) (l : list expr).
  Hypothesis Hm : machine m k l.

  Lemma quiet_star p c z d : quiet (has_edge m) p c z d -> forall r, r_state r = p -> run_ok r -> ceq (has_edge m) (cof r) c ->
    exists r', star (eps_step m) r r' /\ r_state r' = z /\ ceq (has_edge m) (cof r') d.
  Proof.
    induction 1 as [p c|p c i y c1 z c2 Hg Hs _ IH]; intros r Hr Hok Hc; [exists r; split; [constructor|auto]|].
    subst p. destruct i as [lt| |q]; cbn in Hs.
    - destruct Hs.
    - subst c1. destruct (IH (take_transition r y false) eq_refl (take_ok _ _ _ Hok)) as (r' & H1 & H2).
      { intros j Hj. rewrite cof_take_false by assumption. exact (ceq_inc (has_edge m) _ _ _ Hc j Hj). }
      exists r'. split; [|assumption]. eapply star_left; [|exact H1]. exists IEps, y. auto.
    - destruct Hs as [Hs ->]. destruct (IH (take_transition r y true) eq_refl (take_ok _ _ _ Hok)) as (r' & H1 & H2).
      { intros j Hj. rewrite cof_take_true by assumption. exact (ceq_zer (has_edge m) _ _ _ Hc j Hj). }
      exists r'. split; [|assumption]. eapply star_left; [|exact H1]. exists (IQuant q), y. split; [assumption|]. split; [|reflexivity].
      change (is_satisfied q (cof r (r_state r)) = true). rewrite Hc by (exists q, y; assumption). assumption.
  Qed.

  Lemma after_vrun w : forall x, after m (init m) w x -> vrun m k l x.
  Proof.
    rewrite <- (rev_involutive w). induction (rev w) as [|c v IH]; cbn [rev]; intros x Hx.
    - apply (vrun_init m k l Hm). exact Hx.
    - rewrite after_app in Hx. destruct Hx as (r & r' & Hr & Hc & Hs). eapply vrun_star; [exact Hm| |exact Hs].
      eapply vrun_char; [exact Hm| |exact Hc]. auto.
  Qed.
  Lemma after_star w x y : w <> [] -> after m (init m) w x -> star (eps_step m) x y -> after m (init m) w y.
  Proof.
    intros Hw. destruct (exists_last Hw) as (v & c & ->). rewrite !after_app. cbn [after]. intros (r & r' & Hr & Hc & Hs) Hy.
    exists r, r'. split; [assumption|]. split; [assumption|]. eapply star_trans; eassumption.
  Qed.

  (** A run at a bad state has followers with every counter. *)
  Lemma bad_grows x : vrun m k l x -> mbads k l (r_state x) -> forall j, exists y, star (eps_step m) x y /\ cof y (r_state x) = j + cof x (r_state x).
  Proof.
    intros (Hok & _ & Hv) (e & n & f & Hin & Hx) j. pose proof (machine_placed m k l e n f Hm Hin) as Hp.
    pose proof (placement_in _ _ _ _ _ Hin) as (Hel & _).
    destruct (bads_quiet (has_edge m) e (mc_ok _ _ _ Hm e Hel) n 0 f (r_state x) (cof x) Hp Hx) with (j := j) as (d & Hq & Hd).
    { intros i Hi Hr. destruct (mgroups_isq m k l Hm i Hi) as (z & Hz). apply (Hv i z Hz). lia. }
    destruct (quiet_star _ _ _ _ Hq x eq_refl Hok (ceq_refl _ _)) as (y & Hy & _ & Hc). exists y. split; [assumption|].
    rewrite Hc by (eapply bads_isq; eassumption). assumption.
  Qed.

  Lemma bad_infinite w x : w <> [] -> after m (init m) w x -> mbads k l (r_state x) ->
    forall L, ~ forall y, after m (init m) w y -> In y L.
  Proof.
    intros Hw Hx Hb L HL. pose proof (after_vrun w x Hx) as Hv.
    assert (Hmax : exists B, forall y, In y L -> cof y (r_state x) <= B).
    { clear. induction L as [|y L (B & HB)]; [exists 0; intros y []|]. exists (cof y (r_state x) + B). intros z [<-|Hz]; [lia|].
      apply HB in Hz. lia. }
    destruct Hmax as (B & HB). destruct (bad_grows x Hv Hb (S B)) as (y & Hy & E).
    assert (Hin : In y L) by (apply HL; eapply after_star; eassumption). apply HB in Hin. lia.
  Qed.

  (** Bad states are reached exactly by the texts that spin. *)
  Lemma machine_spins w : w <> [] ->
    (exists x, after m (init m) w x /\ mbads k l (r_state x)) <-> exists e, In e l /\ impl_spins e w.
  Proof.
    intros Hw. rewrite <- init_reads, (mc_start _ _ _ Hm). split.
    - intros (j & Ha). apply sacc_svia in Ha. destruct Ha as [[-> _]|(j' & -> & Hv)]; [congruence|].
      assert (Hex : exists e' n' f', In (e', n', f') (placement k l) /\
                svia (has_edge m) (mbads k l) (fun x => In x (edges e' n' 0 f')) j' 0 w).
      { destruct Hv as [(lt & y & x & w' & He & H)|(i & y & He & H)]; apply (mc_edges _ _ _ Hm) in He;
          destruct He as (e' & n' & f' & Hin' & He); exists e', n', f'; (split; [assumption|]).
        - left. exists lt, y, x, w'. auto.
        - right. exists i, y. auto. }
      destruct Hex as (e & n & f & Hin & Hv').
      assert (Hdead : forall i t, ~ has_edge m (f, i, t)) by (eapply machine_final_dead; eauto).
      assert (Hnf : ~ mbads k l f) by (apply mbads_final; eauto).
      pose proof (placement_in _ _ _ _ _ Hin) as (Hel & _).
      apply (expr_spin_static _ _ e n 0 f j' w) in Hv'; [|eapply machine_placed; eauto| |assumption].
      2:{ intros x Hx Hb. eapply mbads_at; eassumption. }
      destruct Hv' as [Hb|[(u & v & -> & Hu & Ha)|[(u & v & -> & Hu & Ha)|(Hs & k' & _ & Ha)]]].
      + eauto.
      + apply dead_accs in Ha; [|assumption]. destruct Ha as [_ Ha]. contradiction.
      + apply dead_accs in Ha; [|assumption]. destruct Ha as [_ Ha]. contradiction.
      + apply dead_sacc in Ha; [|assumption]. destruct Ha as [_ Ha]. contradiction.
    - intros (e & Hel & Hb).
      assert (Hin : exists n f, In (e, n, f) (placement k l)).
      { apply In_nth_error in Hel. destruct Hel as (j & Hj). destruct (placement_nth l k j e Hj) as (n & f & Hp).
        apply nth_error_In in Hp. eauto. }
      destruct Hin as (n & f & Hin). pose proof (machine_placed m k l e n f Hm Hin) as Hp.
      destruct (expr_static_spins _ (mbads k l) e (mc_ok _ _ _ Hm e Hel) n 0 f w Hp) as (j & Hv); [|exact Hb|].
      { intros x Hx. exists e, n, f. auto. }
      exists (S j). apply svia_sacc. eapply svia_mono; [|exact Hv]. intros i y. apply Hp.
  Qed.

  Lemma spin_infinite w e : In e l -> impl_spins e w -> forall L, ~ forall y, after m (init m) w y -> In y L.
  Proof.
    intros Hel Hs. pose proof (impl_spins_nonempty e w Hs) as Hw. destruct (proj2 (machine_spins w Hw)) as (x & Hx & Hb); [eauto|].
    eapply bad_infinite; eassumption.
  Qed.

  Lemma spinless_finite w : (forall e, In e l -> ~ spinning e w) ->
    exists L, (forall x, In x L <-> after m (init m) w x) /\ forall r, In r L -> vrun m k l r.
  Proof.
    intros Hns. apply (machine_safe_finite m k l w Hm). intros v c u x -> Hx Hb.
    assert (Hw : v ++ [c] <> []) by (intros E; apply app_eq_nil in E; destruct E as [_ E]; discriminate).
    destruct (proj1 (machine_spins (v ++ [c]) Hw)) as (e & Hel & Hs).
    - eauto.
    - apply (Hns e Hel). exists (v ++ [c]), u. rewrite <- app_assoc. auto.
  Qed.

  Lemma spinning_app e w v : spinning e w -> spinning e (w ++ v).
  Proof. intros (a & b & -> & H). exists a, (b ++ v). rewrite app_assoc. auto. Qed.

  Lemma spin_diverges (ho : HashOrder) fuel w e : In e l -> spinning e w -> sim_text fuel m w = Diverge.
  Proof.
    intros Hel (u & v & -> & Hs). pose proof (machine_wf _ _ _ Hm) as [_ Hwf].
    destruct (sim_text fuel m (u ++ v)) as [rs| |] eqn:E; [exfalso| |reflexivity].
    - destruct (sim_text_prefix m fuel u v rs E) as (rs' & E'). apply (spin_infinite u e Hel Hs rs').
      intros y Hy. apply (sim_text_spec m fuel u rs' Hwf E'). assumption.
    - destruct (sim_text_no_panic m fuel (u ++ v) Hwf E).
  Qed.
  Lemma spinless_total w : (forall e, In e l -> ~ spinning e w) ->
    exists N, forall (ho : HashOrder) fuel, N <= fuel -> exists rs, sim_text fuel m w = Val rs.
  Proof.
    intros Hns. apply sim_text_total; [apply (machine_wf _ _ _ Hm)|]. intros v u ->.
    destruct (spinless_finite v) as (L & HL & _).
    - intros e Hel Hs. apply (Hns e Hel). apply spinning_app. assumption.
    - exists L. intros x Hx. apply HL. assumption.
  Qed.
End Machine.

(** ** One regex *)
Section One.
  Context {env : Env}.

  Lemma spinning_exact e m w : nfa_from e = Val m ->
    (spinning e w -> forall (ho : HashOrder) fuel, simulate fuel m w = Diverge) /\
    (~ spinning e w -> exists N, forall (ho : HashOrder) fuel, N <= fuel -> exists b, simulate fuel m w = Val b).
  Proof.
    intros H. destruct (nfa_from_ok e m H) as [_ Hm]. pose proof (machine_wf _ _ _ Hm) as [_ Hwf]. split.
    - intros Hs ho fuel. rewrite simulate_text, (spin_diverges m 1 [e] Hm ho fuel w e (or_introl eq_refl) Hs). reflexivity.
    - intros Hns. destruct (spinless_total m 1 [e] Hm w) as (N & HN); [intros e' [<-|[]]; assumption|].
      exists N. intros ho fuel Hf. eapply simulate_total; eassumption.
  Qed.

  (** Regexes matched correctly start without the special cases. *)
  Lemma lead_spins : forall e, lead_ok e = true -> forall w, w <> [] -> impl_spins e w <-> spins e w.
  Proof.
    induction e as [|e IH|e e2 es IH1 IH2| |l r IHl IHr|l q|e q IH] using expr_seq_ind; intros Hl w Hw.
    - reflexivity.
    - cbn in Hl. apply andb_true_iff in Hl. destruct Hl as [Hl _]. rewrite impl_spins_seq, spins_seq, (IH Hl w Hw). split.
      + intros [H|[(u & v & _ & _ & [])|[_ []]]]. auto.
      + intros [H|(u & v & _ & _ & [])]. auto.
    - change (lead_ok (EConcat (e :: e2 :: es))) with (lead_ok e && (negb (may_skip e) || lead_ok (EConcat (e2 :: es)))) in Hl.
      apply andb_true_iff in Hl. destruct Hl as [Hl1 Hl2]. rewrite impl_spins_seq, spins_seq, (IH1 Hl1 w Hw). split.
      + intros [H|[(u & v & -> & H & Hv)|[Hs H]]]; [auto| |].
        * right. exists u, v. split; [reflexivity|]. split; [|assumption].
          destruct H; [apply lit_first_lang|apply lead_rep]; assumption.
        * right. exists [], w. split; [reflexivity|]. split; [apply skippable_lang; assumption|].
          apply may_skip_skippable in Hs. rewrite Hs in Hl2. apply IH2; assumption.
      + intros [H|(u & v & -> & Hu & Hv)]; [auto|]. destruct (lead_impl e u Hl1 Hu) as [[Hs ->]|H].
        * right. right. split; [assumption|]. apply may_skip_skippable in Hs. rewrite Hs in Hl2. apply IH2; assumption.
        * right. left. exists u, v. auto.
    - reflexivity.
    - cbn in Hl. apply andb_true_iff in Hl. destruct Hl as [Hl1 Hl2]. cbn. rewrite (IHl Hl1 w Hw), (IHr Hl2 w Hw). reflexivity.
    - reflexivity.
    - destruct q as [q|]; [|apply IH; assumption]. cbn [lead_ok] in Hl. apply andb_true_iff in Hl. destruct Hl as [Hl _]. split.
      + intros [H|(u & v & -> & H & n & v1 & v2 & -> & H1 & H2)].
        * exists 0, [], w. split; [reflexivity|]. split; [reflexivity|]. right. apply IH; assumption.
        * exists (S n), (u ++ v1), v2. split; [apply app_assoc|]. split; [|assumption]. exists u, v1. split; [reflexivity|]. split; [|assumption].
          destruct H; [apply lit_first_lang|apply lead_rep]; assumption.
      + intros (n & u & v & -> & Hu & Hv). revert u Hu Hw. induction n as [|n IHn]; intros u Hu Hw.
        * cbn in Hu. subst u. destruct Hv as [[-> _]|Hv]; [destruct (Hw eq_refl)|]. left. apply IH; assumption.
        * destruct Hu as (u1 & u2 & -> & H1 & H2). destruct (lead_impl e u1 Hl H1) as [[Hs ->]|H]; [apply IHn; [exact H2|exact Hw]|].
          right. exists u1, (u2 ++ v). split; [symmetry; apply app_assoc|]. split; [assumption|]. exists n, u2, v. auto.
  Qed.

  Lemma lead_spinning e m w : nfa_from e = Val m -> lead_ok e = true ->
    ((exists u v, w = u ++ v /\ u <> [] /\ spins e u) -> forall (ho : HashOrder) fuel, simulate fuel m w = Diverge) /\
    ((forall u v, w = u ++ v -> u <> [] -> ~ spins e u) ->
     exists N, forall (ho : HashOrder) fuel, N <= fuel -> exists b, simulate fuel m w = Val b).
  Proof.
    intros H Hl. destruct (spinning_exact e m w H) as [H1 H2]. split.
    - intros (u & v & -> & Hu & Hs). apply H1. exists u, v. split; [reflexivity|]. apply (lead_spins e Hl u Hu). exact Hs.
    - intros Hn. apply H2. intros (u & v & -> & Hs). pose proof (impl_spins_nonempty e u Hs) as Hu.
      apply (Hn u v eq_refl Hu). apply (lead_spins e Hl u Hu). exact Hs.
  Qed.

  (** Repeated groups without empty rounds cannot spin. *)
  Lemma loops_spins : forall e, loops_ok e = true -> forall w, ~ spins e w.
  Proof.
    induction e as [|e IH|e e2 es IH1 IH2| |l r IHl IHr|l q|e q IH] using expr_seq_ind; intros Hl w.
    - intros [].
    - cbn in Hl. apply andb_true_iff in Hl. destruct Hl as [Hl _]. rewrite spins_seq. intros [H|(u & v & _ & _ & [])]. exact (IH Hl w H).
    - change (loops_ok (EConcat (e :: e2 :: es))) with (loops_ok e && loops_ok (EConcat (e2 :: es))) in Hl.
      apply andb_true_iff in Hl. destruct Hl as [Hl1 Hl2]. rewrite spins_seq. intros [H|(u & v & _ & _ & H)]; [exact (IH1 Hl1 w H)|exact (IH2 Hl2 v H)].
    - intros [].
    - cbn in Hl. apply andb_true_iff in Hl. destruct Hl as [Hl1 Hl2]. intros [H|H]; [exact (IHl Hl1 w H)|exact (IHr Hl2 w H)].
    - intros [].
    - destruct q as [q|]; [|exact (IH Hl w)]. cbn [loops_ok] in Hl. apply andb_true_iff in Hl. destruct Hl as [Hl Hn].
      intros (n & u & v & _ & _ & [[_ H]|H]); [|exact (IH Hl v H)]. apply nullable_spec in H. rewrite H in Hn. discriminate.
  Qed.
  Lemma loops_impl_spins : forall e, loops_ok e = true -> forall w, ~ impl_spins e w.
  Proof.
    induction e as [|e IH|e e2 es IH1 IH2| |l r IHl IHr|l q|e q IH] using expr_seq_ind; intros Hl w.
    - intros [].
    - cbn in Hl. apply andb_true_iff in Hl. destruct Hl as [Hl _]. rewrite impl_spins_seq.
      intros [H|[(u & v & _ & _ & [])|[_ []]]]. exact (IH Hl w H).
    - change (loops_ok (EConcat (e :: e2 :: es))) with (loops_ok e && loops_ok (EConcat (e2 :: es))) in Hl.
      apply andb_true_iff in Hl. destruct Hl as [Hl1 Hl2]. rewrite impl_spins_seq.
      intros [H|[(u & v & _ & _ & H)|[_ H]]]; [exact (IH1 Hl1 w H)| |exact (IH2 Hl2 w H)].
      exact (loops_spins (EConcat (e2 :: es)) Hl2 v H).
    - intros [].
    - cbn in Hl. apply andb_true_iff in Hl. destruct Hl as [Hl1 Hl2]. intros [H|H]; [exact (IHl Hl1 w H)|exact (IHr Hl2 w H)].
    - intros [].
    - destruct q as [q|]; [|exact (IH Hl w)]. pose proof (loops_spins (EGroup e (Some q)) Hl) as Hg.
      cbn [loops_ok] in Hl. apply andb_true_iff in Hl. destruct Hl as [Hl _]. intros [H|(u & v & _ & _ & H)]; [exact (IH Hl w H)|exact (Hg v H)].
  Qed.
  Lemma loops_spinning e w : loops_ok e = true -> ~ spinning e w.
  Proof. intros Hl (u & v & _ & H). exact (loops_impl_spins e Hl u H). Qed.
End One.
