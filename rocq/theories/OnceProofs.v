(** How many runs the simulator keeps for settled regexes. *)
From Verif Require Import Base RegexModel SpecRegex RegexParseProofs RegexProofs NfaModel SpecNfa NfaCompileProofs NfaLangProofs NfaSimProofs
  NfaMachineProofs NfaTermProofs LexerModel NfaProofs NfaWitness DotProofs LexerProofs SpecOnce.

(** ** Sums *)
Definition sums {A} (f : A -> nat) (l : list A) : nat := list_sum (map f l).
Lemma sums_nil {A} (f : A -> nat) : sums f [] = 0. Proof. reflexivity. Qed.
Lemma sums_cons {A} (f : A -> nat) x l : sums f (x :: l) = f x + sums f l. Proof. reflexivity. Qed.
Lemma sums_app {A} (f : A -> nat) l l' : sums f (l ++ l') = sums f l + sums f l'.
Proof. induction l as [|x l IH]; [reflexivity|]. cbn [app]. rewrite !sums_cons, IH. lia. Qed.
Lemma sums_perm {A} (f : A -> nat) l l' : Permutation l l' -> sums f l = sums f l'.
Proof. induction 1; rewrite ?sums_cons; lia. Qed.
Lemma sums_incl {A} (f : A -> nat) l : NoDup l -> forall l', incl l l' -> sums f l <= sums f l'.
Proof.
  induction 1 as [|x l Hx Hn IH]; intros l' Hi; [rewrite sums_nil; lia|].
  destruct (in_split x l' (Hi x (or_introl eq_refl))) as (a & b & ->).
  rewrite sums_app, !sums_cons. enough (sums f l <= sums f (a ++ b)) by (rewrite sums_app in H; lia).
  apply IH. intros y Hy. specialize (Hi y (or_intror Hy)). apply in_app_iff in Hi. apply in_app_iff.
  destruct Hi as [Hi|[->|Hi]]; auto. contradiction.
Qed.
Lemma sums_map {A B} (f : B -> nat) (g : A -> B) l : sums f (map g l) = sums (fun x => f (g x)) l.
Proof. unfold sums. rewrite map_map. reflexivity. Qed.
Lemma sums_le {A} (f : A -> nat) l N : (forall x, In x l -> f x <= N) -> sums f l <= length l * N.
Proof.
  induction l as [|x l IH]; intros H; [rewrite sums_nil; lia|]. rewrite sums_cons. cbn [length].
  specialize (H x (or_introl eq_refl)) as Hx. assert (sums f l <= length l * N) by (apply IH; intros; apply H; right; assumption). lia.
Qed.

(** A list is divided by two properties. *)
Lemma divide {A} (P Q : A -> Prop) l : (forall x, In x l -> P x \/ Q x) ->
  exists l1 l2, Permutation l (l1 ++ l2) /\ (forall x, In x l1 -> P x) /\ (forall x, In x l2 -> Q x).
Proof.
  induction l as [|x l IH]; intros H.
  - exists [], []. split; [constructor|]. split; intros x [].
  - destruct IH as (l1 & l2 & Hp & H1 & H2); [intros y Hy; apply H; right; assumption|].
    destruct (H x (or_introl eq_refl)) as [Hx|Hx].
    + exists (x :: l1), l2. split; [constructor; assumption|]. split; [|assumption]. intros y [<-|Hy]; auto.
    + exists l1, (x :: l2). split; [apply Permutation_cons_app; assumption|]. split; [assumption|]. intros y [<-|Hy]; auto.
Qed.
Lemma nodup_parts {A} (l l1 l2 : list A) : NoDup l -> Permutation l (l1 ++ l2) -> NoDup l1 /\ NoDup l2.
Proof.
  intros Hn Hp. apply (Permutation_NoDup Hp) in Hn. clear Hp. induction l1 as [|x l1 IH]; cbn in Hn; [split; [constructor|assumption]|].
  inversion Hn; subst. destruct IH as [I1 I2]; [assumption|]. split; [|assumption]. constructor; [|assumption].
  intros Hx. apply H1, in_app_iff. auto.
Qed.

(** ** Weights along a regex *)

(** The weight of all that is reached in [e] without reading, if [k] is the weight of
    what comes after: [v] for each state and [a] for each literal. *)
Fixpoint tally (v : nat) (a : lit -> nat) (e : expr) (k : nat) : nat :=
  match e with
  | EConcat es => (fix go (es : list expr) : nat :=
                     match es with
                     | [] => k
                     | e :: rest => match rest with [] => tally v a e k | _ :: _ => tally v a e (v + go rest) end
                     end) es
  | EEmpty => k
  | EAlt l r => tally v a l k + tally v a r k
  | ELit l None => a l
  | ELit l (Some q) => v + (a l + (if is_satisfied q 0 then k else 0))
  | EGroup e None => tally v a e k
  | EGroup e (Some q) => v + (tally v a e 0 + (if is_satisfied q 0 then k else 0))
  end.
Lemma tally_seq v a e e2 es k : tally v a (EConcat (e :: e2 :: es)) k = tally v a e (v + tally v a (EConcat (e2 :: es)) k).
Proof. reflexivity. Qed.

(** After every literal of [e] the weight is at most [B]. *)
Fixpoint limited (v : nat) (a : lit -> nat) (B : nat) (e : expr) (k : nat) : Prop :=
  match e with
  | EConcat es => (fix go (es : list expr) : Prop :=
                     match es with
                     | [] => True
                     | e :: rest => match rest with
                                    | [] => limited v a B e k
                                    | _ :: _ => limited v a B e (v + tally v a (EConcat rest) k) /\ go rest
                                    end
                     end) es
  | EEmpty => True
  | EAlt l r => limited v a B l k /\ limited v a B r k
  | ELit l None => k <= B
  | ELit l (Some _) => v + (a l + k) <= B
  | EGroup e None => limited v a B e k
  | EGroup e (Some _) => limited v a B e (v + (tally v a e 0 + k))
  end.
Lemma limited_seq v a B e e2 es k : limited v a B (EConcat (e :: e2 :: es)) k =
  (limited v a B e (v + tally v a (EConcat (e2 :: es)) k) /\ limited v a B (EConcat (e2 :: es)) k).
Proof. reflexivity. Qed.

Lemma limited_mono v a B B' : B <= B' -> forall e k, limited v a B e k -> limited v a B' e k.
Proof.
  intros HB. induction e as [|e IH|e e2 es IH1 IH2| |l r IHl IHr|l q|e q IH] using expr_seq_ind; intros k H.
  - exact I.
  - exact (IH k H).
  - rewrite limited_seq in *. destruct H. split; auto.
  - exact I.
  - destruct H. split; auto.
  - destruct q; cbn in *; lia.
  - destruct q; cbn in *; auto.
Qed.
Lemma limited_exists v a : forall e k, exists B, limited v a B e k.
Proof.
  induction e as [|e IH|e e2 es IH1 IH2| |l r IHl IHr|l q|e q IH] using expr_seq_ind; intros k.
  - exists 0. exact I.
  - exact (IH k).
  - destruct (IH1 (v + tally v a (EConcat (e2 :: es)) k)) as (B1 & H1), (IH2 k) as (B2 & H2). exists (B1 + B2).
    rewrite limited_seq. split; (eapply limited_mono; [|eassumption]); lia.
  - exists 0. exact I.
  - destruct (IHl k) as (B1 & H1), (IHr k) as (B2 & H2). exists (B1 + B2). split; (eapply limited_mono; [|eassumption]); lia.
  - destruct q as [q|]; [exists (v + (a l + k))|exists k]; cbn; lia.
  - destruct q as [q|]; [exact (IH _)|exact (IH k)].
Qed.

(** *** The number of ways to read a character *)
Section Ways.
  Context {env : Env}.
  Variable c : char.

  Definition takes (l : lit) : nat := if lit_contains l c then 1 else 0.

  Lemma openers_tally : forall e k, sums takes (openers e k) = tally 0 takes e (sums takes k).
  Proof.
    induction e as [|e IH|e e2 es IH1 IH2| |l r IHl IHr|l q|e q IH] using expr_seq_ind; intros k.
    - reflexivity.
    - exact (IH k).
    - rewrite tally_seq. cbn [Nat.add]. rewrite <- IH2, <- IH1. reflexivity.
    - reflexivity.
    - cbn [openers tally]. rewrite sums_app, IHl, IHr. reflexivity.
    - destruct q as [q|]; cbn [openers tally]; rewrite sums_cons; [destruct (is_satisfied q 0)|]; rewrite ?sums_nil; lia.
    - destruct q as [q|]; cbn [openers tally]; [|apply IH]. rewrite sums_app, IH. destruct (is_satisfied q 0); rewrite ?sums_nil; lia.
  Qed.

  Lemma apart_takes ls : apart ls -> sums takes ls <= 1.
  Proof.
    induction 1 as [|x l Hx Hl IH]; [rewrite sums_nil; lia|]. rewrite sums_cons. unfold takes at 1.
    destruct (lit_contains x c) eqn:E; [|lia]. enough (H0 : sums takes l = 0) by lia. clear IH Hl.
    induction l as [|y l IH]; [reflexivity|]. inversion Hx; subst. rewrite sums_cons, IH by assumption. unfold takes.
    destruct (lit_contains y c) eqn:E'; [|reflexivity]. exfalso. apply (H1 c). split; apply lit_spec; assumption.
  Qed.

  Lemma settled_limited : forall e k, settled e k -> limited 0 takes 1 e (sums takes k).
  Proof.
    induction e as [|e IH|e e2 es IH1 IH2| |l r IHl IHr|l q|e q IH] using expr_seq_ind; intros k H.
    - exact I.
    - destruct H as [H _]. exact (IH k H).
    - rewrite limited_seq. destruct H as [H1 H2]. split.
      + apply IH1 in H1. rewrite openers_tally in H1. exact H1.
      + apply IH2. exact H2.
    - exact I.
    - destruct H. split; auto.
    - destruct q as [q|]; cbn [settled limited] in *; apply apart_takes in H; [rewrite sums_cons in H|]; lia.
    - destruct q as [q|]; cbn [settled limited] in *; [|auto]. apply IH in H. rewrite sums_app, openers_tally in H. exact H.
  Qed.
End Ways.

(** ** Weights of closures *)
Section Caps.
  Context {env : Env}.
  Variables (m : nfa) (kk : nat) (es : list expr).
  Hypothesis Hm : machine m kk es.
  Notation G := (has_edge m).
  Notation vrun := (vrun m kk es).
  Variables (v : nat) (a : lit -> nat) (W : nat -> nat).

  (** The literals of a list of edges that leave [p]. *)
  Definition out (p : nat) (E : list edge) : nat :=
    sums (fun x => match x with (p', ILit l, _) => if p' =? p then a l else 0 | _ => 0 end) E.

  Hypothesis HW : forall p E, (forall i t, G (p, i, t) -> In (p, i, t) E) -> W p <= v + out p E.

  Lemma out_app p E E' : out p (E ++ E') = out p E + out p E'.
  Proof. apply sums_app. Qed.
  Lemma out_off p E : (forall x i y, In (x, i, y) E -> x <> p) -> out p E = 0.
  Proof.
    intros H. unfold out. induction E as [|[[x i] y] E IH]; [reflexivity|]. rewrite sums_cons, IH by (intros; eapply H; right; eassumption).
    specialize (H x i y (or_introl eq_refl)). destruct i; try reflexivity. destruct (Nat.eqb_spec x p); [contradiction|reflexivity].
  Qed.

  (** A step along an edge of [E] that reads nothing. *)
  Definition estep (E : list edge) (r r' : run) : Prop :=
    exists i t, In (r_state r, i, t) E /\
      match i with
      | ILit _ => False
      | IEps => r' = take_transition r t false
      | IQuant q => is_satisfied q (counters_get (r_state r) (r_cnt r)) = true /\ r' = take_transition r t true
      end.

  Definition cap (r : run) (N : nat) : Prop :=
    forall L, NoDup L -> (forall x, In x L -> star (eps_step m) r x) -> sums (fun x => W (r_state x)) L <= N.
  Definition cape (E : list edge) (r : run) (N : nat) : Prop :=
    forall L, NoDup L -> (forall x, In x L -> exists y, estep E r y /\ star (eps_step m) y x) ->
      sums (fun x => W (r_state x)) L + out (r_state r) E <= N.

  Lemma cape_le E r N N' : N <= N' -> cape E r N -> cape E r N'.
  Proof. intros H Hc L H1 H2. specialize (Hc L H1 H2). lia. Qed.
  Lemma cap_le r N N' : N <= N' -> cap r N -> cap r N'.
  Proof. intros H Hc L H1 H2. specialize (Hc L H1 H2). lia. Qed.

  Lemma cape_app E E' r N N' : cape E r N -> cape E' r N' -> cape (E ++ E') r (N + N').
  Proof.
    intros H H' L Hn HL.
    destruct (divide (fun x => exists y, estep E r y /\ star (eps_step m) y x) (fun x => exists y, estep E' r y /\ star (eps_step m) y x) L)
      as (l1 & l2 & Hp & H1 & H2).
    { intros x Hx. destruct (HL x Hx) as (y & (i & t & Hin & Hi) & Hs). apply in_app_iff in Hin.
      destruct Hin as [Hin|Hin]; [left|right]; exists y; (split; [exists i, t; auto|assumption]). }
    destruct (nodup_parts _ _ _ Hn Hp) as [N1 N2]. rewrite (sums_perm _ _ _ Hp), sums_app, out_app.
    specialize (H l1 N1 H1). specialize (H' l2 N2 H2). lia.
  Qed.

  Lemma cape_none E r : (forall y, ~ estep E r y) -> out (r_state r) E = 0 -> cape E r 0.
  Proof.
    intros H Ho L _ HL. rewrite Ho. destruct L as [|x L]; [rewrite sums_nil; lia|].
    destruct (HL x (or_introl eq_refl)) as (y & Hy & _). destruct (H y Hy).
  Qed.

  (** An edge from elsewhere. *)
  Lemma cape_off x i y E r N : x <> r_state r -> cape E r N -> cape ((x, i, y) :: E) r N.
  Proof.
    intros Hx H. change ((x, i, y) :: E) with ([(x, i, y)] ++ E). change N with (0 + N). apply cape_app; [|assumption].
    apply cape_none.
    - intros z (i' & t & [[= E1]|[]] & _). congruence.
    - apply out_off. intros x' i' y' [[= <- <- <-]|[]]. assumption.
  Qed.

  Lemma cape_eps r t N : cap (take_transition r t false) N -> cape [(r_state r, IEps, t)] r N.
  Proof.
    intros H L Hn HL. replace (out (r_state r) [(r_state r, IEps, t)]) with 0 by reflexivity. rewrite Nat.add_0_r. apply H; [assumption|].
    intros x Hx. destruct (HL x Hx) as (y & (i & t' & [[= <- <-]|[]] & Hi) & Hs). subst y. assumption.
  Qed.
  Lemma cape_quant r q t N : (is_satisfied q (counters_get (r_state r) (r_cnt r)) = true -> cap (take_transition r t true) N) ->
    cape [(r_state r, IQuant q, t)] r N.
  Proof.
    intros H L Hn HL. replace (out (r_state r) [(r_state r, IQuant q, t)]) with 0 by reflexivity. rewrite Nat.add_0_r.
    destruct L as [|x L]; [rewrite sums_nil; lia|]. apply H; [|assumption|].
    - destruct (HL x (or_introl eq_refl)) as (y & (i & t' & [[= <- <-]|[]] & Hi) & Hs). apply Hi.
    - intros z Hz. destruct (HL z Hz) as (y & (i & t' & [[= <- <-]|[]] & Hi) & Hs). destruct Hi as [_ ->]. assumption.
  Qed.
  Lemma cape_lit r l t : cape [(r_state r, ILit l, t)] r (a l).
  Proof.
    intros L Hn HL. unfold out. rewrite sums_cons, sums_nil, Nat.eqb_refl.
    destruct L as [|x L]; [rewrite sums_nil; lia|].
    destruct (HL x (or_introl eq_refl)) as (y & (i & t' & [[= <- <-]|[]] & Hi) & Hs). destruct Hi.
  Qed.

  (** All edges of the state. *)
  Lemma cape_cap E r N : (forall i t, G (r_state r, i, t) -> In (r_state r, i, t) E) -> cape E r N -> cap r (v + N).
  Proof.
    intros HE H L Hn HL. pose proof (HW (r_state r) E HE) as Hw.
    assert (Hst : forall x, star (eps_step m) r x -> x = r \/ exists y, estep E r y /\ star (eps_step m) y x).
    { intros x Hx. apply star_case in Hx. destruct Hx as [<-|(y & (i & t & He & Hi) & Hx)]; [auto|]. right. exists y. split; [|assumption].
      exists i, t. auto. }
    destruct (divide (eq r) (fun x => exists y, estep E r y /\ star (eps_step m) y x) L) as (l1 & l2 & Hp & H1 & H2).
    { intros x Hx. destruct (Hst x (HL x Hx)) as [->|Hx']; auto. }
    destruct (nodup_parts _ _ _ Hn Hp) as [N1 N2]. rewrite (sums_perm _ _ _ Hp), sums_app. specialize (H l2 N2 H2).
    assert (Hl1 : sums (fun x => W (r_state x)) l1 <= W (r_state r)).
    { destruct l1 as [|x [|y l1]]; [rewrite sums_nil; lia| |].
      - rewrite sums_cons, sums_nil, <- (H1 x (or_introl eq_refl)). lia.
      - exfalso. inversion N1; subst. apply H4. left. rewrite <- (H1 x), <- (H1 y); cbn; auto. }
    lia.
  Qed.

  Lemma take_eps r t : vrun r -> G (r_state r, IEps, t) -> vrun (take_transition r t false) /\ r_state (take_transition r t false) = t.
  Proof. intros Hv He. split; [|reflexivity]. eapply (vrun_eps m kk es Hm r); [assumption|]. exists IEps, t. auto. Qed.
  Lemma take_quant r q t : vrun r -> G (r_state r, IQuant q, t) -> is_satisfied q (counters_get (r_state r) (r_cnt r)) = true ->
    vrun (take_transition r t true) /\ r_state (take_transition r t true) = t.
  Proof. intros Hv He Hs. split; [|reflexivity]. eapply (vrun_eps m kk es Hm r); [assumption|]. exists (IQuant q), t. auto. Qed.

  Lemma cape_inner e n s t r : s < n -> t < n -> r_state r < n -> r_state r <> s -> cape (edges e n s t) r 0.
  Proof.
    intros Hs Ht Hr Hne. apply cape_none.
    - intros y (i & z & Hin & _). apply edges_range in Hin. lia.
    - apply out_off. intros x i y Hin Hx. subst x. apply edges_range in Hin. lia.
  Qed.

  (** *** Entering a regex *)
  Definition all_in (e : expr) (n : nat) : Prop :=
    forall i z, mgroups kk es (i, z) -> n <= i < n + size e -> In (i, z) (groups e n).
  Definition entry_cap (e : expr) : Prop := forall n s t k r,
    placed G e n s t -> loops_ok e = true -> all_in e n -> vrun r -> r_state r = s ->
    (nullable e = true -> forall y, vrun y -> r_state y = t -> cap y k) -> cape (edges e n s t) r (tally v a e k).

  Lemma all_in_group e q n : all_in (EGroup e (Some q)) n -> all_in e (S n).
  Proof.
    unfold all_in. intros Hg i z H1 H2. apply Hg in H1; [|cbn [size]; lia]. cbn in H1. destruct H1 as [[= <- <-]|H1]; [lia|assumption].
  Qed.
  Lemma all_in_seq e e2 rest n : all_in (EConcat (e :: e2 :: rest)) n -> all_in e (S n) /\ all_in (EConcat (e2 :: rest)) (S n + size e).
  Proof.
    unfold all_in. intros Hg. split; intros i z H1 H2; (apply Hg in H1; [|rewrite size_seq; lia]); rewrite groups_seq in H1; apply in_app_or in H1;
      destruct H1 as [H1|H1]; try assumption; apply groups_range in H1; lia.
  Qed.
  Lemma all_in_alt l r n : all_in (EAlt l r) n -> all_in l n /\ all_in r (n + size l).
  Proof.
    unfold all_in. intros Hg. split; intros i z H1 H2; (apply Hg in H1; [|cbn [size]; lia]); cbn in H1; apply in_app_or in H1;
      destruct H1 as [H1|H1]; try assumption; apply groups_range in H1; lia.
  Qed.

  Lemma loops_seq e rest : loops_ok (EConcat (e :: rest)) = loops_ok e && loops_ok (EConcat rest).
  Proof. reflexivity. Qed.

  (** At the state of a repeated group. *)
  Lemma quant_cap e q : entry_cap e -> forall n s t k r, placed G (EGroup e (Some q)) n s t -> loops_ok (EGroup e (Some q)) = true ->
    all_in (EGroup e (Some q)) n -> vrun r -> r_state r = n ->
    (is_satisfied q (counters_get n (r_cnt r)) = true -> forall y, vrun y -> r_state y = t -> cap y k) ->
    cap r (v + (tally v a e 0 + k)).
  Proof.
    intros He n s t k r Hp Hl Hg Hv Hr Hk. cbn in Hl. apply andb_true_iff in Hl. destruct Hl as [Hl Hn].
    destruct (placed_quant _ _ _ _ _ _ Hp) as (Hpe & Hq & Hi & Hisq & Hout).
    apply (cape_cap ((n, IQuant q, t) :: edges e (S n) n n)).
    - rewrite Hr. intros i y Hgg. destruct (Hout i y Hgg) as [[-> ->]|H]; [left; reflexivity|right; assumption].
    - change ((n, IQuant q, t) :: edges e (S n) n n) with ([(n, IQuant q, t)] ++ edges e (S n) n n). rewrite Nat.add_comm. apply cape_app.
      + rewrite <- Hr. apply cape_quant. rewrite Hr. intros Hs.
        destruct (take_quant r q t Hv) as [H1 H2]; [rewrite Hr; assumption|rewrite Hr; assumption|]. apply Hk; assumption.
      + apply (He (S n) n n 0 r Hpe Hl (all_in_group _ _ _ Hg) Hv Hr). intros Hnu. rewrite Hnu in Hn. discriminate.
  Qed.

  Lemma quant_entry_cap e q : entry_cap e -> entry_cap (EGroup e (Some q)).
  Proof.
    intros He n s t k r Hp Hl Hg Hv Hr Hk. cbn [edges tally]. pose proof Hp as (Hsn & Htn & _).
    destruct (placed_quant _ _ _ _ _ _ Hp) as (Hpe & Hq & Hi & Hisq & Hout).
    assert (H0 : counters_get n (r_cnt r) = 0).
    { change (counters_get n (r_cnt r)) with (cof r n).
      apply (valid_zero G (mgroups kk es) (mgroups_isq m kk es Hm) (EGroup e (Some q)) n (r_state r) (cof r) Hg); [cbn [size]; lia|apply Hv|assumption|cbn [size]; lia]. }
    apply cape_off; [lia|].
    change ((s, IEps, n) :: edges e (S n) n n) with ([(s, IEps, n)] ++ edges e (S n) n n).
    rewrite <- (Nat.add_0_r (v + _)). apply cape_app; [|apply cape_inner; lia].
    rewrite <- Hr. apply cape_eps. destruct (take_eps r n Hv) as [H1 H2]; [rewrite Hr; assumption|].
    assert (Hc : counters_get n (r_cnt (take_transition r n false)) = 0).
    { change (counters_get n (r_cnt (take_transition r n false))) with (cof (take_transition r n false) n).
      rewrite cof_take_false by apply Hv. unfold inc. destruct (Nat.eqb_spec n (r_state r)); [lia|assumption]. }
    apply (quant_cap e q He n s t (if is_satisfied q 0 then k else 0) (take_transition r n false) Hp Hl Hg H1 H2).
    rewrite Hc. intros Hs. rewrite Hs. apply Hk. cbn. rewrite Hs. reflexivity.
  Qed.

  Lemma lit_entry_cap l : entry_cap (ELit l None).
  Proof. intros n s t k r _ _ _ _ <- _. cbn [edges tally]. apply cape_lit. Qed.

  Lemma expr_entry_cap : forall e, entry_cap e.
  Proof.
    induction e as [|e IH|e e2 rest IH1 IH2| |l r0 IHl IHr|l q|e q IH] using expr_seq_ind.
    - intros n s t k r _ _ _ _ _ _. apply (cape_le _ _ 0); [lia|]. apply cape_none; [|reflexivity]. intros y (i & z & [] & _).
    - intros n s t k r Hp Hl Hg Hv Hr Hk. cbn in Hl. rewrite andb_true_r in Hl. apply (IH n s t k r Hp Hl Hg Hv Hr).
      intros Hn. apply Hk. cbn. rewrite Hn. reflexivity.
    - intros n s t k r Hp Hl Hg Hv Hr Hk. rewrite tally_seq, edges_seq. pose proof Hp as (Hsn & Htn & _).
      rewrite loops_seq in Hl. apply andb_true_iff in Hl. destruct Hl as [Hl1 Hl2]. destruct (all_in_seq _ _ _ _ Hg) as [Hg1 Hg2].
      destruct (placed_seq _ _ _ _ _ _ _ Hp) as (Hp1 & Hp2 & Hout & Hnq).
      rewrite <- (Nat.add_0_r (tally v a e _)). apply cape_app; [|apply cape_inner; lia].
      apply (IH1 (S n) s n _ r Hp1 Hl1 Hg1 Hv Hr). intros Hn1 y Hy Hys.
      eapply cape_cap; [rewrite Hys; exact Hout|]. apply (IH2 (S n + size e) n t k y Hp2 Hl2 Hg2 Hy Hys).
      intros Hn2. apply Hk. rewrite nullable_seq, Hn1, Hn2. reflexivity.
    - intros n s t k r Hp _ _ Hv Hr Hk. cbn [edges tally]. rewrite <- Hr. apply cape_eps.
      destruct (take_eps r t Hv) as [H1 H2]; [|apply Hk; auto]. rewrite Hr. apply Hp. left. reflexivity.
    - intros n s t k r Hp Hl Hg Hv Hr Hk. cbn in Hl. apply andb_true_iff in Hl. destruct Hl as [Hl1 Hl2].
      destruct (placed_alt _ _ _ _ _ _ Hp) as [Hpl Hpr]. destruct (all_in_alt _ _ _ Hg) as [Hg1 Hg2].
      cbn [edges tally]. apply cape_app.
      + apply (IHl n s t k r Hpl Hl1 Hg1 Hv Hr). intros Hn. apply Hk. cbn. rewrite Hn. reflexivity.
      + apply (IHr (n + size l) s t k r Hpr Hl2 Hg2 Hv Hr). intros Hn. apply Hk. cbn. rewrite Hn, orb_true_r. reflexivity.
    - destruct q as [q|]; [|apply lit_entry_cap]. intros n s t k r Hp _ Hg Hv Hr Hk.
      exact (quant_entry_cap (ELit l None) q (lit_entry_cap l) n s t k r Hp eq_refl Hg Hv Hr
        (fun Hn => Hk (eq_trans (eq_sym (orb_false_r _)) Hn))).
    - destruct q as [q|]; [apply quant_entry_cap; assumption|]. exact IH.
  Qed.

  (** *** After a literal of a regex *)
  Definition after_lit (B : nat) (e : expr) : Prop := forall n s t k,
    placed G e n s t -> loops_ok e = true -> all_in e n -> (forall y, vrun y -> r_state y = t -> cap y k) -> limited v a B e k ->
    forall p l y, In (p, ILit l, y) (edges e n s t) -> forall x, vrun x -> r_state x = y -> cap x B.

  Lemma quant_after B e q : after_lit B e -> after_lit B (EGroup e (Some q)).
  Proof.
    intros He n s t k Hp Hl Hg Hk HB p l y Hin x Hx Hxy. cbn [limited] in HB.
    pose proof (placed_quant _ _ _ _ _ _ Hp) as (Hpe & _).
    cbn [edges] in Hin. destruct Hin as [[=]|[[=]|Hin]]. pose proof Hl as Hl'. cbn in Hl'. apply andb_true_iff in Hl'.
    eapply (He (S n) n n _ Hpe (proj1 Hl') (all_in_group _ _ _ Hg)); [|exact HB|exact Hin|exact Hx|exact Hxy].
    intros z Hz Hzn. eapply quant_cap; [apply expr_entry_cap|exact Hp|exact Hl|exact Hg|exact Hz|exact Hzn|]. intros _. assumption.
  Qed.
  Lemma lit_after B l : after_lit B (ELit l None).
  Proof. intros n s t k _ _ _ Hk HB p l' y [[= <- <- <-]|[]] x Hx Hxy. cbn in HB. eapply cap_le; [exact HB|]. auto. Qed.

  Lemma expr_after B : forall e, after_lit B e.
  Proof.
    induction e as [|e IH|e e2 rest IH1 IH2| |l r0 IHl IHr|l q|e q IH] using expr_seq_ind.
    - intros n s t k _ _ _ _ _ p l y [].
    - intros n s t k Hp Hl Hg Hk HB. cbn in Hl. rewrite andb_true_r in Hl. exact (IH n s t k Hp Hl Hg Hk HB).
    - intros n s t k Hp Hl Hg Hk HB p l y Hin x Hx Hxy. rewrite limited_seq in HB. destruct HB as [HB1 HB2].
      rewrite loops_seq in Hl. apply andb_true_iff in Hl. destruct Hl as [Hl1 Hl2]. destruct (all_in_seq _ _ _ _ Hg) as [Hg1 Hg2].
      destruct (placed_seq _ _ _ _ _ _ _ Hp) as (Hp1 & Hp2 & Hout & Hnq).
      rewrite edges_seq in Hin. apply in_app_or in Hin. destruct Hin as [Hin|Hin].
      + eapply (IH1 (S n) s n _ Hp1 Hl1 Hg1); [|exact HB1|exact Hin|exact Hx|exact Hxy]. intros z Hz Hzs.
        eapply cape_cap; [rewrite Hzs; exact Hout|]. apply (expr_entry_cap _ (S n + size e) n t k z Hp2 Hl2 Hg2 Hz Hzs). intros _. assumption.
      + eapply (IH2 (S n + size e) n t k Hp2 Hl2 Hg2 Hk HB2); eassumption.
    - intros n s t k _ _ _ _ _ p l y [[=]|[]].
    - intros n s t k Hp Hl Hg Hk HB p l' y Hin x Hx Hxy. destruct HB as [HB1 HB2].
      cbn in Hl. apply andb_true_iff in Hl. destruct Hl as [Hl1 Hl2].
      destruct (placed_alt _ _ _ _ _ _ Hp) as [Hpl Hpr]. destruct (all_in_alt _ _ _ Hg) as [Hg1 Hg2].
      cbn in Hin. apply in_app_or in Hin. destruct Hin as [Hin|Hin].
      + eapply (IHl n s t k Hpl Hl1 Hg1 Hk HB1); eassumption.
      + eapply (IHr (n + size l) s t k Hpr Hl2 Hg2 Hk HB2); eassumption.
    - destruct q as [q|]; [|apply lit_after]. intros n s t k Hp _ Hg Hk HB.
      exact (quant_after B (ELit l None) q (lit_after B l) n s t k Hp eq_refl Hg Hk HB).
    - destruct q as [q|]; [apply quant_after; assumption|]. exact IH.
  Qed.

  (** *** The whole automaton *)
  Lemma cap_final y : (1 <= r_state y < kk \/ exists e n, In (e, n, r_state y) (placement kk es)) -> cap y v.
  Proof.
    intros Hf. rewrite <- (Nat.add_0_r v). apply (cape_cap []).
    - intros i t He. exfalso. exact (machine_final_dead m kk es (r_state y) Hm Hf i t He).
    - apply cape_none; [|reflexivity]. intros z (i & t & [] & _).
  Qed.

  Lemma machine_cap B : (forall e, In e es -> loops_ok e = true /\ limited v a B e v) ->
    forall p l y, G (p, ILit l, y) -> forall x, vrun x -> r_state x = y -> cap x B.
  Proof.
    intros Hall p l y He x Hx Hxy. apply (mc_edges _ _ _ Hm) in He. destruct He as (e & n & f & Hin & He).
    pose proof (placement_in _ _ _ _ _ Hin) as (Hel & _). destruct (Hall e Hel) as [Hl HB].
    eapply (expr_after B e n 0 f v); [eapply machine_placed; eauto|exact Hl| | |exact HB|exact He|exact Hx|exact Hxy].
    - intros i z (e' & n' & f' & Hin' & Hg) Hr.
      destruct (placement_disjoint _ _ _ _ _ _ _ _ Hin Hin') as [[= <- <- <-]|Hd]; [assumption|].
      apply groups_range in Hg. apply placement_in in Hin'. pose proof (placement_in _ _ _ _ _ Hin). lia.
    - intros z _ Hz. apply cap_final. rewrite Hz. eauto.
  Qed.
End Caps.

(** ** How many runs there are *)
Section Runs.
  Context {env : Env}.
  Variables (m : nfa) (kk : nat) (es : list expr).
  Hypothesis Hm : machine m kk es.
  Hypothesis Hd : dup_free m.
  Hypothesis Hes : forall e, In e es -> loops_ok e = true /\ settled e [].
  Let Hwf : wf_nfa m := proj2 (machine_wf _ _ _ Hm).
  Notation G := (has_edge m).

  (** The number of transitions of a state that take [c]. *)
  Definition readers (c : char) (p : nat) : nat :=
    match get_state m p with
    | Some st => sums (fun x => if can_take (fst x) c then length (snd x) else 0) (st_trans st)
    | None => 0
    end.

  Lemma readers_out c p E : (forall i t, G (p, i, t) -> In (p, i, t) E) -> readers c p <= out (takes c) p E.
  Proof.
    intros HE. unfold readers. destruct (get_state m p) as [st|] eqn:Est; [|lia].
    assert (Hin : In st (nfa_states m)) by (unfold get_state in Est; apply find_some in Est; tauto).
    destruct Hd as [_ Hn]. destruct (Hn st Hin) as [Hk Ht].
    set (L := flat_map (fun x => if can_take (fst x) c then map (fun t => (p, fst x, t)) (snd x) else []) (st_trans st)).
    assert (HL : sums (fun x => if can_take (fst x) c then length (snd x) else 0) (st_trans st) = length L).
    { unfold L. clear. induction (st_trans st) as [|[i ts] r IH]; [reflexivity|]. rewrite sums_cons, IH. cbn [flat_map fst snd].
      rewrite app_length. destruct (can_take i c); [rewrite map_length|]; reflexivity. }
    rewrite HL.
    assert (HLn : NoDup L).
    { unfold L. apply (nodup_flat_map _ fst (fun e => snd (fst e))).
      - exact Hk.
      - intros [i ts] Hi. cbn. destruct (can_take i c); [|constructor]. apply FinFun.Injective_map_NoDup; [intros x y [=]; assumption|].
        eapply Ht. eassumption.
      - intros [i ts] [[x j] t] Hi. cbn in *. destruct (can_take i c); [|destruct Hi]. apply in_map_iff in Hi.
        destruct Hi as (u & [= <- <- <-] & _). reflexivity. }
    assert (HLi : forall x, In x L -> exists l t, x = (p, ILit l, t) /\ lit_contains l c = true /\ In x E).
    { intros x Hx. unfold L in Hx. apply in_flat_map in Hx. destruct Hx as ([i ts] & Hi & Hx). cbn [fst snd] in Hx.
      destruct i as [l| |q]; cbn [can_take] in Hx; [|destruct Hx|destruct Hx].
      destruct (lit_contains l c) eqn:El; [|destruct Hx]. apply in_map_iff in Hx. destruct Hx as (t & <- & Hx). exists l, t.
      split; [reflexivity|]. split; [assumption|]. apply HE. exists st, ts. auto. }
    unfold out. etransitivity; [|apply (sums_incl _ L HLn E); intros x Hx; destruct (HLi x Hx) as (l & t & _ & _ & H); exact H].
    clearbody L. clear - HLi. induction L as [|x L IH]; [cbn; lia|]. rewrite sums_cons. cbn [length].
    destruct (HLi x (or_introl eq_refl)) as (l & t & -> & El & _). rewrite Nat.eqb_refl. unfold takes at 1. rewrite El.
    assert (length L <= sums (fun x => match x with (p', ILit l, _) => if p' =? p then takes c l else 0 | _ => 0 end) L)
      by (apply IH; intros y Hy; apply HLi; right; assumption). lia.
  Qed.

  (** After a literal at most one transition takes a character. *)
  Lemma one_reader c l p y x : G (p, ILit l, y) -> vrun m kk es x -> r_state x = y ->
    forall L, NoDup L -> (forall z, In z L -> star (eps_step m) x z) -> sums (fun z => readers c (r_state z)) L <= 1.
  Proof.
    intros He Hx Hxy. apply (machine_cap m kk es Hm 0 (takes c) (readers c)) with (p := p) (l := l) (y := y); try assumption.
    - intros p' E HE. cbn [Nat.add]. apply readers_out. assumption.
    - intros e Hin. destruct (Hes e Hin) as [H1 H2]. split; [assumption|]. apply (settled_limited c) in H2. exact H2.
  Qed.

  Lemma closure_bound : exists B, (forall e, In e es -> limited 1 (fun _ => 0) B e 1).
  Proof.
    clear. induction es as [|e r IH]; [exists 0; intros e []|]. destruct IH as (B & HB), (limited_exists 1 (fun _ => 0) e 1) as (B' & HB').
    exists (B + B'). intros e' [<-|Hin]; (eapply limited_mono; [|eauto]); lia.
  Qed.

  Lemma few_closed B l p y x : (forall e, In e es -> limited 1 (fun _ => 0) B e 1) -> G (p, ILit l, y) -> vrun m kk es x -> r_state x = y ->
    forall L, NoDup L -> (forall z, In z L -> star (eps_step m) x z) -> length L <= B.
  Proof.
    intros HB He Hx Hxy L Hn HL.
    assert (Hc : cap m (fun _ => 1) x B).
    { apply (machine_cap m kk es Hm 1 (fun _ => 0) (fun _ => 1)) with (p := p) (l := l) (y := y); try assumption.
      - intros p' E _. unfold out. cbn. lia.
      - intros e Hin. split; [apply (Hes e Hin)|apply HB; assumption]. }
    specialize (Hc L Hn HL). cbn beta in Hc. etransitivity; [|exact Hc].
    clear. induction L as [|z L IH]; [reflexivity|]. rewrite sums_cons. cbn [length]. lia.
  Qed.

  Section Ordered.
    Context {ho : HashOrder}.

    Lemma succs_length k st r c : get_state m (r_state r) = Some st -> length (char_succs k st r c) = readers c (r_state r).
    Proof.
      intros Hst. unfold readers. rewrite Hst. unfold char_succs, iter_trans.
      assert (H : forall l : list (input * list nat),
        length (flat_map (fun p => if can_take (fst p) c then map (fun t => take_transition r t false) (snd p) else [])
                         (map (fun p => (fst p, hash_iter k (snd p))) l)) =
        sums (fun x => if can_take (fst x) c then length (snd x) else 0) l).
      { induction l as [|[i ts] l IH]; [reflexivity|]. rewrite sums_cons, <- IH. cbn [map flat_map fst snd]. rewrite app_length.
        destruct (can_take i c); [|reflexivity]. rewrite map_length, (Permutation_length (hash_iter_perm k _ ts)). reflexivity. }
      rewrite H. apply sums_perm. apply hash_iter_perm.
    Qed.

    Lemma closure_loop_nodup fuel : forall q l l', closure_loop fuel m q l = Val l' -> NoDup l -> NoDup l'.
    Proof.
      induction fuel as [|fuel IH]; intros q l l' H Hn; destruct q as [|r q]; cbn in H; try discriminate; try (injection H as <-; assumption).
      destruct (get_state m (r_state r)) as [st|]; [|discriminate]. cbn [of_option bind] in H.
      destruct (closure_push _ q l) as [q' l1] eqn:E. apply closure_push_spec in E. destruct E as (_ & _ & _ & E). eauto.
    Qed.
    Lemma run_closure_nodup fuel r l : run_closure fuel m r = Val l -> NoDup l.
    Proof.
      unfold run_closure. destruct (closure_loop fuel m [r] [r]) as [l0| |] eqn:E; try discriminate. cbn [bind]. intros [= <-].
      apply closure_loop_nodup in E; [|repeat constructor; intros []].
      eapply Permutation_NoDup; [symmetry; apply hash_iter_perm|assumption].
    Qed.

    Definition events (c : char) (rs : list run) : nat := sums (fun x => readers c (r_state x)) rs.

    (** [rs] are runs right after a literal. *)
    Definition landed (rs : list run) : Prop := forall x, In x rs -> vrun m kk es x /\ exists p l, G (p, ILit l, r_state x).

    Lemma closures_few B fuel : (forall e, In e es -> limited 1 (fun _ => 0) B e 1) -> forall rs l, landed rs -> closures fuel m rs = Val l ->
      length l <= length rs * B /\ forall c, events c l <= length rs.
    Proof.
      intros HB. induction rs as [|r rs IH]; intros l Hl H; cbn in H.
      - injection H as <-. split; [cbn; lia|]. intros c. unfold events. rewrite sums_nil. lia.
      - destruct (run_closure fuel m r) as [l1| |] eqn:E1; try discriminate.
        destruct (closures fuel m rs) as [l2| |] eqn:E2; try discriminate. cbn in H. injection H as <-.
        destruct (IH l2 (fun y Hy => Hl y (or_intror Hy)) eq_refl) as [I1 I2].
        destruct (Hl r (or_introl eq_refl)) as [Hv (p & lt & He)]. pose proof (run_closure_nodup _ _ _ E1) as Hn.
        pose proof (run_closure_spec m fuel r l1 Hwf ltac:(apply Hv) E1) as Hs.
        split.
        + rewrite app_length. cbn [length].
          assert (length l1 <= B) by (eapply few_closed; [exact HB|exact He|exact Hv|reflexivity|exact Hn|]; intros z Hz; apply Hs; assumption). lia.
        + intros c. unfold events. rewrite sums_app. cbn [length].
          assert (sums (fun x => readers c (r_state x)) l1 <= 1)
            by (eapply one_reader; [exact He|exact Hv|reflexivity|exact Hn|]; intros z Hz; apply Hs; assumption).
          specialize (I2 c). unfold events in I2. lia.
    Qed.

    Lemma feed_few B fuel : (forall e, In e es -> limited 1 (fun _ => 0) B e 1) -> forall rs c l, (forall x, In x rs -> vrun m kk es x) ->
      feed_runs fuel m rs c = Val l -> length l <= events c rs * B /\ forall d, events d l <= events c rs.
    Proof.
      intros HB. induction rs as [|r rs IH]; intros c l Hr H; cbn in H.
      - injection H as <-. split; [cbn; lia|]. intros d. unfold events. rewrite !sums_nil. lia.
      - pose proof (Hr r (or_introl eq_refl)) as Hv. pose proof Hv as (_ & (st & Hst) & _). rewrite Hst in H. cbn [of_option bind] in H.
        destruct (closures fuel m _) as [l1| |] eqn:E1; try discriminate.
        destruct (feed_runs fuel m rs c) as [l2| |] eqn:E2; try discriminate. cbn in H. injection H as <-.
        destruct (IH c l2 (fun y Hy => Hr y (or_intror Hy)) E2) as [I1 I2].
        apply (closures_few B fuel HB) in E1.
        + rewrite (succs_length fuel st r c Hst) in E1. destruct E1 as [F1 F2]. unfold events in *. rewrite sums_cons. split.
          * rewrite app_length. lia.
          * intros d. rewrite sums_app. specialize (F2 d). specialize (I2 d). lia.
        + intros x Hx. apply (in_char_succs m) in Hx; [|assumption]. split; [eapply vrun_char; eassumption|].
          destruct Hx as (lt & t & He & _ & ->). eexists _, _. exact He.
    Qed.

    Lemma static_loop_nodup fuel : forall q l l', static_loop fuel m q l = Val l' -> NoDup l -> NoDup l'.
    Proof.
      induction fuel as [|fuel IH]; intros q l l' H Hn; destruct q as [|r q]; cbn in H; try discriminate; try (injection H as <-; assumption).
      destruct (get_state m r) as [st|]; [|discriminate]. cbn [of_option bind] in H.
      destruct (static_push _ q l) as [q' l1] eqn:E. eapply IH; [exact H|]. eapply static_push_nodup; eassumption.
    Qed.

    (** The edges of the automaton and the literals among them. *)
    Definition all_placed : list edge := flat_map (fun x => match x with (e, n, f) => edges e n 0 f end) (placement kk es).
    Lemma all_placed_in p i t : G (p, i, t) -> In (p, i, t) all_placed.
    Proof.
      intros He. apply (mc_edges _ _ _ Hm) in He. destruct He as (e & n & f & Hin & He). unfold all_placed. apply in_flat_map.
      exists (e, n, f). auto.
    Qed.

    Lemma outs_le c E : forall ps, NoDup ps -> sums (fun p => out (takes c) p E) ps <= length E.
    Proof.
      induction E as [|[[p i] t] E IH]; intros ps Hn.
      - unfold out. clear. induction ps as [|p ps IH]; [rewrite sums_nil; lia|]. rewrite sums_cons, sums_nil. exact IH.
      - specialize (IH ps Hn). cbn [length].
        assert (H : sums (fun q => out (takes c) q ((p, i, t) :: E)) ps <= sums (fun q => if p =? q then 1 else 0) ps + sums (fun q => out (takes c) q E) ps).
        { clear. induction ps as [|q ps IH]; [rewrite !sums_nil; lia|]. rewrite !sums_cons. unfold out at 1. rewrite sums_cons.
          fold (out (takes c) q E). destruct i as [l| |qq]; destruct (Nat.eqb p q); unfold takes in *; try destruct (lit_contains l c); lia. }
        assert (H' : sums (fun q => if p =? q then 1 else 0) ps <= 1); [|etransitivity; [exact H|]; change (S (length E)) with (1 + length E); apply Nat.add_le_mono; assumption].
        clear - Hn. induction Hn as [|q ps Hq Hn IH]; [rewrite sums_nil; lia|]. rewrite sums_cons. destruct (Nat.eqb_spec p q) as [->|]; [|lia].
        replace (sums (fun q0 => if q =? q0 then 1 else 0) ps) with 0; [lia|]. clear - Hq. induction ps as [|x ps IH]; [reflexivity|].
        rewrite sums_cons. destruct (Nat.eqb_spec q x) as [->|]; [exfalso; apply Hq; left; reflexivity|]. rewrite <- IH; [reflexivity|].
        intros H. apply Hq. right. assumption.
    Qed.

    Lemma new_few fuel rs : sim_new fuel m = Val rs -> length rs <= nstates m /\ (forall x, In x rs -> vrun m kk es x) /\
      forall c, events c rs <= length all_placed.
    Proof.
      intros H. pose proof (sim_new_spec m fuel rs Hwf H) as [Hr Hs]. unfold sim_new in H.
      destruct (static_closure fuel m (nfa_start m)) as [ps| |] eqn:E; try discriminate. cbn [bind] in H. injection H as <-.
      assert (Hn : NoDup ps) by (unfold static_closure in E; apply static_loop_nodup in E; [assumption|]; repeat constructor; intros []).
      split; [|split].
      - rewrite map_length. rewrite <- (seq_length (nstates m) 0). apply NoDup_incl_length; [assumption|]. intros p Hp. apply in_seq.
        destruct (Hr {| r_state := p; r_cnt := [] |}) as (st & Hst); [apply in_map_iff; eauto|]. cbn in Hst.
        pose proof (get_state_lt _ _ _ (mc_wfb _ _ _ Hm) Hst). lia.
      - intros x Hx. apply (vrun_init m kk es Hm). apply Hs. assumption.
      - intros c. unfold events. rewrite sums_map. cbn [r_state]. etransitivity; [|apply (outs_le c all_placed ps Hn)].
        clear - Hd Hm. induction ps as [|p ps IH]; [rewrite !sums_nil; lia|]. rewrite !sums_cons.
        pose proof (readers_out c p all_placed (fun i t => all_placed_in p i t)). lia.
    Qed.

    Lemma each_few B fuel A : (forall e, In e es -> limited 1 (fun _ => 0) B e 1) -> forall w rs l, (forall x, In x rs -> vrun m kk es x) ->
      (forall c, events c rs <= A) -> w <> [] -> feed_each fuel m rs w = Val l -> length l <= A * B.
    Proof.
      intros HB. induction w as [|c w IH]; intros rs l Hr He Hne H; [contradiction|]. cbn [feed_each] in H.
      unfold sim_feed in H. destruct (feed_runs fuel m rs c) as [rs'| |] eqn:E; try discriminate. cbn [bind] in H.
      destruct (sim_accepting m rs') as [b| |]; try discriminate. cbn [bind] in H.
      destruct (feed_few B fuel HB rs c rs' Hr E) as [H1 H2]. destruct w as [|d w].
      - cbn [feed_each] in H. injection H as <-. specialize (He c). assert (events c rs * B <= A * B) by (apply Nat.mul_le_mono_r; assumption). lia.
      - apply (IH rs' l); [|intros d'; specialize (H2 d'); specialize (He c); lia|discriminate|exact H].
        assert (Hok : runs_ok m rs) by (intros x Hx; apply (Hr x Hx)). intros x Hx.
        apply (feed_runs_spec m fuel rs c rs' Hwf Hok E) in Hx. destruct Hx as (r & r' & Hin & Hc & Hs).
        eapply vrun_star; [exact Hm| |exact Hs]. eapply vrun_char; [exact Hm|apply Hr; exact Hin|exact Hc].
    Qed.

    Lemma text_few B fuel w rs : (forall e, In e es -> limited 1 (fun _ => 0) B e 1) -> sim_text fuel m w = Val rs ->
      length rs <= nstates m + length all_placed * B.
    Proof.
      intros HB H. unfold sim_text in H. destruct (sim_new fuel m) as [rs0| |] eqn:E; try discriminate. cbn [bind] in H.
      destruct (new_few fuel rs0 E) as (H1 & H2 & H3). destruct w as [|c w]; [cbn in H; injection H as <-; lia|].
      pose proof (each_few B fuel _ HB (c :: w) rs0 rs H2 H3 ltac:(discriminate) H). lia.
    Qed.
  End Ordered.
End Runs.

(** The bound depends on the regexes only. *)
Lemma runs_bounded {env : Env} kk es : (forall e, In e es -> loops_ok e = true /\ settled e []) ->
  exists B, forall (ho : HashOrder) m fuel w rs, machine m kk es -> dup_free m -> sim_text fuel m w = Val rs -> length rs <= B.
Proof.
  intros Hes. destruct (closure_bound es) as (B & HB).
  exists (kk + list_sum (map (fun e => S (size e)) es) + length (all_placed kk es) * B).
  intros ho m fuel w rs Hm Hd H. rewrite <- (mc_size _ _ _ Hm). eapply text_few; eassumption.
Qed.

Lemma from_bounded {env : Env} e : loops_ok e = true -> settled e [] ->
  exists B, forall (ho : HashOrder) m fuel w rs, nfa_from e = Val m -> sim_text fuel m w = Val rs -> length rs <= B.
Proof.
  intros H1 H2. destruct (runs_bounded 1 [e]) as (B & HB); [intros e' [<-|[]]; auto|]. exists B. intros ho m fuel w rs Hf H.
  eapply HB; [apply (nfa_from_ok _ _ Hf)|apply built_dup_free; eapply nfa_from_built; eassumption|exact H].
Qed.
