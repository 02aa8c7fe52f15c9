(** What the compiler builds: the states and the edges of a compiled regex. *)
From Verif Require Import Base RegexModel SpecRegex RegexParseProofs NfaModel.

(** Induction over regexes that takes concatenations apart from the left. *)
Lemma expr_seq_ind (P : expr -> Prop) :
  P (EConcat []) ->
  (forall e, P e -> P (EConcat [e])) ->
  (forall e e2 es, P e -> P (EConcat (e2 :: es)) -> P (EConcat (e :: e2 :: es))) ->
  P EEmpty ->
  (forall l r, P l -> P r -> P (EAlt l r)) ->
  (forall l q, P (ELit l q)) ->
  (forall e q, P e -> P (EGroup e q)) ->
  forall e, P e.
Proof.
  intros H0 H1 H2 He Ha Hl Hg. fix IH 1. intros [es| |l r|l q|e q].
  - induction es as [|e es IHes]; [exact H0|].
    destruct es as [|e2 es]; [apply H1; apply IH|apply H2; [apply IH|exact IHes]].
  - exact He.
  - apply Ha; apply IH.
  - apply Hl.
  - apply Hg. apply IH.
Qed.

(** Number of states added for a regex. *)
Fixpoint size (e : expr) : nat :=
  match e with
  | EConcat es =>
      (fix go (es : list expr) : nat :=
         match es with
         | [] => 0
         | e :: rest => match rest with [] => size e | _ :: _ => 1 + size e + go rest end
         end) es
  | EEmpty => 0
  | EAlt l r => size l + size r
  | ELit _ None => 0
  | ELit _ (Some _) => 1
  | EGroup e None => size e
  | EGroup e (Some _) => 1 + size e
  end.

Definition edge := (nat * input * nat)%type.

(** Edges added for a regex between [s] and [t], when [n] is the next free
    state. *)
Fixpoint edges (e : expr) (n s t : nat) : list edge :=
  match e with
  | EConcat es =>
      (fix go (es : list expr) (n s : nat) : list edge :=
         match es with
         | [] => []
         | e :: rest =>
             match rest with
             | [] => edges e n s t
             | _ :: _ => edges e (S n) s n ++ go rest (S n + size e) n
             end
         end) es n s
  | EEmpty => [(s, IEps, t)]
  | EAlt l r => edges l n s t ++ edges r (n + size l) s t
  | ELit l None => [(s, ILit l, t)]
  | ELit l (Some q) => [(n, IQuant q, t); (s, IEps, n); (n, ILit l, n)]
  | EGroup e None => edges e n s t
  | EGroup e (Some q) => (n, IQuant q, t) :: (s, IEps, n) :: edges e (S n) n n
  end.

Lemma size_seq e e2 es : size (EConcat (e :: e2 :: es)) = 1 + size e + size (EConcat (e2 :: es)).
Proof. reflexivity. Qed.
Lemma edges_seq e e2 es n s t :
  edges (EConcat (e :: e2 :: es)) n s t = edges e (S n) s n ++ edges (EConcat (e2 :: es)) (S n + size e) n t.
Proof. reflexivity. Qed.
Lemma compile_seq e e2 es b s t :
  compile_expr (EConcat (e :: e2 :: es)) b s t =
  (let '(b1, n) := add_state b false in
   let! b2 := compile_expr e b1 s n in
   compile_expr (EConcat (e2 :: es)) b2 n t).
Proof. reflexivity. Qed.

(** Builders whose state ids are their positions. *)
Definition wfb (b : nfa) : Prop := map st_id (nfa_states b) = seq 0 (length (nfa_states b)).
Definition nstates (b : nfa) : nat := length (nfa_states b).

(** [(s, i, t)] is a transition of [b]. *)
Definition has_edge (b : nfa) (x : edge) : Prop :=
  let '(s, i, t) := x in
  exists st ts, get_state b s = Some st /\ In (i, ts) (st_trans st) /\ In t ts.
Definition fin_of (b : nfa) (i : nat) : option bool := option_map st_fin (get_state b i).

Lemma get_state_id b i st : get_state b i = Some st -> st_id st = i /\ In st (nfa_states b).
Proof. unfold get_state. intros H. apply find_some in H. destruct H as [H1 H2]. apply Nat.eqb_eq in H2. auto. Qed.

Lemma get_state_some b i : wfb b -> i < nstates b -> exists st, get_state b i = Some st.
Proof.
  intros Hw Hi. unfold get_state. destruct (find _ _) eqn:E; [eauto|]. exfalso.
  assert (Hin : In i (map st_id (nfa_states b))) by (rewrite Hw; apply in_seq; unfold nstates in Hi; lia).
  apply in_map_iff in Hin. destruct Hin as (st & <- & Hin).
  apply (find_none _ _ E) in Hin. rewrite Nat.eqb_refl in Hin. discriminate.
Qed.

Lemma get_state_lt b i st : wfb b -> get_state b i = Some st -> i < nstates b.
Proof.
  intros Hw H. destruct (get_state_id _ _ _ H) as [<- Hin].
  assert (Hi : In (st_id st) (map st_id (nfa_states b))) by (apply in_map; assumption).
  rewrite Hw in Hi. apply in_seq in Hi. unfold nstates. lia.
Qed.

(** *** add_state *)
Lemma find_app_none {A} (f : A -> bool) l x :
  find f (l ++ [x]) = match find f l with Some y => Some y | None => if f x then Some x else None end.
Proof. induction l as [|a l IH]; cbn; [reflexivity|]. destruct (f a); auto. Qed.

Lemma add_state_spec b fin : wfb b ->
  let b' := fst (add_state b fin) in
  snd (add_state b fin) = nstates b /\ wfb b' /\ nstates b' = S (nstates b) /\ nfa_start b' = nfa_start b /\
  (forall x, has_edge b' x <-> has_edge b x) /\
  (forall i, fin_of b' i = if i =? nstates b then Some fin else fin_of b i).
Proof.
  intros Hw b'. unfold b', add_state. cbn [fst snd].
  assert (Hget : forall i, get_state {| nfa_start := nfa_start b; nfa_states := nfa_states b ++ [state_with_id (nstates b) fin] |} i
                 = if i =? nstates b then Some (state_with_id (nstates b) fin) else get_state b i).
  { intros i. unfold get_state at 1. cbn [nfa_states]. rewrite find_app_none. fold (get_state b i).
    cbn [state_with_id st_id]. destruct (Nat.eqb_spec i (nstates b)) as [->|Hne].
    - destruct (get_state b (nstates b)) eqn:E; [apply get_state_lt in E; [lia|assumption]|].
      rewrite Nat.eqb_refl. reflexivity.
    - destruct (get_state b i); [reflexivity|].
      destruct (Nat.eqb_spec (nstates b) i); [congruence|reflexivity]. }
  unfold nstates in *. split; [reflexivity|]. split; [|split; [|split; [reflexivity|split]]].
  - unfold wfb in *. cbn. rewrite map_app, app_length, Hw. cbn. rewrite Nat.add_1_r, seq_S. reflexivity.
  - cbn. rewrite app_length. cbn. lia.
  - intros [[s i] t]. unfold has_edge. rewrite Hget. destruct (Nat.eqb_spec s (length (nfa_states b))) as [->|Hne].
    + split.
      * intros (st & ts & [= <-] & [] & _).
      * intros (st & ts & E & _). apply get_state_lt in E; [unfold nstates in E; lia|assumption].
    + reflexivity.
  - intros i. unfold fin_of. rewrite Hget. destruct (_ =? _); reflexivity.
Qed.

(** *** add_transition *)
Lemma set_insert_in x y l : In y (set_insert x l) <-> y = x \/ In y l.
Proof.
  unfold set_insert. destruct (memb x l) eqn:E.
  - apply memb_in in E. split; [auto|]. intros [->|H]; assumption.
  - rewrite in_app_iff. cbn. split; [intros [H|[H|[]]]|intros [H|H]]; auto.
Qed.

Lemma trans_insert_in i t l : forall j u,
  (exists ts, In (j, ts) (trans_insert i t l) /\ In u ts) <->
  (j = i /\ u = t) \/ exists ts, In (j, ts) l /\ In u ts.
Proof.
  induction l as [|[k ts] l IH]; intros j u; cbn [trans_insert].
  - split.
    + intros (ts & [[= <- <-]|[]] & [<-|[]]). auto.
    + intros [[-> ->]|(ts & [] & _)]. exists [t]. split; left; reflexivity.
  - destruct (input_eq_dec i k) as [<-|Hne].
    + split.
      * intros (us & [[= <- <-]|H] & Hu).
        -- apply set_insert_in in Hu. destruct Hu as [->|Hu]; [auto|]. right. exists ts. split; [left; reflexivity|assumption].
        -- right. exists us. split; [right; assumption|assumption].
      * intros [[-> ->]|(us & [[= <- <-]|H] & Hu)].
        -- exists (set_insert t ts). split; [left; reflexivity|]. apply set_insert_in. auto.
        -- exists (set_insert t ts). split; [left; reflexivity|]. apply set_insert_in. auto.
        -- exists us. split; [right; assumption|assumption].
    + split.
      * intros (us & [[= <- <-]|H] & Hu).
        -- right. exists ts. split; [left; reflexivity|assumption].
        -- destruct (proj1 (IH j u)) as [?|(vs & Hv & Hu')]; [eauto|auto|].
           right. exists vs. split; [right; assumption|assumption].
      * intros [[-> ->]|(us & [[= <- <-]|H] & Hu)].
        -- destruct (proj2 (IH i t)) as (vs & Hv & Hu); [auto|]. exists vs. split; [right; assumption|assumption].
        -- exists ts. split; [left; reflexivity|assumption].
        -- destruct (proj2 (IH j u)) as (vs & Hv & Hu'); [eauto|]. exists vs. split; [right; assumption|assumption].
Qed.

Lemma update_state_spec i f l : In i (map st_id l) ->
  exists l', update_state i f l = Some l' /\ map st_id l' = map st_id l /\
    forall j, find (fun s => st_id s =? j) l' =
      match find (fun s => st_id s =? j) l with
      | Some s => if j =? i then Some {| st_id := st_id s; st_fin := st_fin s; st_trans := f (st_trans s) |} else Some s
      | None => None
      end.
Proof.
  induction l as [|s l IH]; intros Hin; [destruct Hin|]. cbn [update_state].
  destruct (Nat.eqb_spec (st_id s) i) as [Hi|Hi].
  - eexists. split; [reflexivity|]. split; [reflexivity|]. intros j. cbn [find st_id].
    destruct (Nat.eqb_spec (st_id s) j) as [Hj|Hj].
    + assert ((j =? i) = true) as -> by (apply Nat.eqb_eq; congruence). reflexivity.
    + assert ((j =? i) = false) as -> by (apply Nat.eqb_neq; congruence). destruct (find _ l); reflexivity.
  - destruct Hin as [Hin|Hin]; [congruence|]. destruct (IH Hin) as (l' & -> & Hm & Hf).
    eexists. split; [reflexivity|]. split; [cbn; congruence|]. intros j. cbn [find].
    destruct (Nat.eqb_spec (st_id s) j) as [Hj|Hj]; [|apply Hf].
    assert ((j =? i) = false) as -> by (apply Nat.eqb_neq; congruence). reflexivity.
Qed.

Lemma add_transition_spec b s t i : wfb b -> s < nstates b ->
  exists b', add_transition b s t i = Val b' /\ wfb b' /\ nstates b' = nstates b /\ nfa_start b' = nfa_start b /\
  (forall x, has_edge b' x <-> x = (s, i, t) \/ has_edge b x) /\
  (forall j, fin_of b' j = fin_of b j).
Proof.
  intros Hw Hs.
  destruct (update_state_spec s (trans_insert i t) (nfa_states b)) as (l' & E & Hm & Hf).
  { rewrite Hw. apply in_seq. unfold nstates in Hs. lia. }
  unfold add_transition. rewrite E. eexists. split; [reflexivity|].
  assert (Hl : length l' = nstates b) by (rewrite <- (map_length st_id), Hm, map_length; reflexivity).
  assert (Hget : forall j, get_state {| nfa_start := nfa_start b; nfa_states := l' |} j =
     match get_state b j with
     | Some st => if j =? s then Some {| st_id := st_id st; st_fin := st_fin st; st_trans := trans_insert i t (st_trans st) |} else Some st
     | None => None end) by (intros j; apply Hf).
  split; [|split; [|split; [reflexivity|split]]].
  - unfold wfb in *. cbn. rewrite Hm, Hl. exact Hw.
  - exact Hl.
  - intros [[x j] y]. unfold has_edge. rewrite Hget. destruct (get_state b x) as [st|] eqn:Ex.
    + destruct (Nat.eqb_spec x s) as [->|Hne].
      * pose proof (trans_insert_in i t (st_trans st) j y) as T. split.
        -- intros (st' & ts & [= <-] & H1 & H2). cbn in H1. destruct (proj1 T) as [[-> ->]|(us & Hu1 & Hu2)]; [eauto|auto|].
           right. eauto.
        -- intros [[= -> ->]|(st' & ts & [= <-] & H1 & H2)].
           ++ destruct (proj2 T) as (us & H1 & H2); [auto|]. eexists _, us. split; [reflexivity|]. cbn. auto.
           ++ destruct (proj2 T) as (us & H3 & H4); [eauto|]. eexists _, us. split; [reflexivity|]. cbn. auto.
      * split; [intros H; right; exact H|]. intros [[= -> -> ->]|H]; [congruence|exact H].
    + split.
      * intros (st & ts & H & _). discriminate.
      * intros [[= -> -> ->]|(st & ts & H & _)]; [|discriminate].
        destruct (get_state_some b s Hw Hs) as (st & E'). congruence.
  - intros j. unfold fin_of. rewrite Hget. destruct (get_state b j); [|reflexivity]. destruct (j =? s); reflexivity.
Qed.

(** What compiling [e] does to a builder. *)
Definition extends (b b' : nfa) (k : nat) (es : list edge) : Prop :=
  wfb b' /\ nstates b' = nstates b + k /\ nfa_start b' = nfa_start b /\
  (forall x, has_edge b' x <-> In x es \/ has_edge b x) /\
  (forall j, fin_of b' j = if (nstates b <=? j) && (j <? nstates b + k) then Some false else fin_of b j).

Lemma extends_trans b b1 b2 k1 k2 es1 es2 :
  extends b b1 k1 es1 -> extends b1 b2 k2 es2 -> extends b b2 (k1 + k2) (es1 ++ es2).
Proof.
  intros (W1 & N1 & S1 & E1 & F1) (W2 & N2 & S2 & E2 & F2).
  split; [assumption|]. split; [lia|]. split; [congruence|]. split.
  - intros x. rewrite E2, E1, in_app_iff. tauto.
  - intros j. rewrite F2, F1, N1.
    destruct (Nat.leb_spec (nstates b + k1) j), (Nat.ltb_spec j (nstates b + k1 + k2)),
      (Nat.leb_spec (nstates b) j), (Nat.ltb_spec j (nstates b + k1)), (Nat.ltb_spec j (nstates b + (k1 + k2)));
      cbn; try lia; reflexivity.
Qed.

Lemma extends_state b : wfb b -> extends b (fst (add_state b false)) 1 [].
Proof.
  intros Hw. destruct (add_state_spec b false Hw) as (_ & W & N & S & E & F).
  split; [assumption|]. split; [lia|]. split; [assumption|]. split.
  - intros x. rewrite E. cbn. tauto.
  - intros j. rewrite F.
    destruct (Nat.eqb_spec j (nstates b)), (Nat.leb_spec (nstates b) j), (Nat.ltb_spec j (nstates b + 1)); cbn; try lia; reflexivity.
Qed.

Lemma extends_edge b s t i : wfb b -> s < nstates b ->
  exists b', add_transition b s t i = Val b' /\ extends b b' 0 [(s, i, t)].
Proof.
  intros Hw Hs. destruct (add_transition_spec b s t i Hw Hs) as (b' & E & W & N & S & Ed & F).
  exists b'. split; [assumption|]. split; [assumption|]. split; [lia|]. split; [assumption|]. split.
  - intros x. rewrite Ed. cbn. intuition congruence.
  - intros j. rewrite F. destruct (Nat.leb_spec (nstates b) j), (Nat.ltb_spec j (nstates b + 0)); cbn; try lia; reflexivity.
Qed.

Lemma extends_ext b b' k es es' : (forall x, In x es <-> In x es') -> extends b b' k es -> extends b b' k es'.
Proof.
  intros H (W & N & S & E & F). split; [assumption|]. split; [assumption|]. split; [assumption|]. split; [|assumption].
  intros x. rewrite E, H. tauto.
Qed.

Lemma insert_quantifier_spec b q s t : wfb b -> s < nstates b ->
  exists b', insert_quantifier_state b q s t = Val (b', nstates b) /\
    extends b b' 1 [(nstates b, IQuant q, t); (s, IEps, nstates b)].
Proof.
  intros Hw Hs. unfold insert_quantifier_state, add_quantified_state.
  pose proof (extends_state b Hw) as X1. destruct (add_state_spec b false Hw) as (Ei & W1 & N1 & _).
  destruct (add_state b false) as [b1 i]. cbn [fst snd] in *. subst i.
  destruct (extends_edge b1 (nstates b) t (IQuant q)) as (b2 & -> & X2); [assumption|lia|]. cbn [bind].
  destruct (extends_edge b2 s (nstates b) IEps) as (b3 & -> & X3); [apply X2|destruct X2 as (_ & -> & _); lia|]. cbn [bind].
  exists b3. split; [reflexivity|].
  apply (extends_ext _ _ _ (([] ++ [(nstates b, IQuant q, t)]) ++ [(s, IEps, nstates b)])); [reflexivity|].
  change 1 with (1 + 0 + 0). eapply extends_trans; [eapply extends_trans|]; eassumption.
Qed.

(** The compiler succeeds unless some concatenation is empty, and adds exactly
    the edges of the regex. *)
Lemma compile_spec : forall e b s t, has_empty e = false -> wfb b -> s < nstates b ->
  exists b', compile_expr e b s t = Val b' /\ extends b b' (size e) (edges e (nstates b) s t).
Proof.
  induction e as [|e IH|e e2 es IH1 IH2| |l r IHl IHr|l q|e q IH] using expr_seq_ind; intros b s t He Hw Hs.
  - discriminate.
  - cbn in He. rewrite orb_false_r in He. apply (IH b s t He Hw Hs).
  - rewrite compile_seq, size_seq, edges_seq. cbn in He. apply orb_false_iff in He. destruct He as [He1 He2].
    pose proof (extends_state b Hw) as X1. destruct (add_state_spec b false Hw) as (Ei & W1 & N1 & _).
    destruct (add_state b false) as [b1 i]. cbn [fst snd] in *. subst i.
    destruct (IH1 b1 s (nstates b) He1 W1 ltac:(lia)) as (b2 & -> & X2). cbn [bind].
    destruct (IH2 b2 (nstates b) t He2) as (b3 & -> & X3); [apply X2|destruct X2 as (_ & -> & _); lia|].
    exists b3. split; [reflexivity|].
    destruct X2 as (W2 & N2 & X2'). pose proof (conj W2 (conj N2 X2')) as X2. clear X2'. fold (extends b1 b2 (size e) (edges e (nstates b1) s (nstates b))) in X2.
    rewrite N2, N1 in X3. rewrite N1 in X2.
    change (edges e (S (nstates b)) s (nstates b)) with ([] ++ edges e (S (nstates b)) s (nstates b)).
    eapply extends_trans; [eapply extends_trans|]; eassumption.
  - cbn. destruct (extends_edge b s t IEps Hw Hs) as (b' & E & X). eauto.
  - cbn in He. apply orb_false_iff in He. destruct He as [He1 He2]. cbn.
    destruct (IHl b s t He1 Hw Hs) as (b1 & -> & X1). cbn [bind].
    destruct X1 as (W1 & N1 & X1').
    destruct (IHr b1 s t He2 W1 ltac:(lia)) as (b2 & -> & X2). exists b2. split; [reflexivity|].
    rewrite N1 in X2. eapply extends_trans; [|eassumption]. split; [assumption|]. split; assumption.
  - cbn. destruct q as [q|].
    + destruct (insert_quantifier_spec b q s t Hw Hs) as (b1 & -> & X1). cbn [bind].
      destruct (extends_edge b1 (nstates b) (nstates b) (ILit l)) as (b2 & -> & X2); [apply X1|destruct X1 as (_ & -> & _); lia|].
      exists b2. split; [reflexivity|]. change 1 with (1 + 0).
      apply (extends_trans b b1 b2 1 0 [_; _] [_] X1 X2).
    + destruct (extends_edge b s t (ILit l) Hw Hs) as (b' & E & X). eauto.
  - cbn in He. cbn. destruct q as [q|]; [|apply IH; assumption].
    destruct (insert_quantifier_spec b q s t Hw Hs) as (b1 & -> & X1). cbn [bind].
    destruct X1 as (W1 & N1 & X1').
    destruct (IH b1 (nstates b) (nstates b) He W1 ltac:(lia)) as (b2 & -> & X2). exists b2. split; [reflexivity|].
    rewrite N1, Nat.add_1_r in X2. change (S (size e)) with (1 + size e).
    apply (extends_trans b b1 b2 1 (size e) [_; _] _ (conj W1 (conj N1 X1')) X2).
Qed.

Lemma compile_empty : forall e b s t, has_empty e = true -> wfb b -> s < nstates b -> compile_expr e b s t = Panic.
Proof.
  induction e as [|e IH|e e2 es IH1 IH2| |l r IHl IHr|l q|e q IH] using expr_seq_ind; intros b s t He Hw Hs.
  - reflexivity.
  - cbn in He. rewrite orb_false_r in He. apply (IH b s t He Hw Hs).
  - rewrite compile_seq. pose proof (extends_state b Hw) as X1. destruct (add_state_spec b false Hw) as (Ei & W1 & N1 & _).
    destruct (add_state b false) as [b1 i]. cbn [fst snd] in *. subst i.
    change (has_empty (EConcat (e :: e2 :: es))) with (has_empty e || has_empty (EConcat (e2 :: es))) in He.
    destruct (has_empty e) eqn:Ee.
    + rewrite IH1; auto. lia.
    + destruct (compile_spec e b1 s (nstates b) Ee W1 ltac:(lia)) as (b2 & -> & X2). cbn [bind].
      apply IH2; [assumption|apply X2|]. destruct X2 as (_ & -> & _); lia.
  - discriminate.
  - cbn in He. cbn. destruct (has_empty l) eqn:El.
    + rewrite IHl; auto.
    + destruct (compile_spec l b s t El Hw Hs) as (b1 & -> & X1). cbn [bind].
      apply IHr; [assumption|apply X1|]. destruct X1 as (_ & -> & _); lia.
  - discriminate.
  - cbn in He. cbn. destruct q as [q|]; [|apply IH; assumption].
    destruct (insert_quantifier_spec b q s t Hw Hs) as (b1 & -> & X1). cbn [bind].
    apply IH; [assumption|apply X1|]. destruct X1 as (_ & -> & _); lia.
Qed.

(** *** Shape of the edges *)

(** Edges start at [s] or in the region, end at [t] or in the region. *)
Lemma edges_range : forall e n s t x i y, In (x, i, y) (edges e n s t) ->
  (x = s \/ n <= x < n + size e) /\ (y = t \/ n <= y < n + size e).
Proof.
  induction e as [|e IH|e e2 es IH1 IH2| |l r IHl IHr|l q|e q IH] using expr_seq_ind; intros n s t x i y H.
  - destruct H.
  - apply IH in H. exact H.
  - rewrite edges_seq in H. rewrite size_seq. apply in_app_or in H. destruct H as [H|H].
    + apply IH1 in H. lia.
    + apply IH2 in H. lia.
  - cbn in H. destruct H as [[= <- <- <-]|[]]. lia.
  - cbn [edges] in H. cbn [size]. apply in_app_or in H. destruct H as [H|H]; [apply IHl in H|apply IHr in H]; lia.
  - destruct q as [q|]; cbn in H; cbn [size].
    + destruct H as [[= <- <- <-]|[[= <- <- <-]|[[= <- <- <-]|[]]]]; lia.
    + destruct H as [[= <- <- <-]|[]]. lia.
  - destruct q as [q|]; cbn [edges] in H; cbn [size]; [|apply IH in H; exact H].
    destruct H as [[= <- <- <-]|[[= <- <- <-]|H]]; [lia|lia|]. apply IH in H. lia.
Qed.

(** No quantified edge leaves [s]. *)
Lemma edges_start : forall e n s t q y, s < n -> ~ In (s, IQuant q, y) (edges e n s t).
Proof.
  induction e as [|e IH|e e2 es IH1 IH2| |l r IHl IHr|l q0|e q0 IH] using expr_seq_ind; intros n s t q y Hs H.
  - destruct H.
  - apply IH in H; auto.
  - rewrite edges_seq in H. apply in_app_or in H. destruct H as [H|H].
    + apply IH1 in H; auto.
    + apply edges_range in H. lia.
  - cbn in H. destruct H as [[=]|[]].
  - cbn [edges] in H. apply in_app_or in H. destruct H as [H|H]; [apply IHl in H|apply IHr in H]; lia.
  - destruct q0 as [q0|]; cbn in H.
    + destruct H as [[=]|[[=]|[[=]|[]]]]. lia.
    + destruct H as [[=]|[]].
  - destruct q0 as [q0|]; cbn [edges] in H; [|apply IH in H; auto].
    destruct H as [[=]|[[=]|H]]; [lia|]. apply edges_range in H. lia.
Qed.

(** ** Whole automata *)

(** A list of regexes compiled one after the other, each with its own final
    state, as [with_token] does: [(e, n, f)] says that [e] has the region
    starting at [n] and the final state [f]. *)
Fixpoint placement (n : nat) (l : list expr) : list (expr * nat * nat) :=
  match l with
  | [] => []
  | e :: r => (e, S n, n) :: placement (S n + size e) r
  end.

Lemma compiler_new_spec : exists b, compiler_new = Val {| co_nfa := b; co_final := 1 |} /\
  wfb b /\ nstates b = 2 /\ nfa_start b = 0 /\ (forall x, ~ has_edge b x) /\
  (forall j, fin_of b j = match j with 0 => Some false | 1 => Some true | _ => None end).
Proof.
  eexists. split; [reflexivity|]. split; [reflexivity|]. split; [reflexivity|]. split; [reflexivity|]. split.
  - intros [[s i] t] (st & ts & H & Hin & _). unfold get_state in H. cbn in H.
    destruct s as [|[|s]]; try discriminate; injection H as <-; destruct Hin.
  - intros [|[|j]]; reflexivity.
Qed.
