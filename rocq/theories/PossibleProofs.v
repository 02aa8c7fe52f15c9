(** [possible] and [endless] say which outcomes some input has. *)
From Verif Require Import Base GrammarModel CfsmModel SlrModel SpecPossible GrammarProofs PossibleFacts PossibleMachine.

Section Possible.
  Context {V T : Type} {dv : DecEq V} {dt : DecEq T} (teq : T -> T -> bool) (tb : table V T).
  Notation control := (control V T).
  Notation moves := (moves teq tb).
  Notation ends := (ends teq tb).
  Notation lasts := (lasts teq tb).
  Notation spins := (spins teq tb).
  Notation follower := (follower teq tb).

  (** ** Spinning *)
  Fixpoint follow_on (n : nat) (k : key T) (q : nat) (v : V) : option V :=
    match n with 0 => Some v | S n' => match follower k q v with Some v' => follow_on n' k q v' | None => None end end.
  Lemma spins_on n k q : forall v, spins n k q v = true <-> follow_on n k q v <> None.
  Proof.
    induction n as [|n IH]; intros v; cbn [SpecPossible.spins follow_on]; [split; [discriminate|reflexivity]|].
    destruct (follower k q v) as [v'|]; [apply IH|]. split; [discriminate|congruence].
  Qed.
  Lemma follow_plus a b k q : forall v, follow_on (a + b) k q v = match follow_on a k q v with Some v' => follow_on b k q v' | None => None end.
  Proof. induction a as [|a IH]; intros v; cbn [Nat.add follow_on]; [reflexivity|]. destruct (follower k q v); [apply IH|reflexivity]. Qed.
  Lemma follow_less a b k q v : a <= b -> follow_on b k q v <> None -> follow_on a k q v <> None.
  Proof. intros H. replace b with (a + (b - a)) by lia. rewrite follow_plus. destruct (follow_on a k q v); congruence. Qed.
  Lemma follow_round p k q v : 0 < p -> follow_on p k q v = Some v -> forall n, follow_on n k q v <> None.
  Proof.
    intros Hp E n. induction n as [n IH] using lt_wf_ind. destruct (Nat.le_gt_cases n p) as [Hn|Hn].
    - apply (follow_less n p); [exact Hn|congruence].
    - replace n with (p + (n - p)) by lia. rewrite follow_plus, E. apply IH. lia.
  Qed.
  Lemma follower_in k q v v' : follower k q v = Some v' -> In (Reduce v' 1) (all_actions tb).
  Proof.
    unfold SpecPossible.follower. destruct (nth_error (tb_goto tb) q) as [row|]; [|discriminate]. destruct (mget v row) as [d|]; [|discriminate].
    destruct (nth_error (tb_action tb) d) as [row'|] eqn:E; [|discriminate]. destruct (row_get teq k row') as [[|v0 [|[|n]]|]|] eqn:Er; try discriminate.
    intros [= ->]. eapply in_actions; [exact E|]. eapply row_get_in; eauto.
  Qed.
  Lemma follow_in n k q : forall v v', follow_on (S n) k q v = Some v' -> In (Reduce v' 1) (all_actions tb).
  Proof.
    induction n as [|n IH]; intros v v' E; cbn [follow_on] in E; destruct (follower k q v) as [v1|] eqn:E1; try discriminate.
    - injection E as <-. eapply follower_in; eauto.
    - exact (IH v1 v' E).
  Qed.
  Lemma spins_all k q v : spins (S (length (all_actions tb))) k q v = true -> forall n, spins n k q v = true.
  Proof.
    set (N := S (length (all_actions tb))). intros H n. apply spins_on. apply spins_on in H.
    destruct (existsb (fun i => existsb (fun j => (i <? j) && eqb (follow_on i k q v) (follow_on j k q v)) (seq 1 N)) (seq 1 N)) eqn:E.
    - apply existsb_exists in E. destruct E as (i & Hi & E). apply existsb_exists in E. destruct E as (j & Hj & E).
      apply andb_true_iff in E. destruct E as (Hij & E). apply Nat.ltb_lt in Hij. apply eqb_eq in E. apply in_seq in Hi. apply in_seq in Hj.
      destruct (follow_on i k q v) as [vi|] eqn:Ei; [|exfalso; apply (follow_less i N k q v); [lia|exact H|exact Ei]].
      assert (R : follow_on (j - i) k q vi = Some vi).
      { replace j with (i + (j - i)) in E by lia. rewrite follow_plus, Ei in E. congruence. }
      destruct (Nat.le_gt_cases n i) as [Hn|Hn]; [apply (follow_less n N); [lia|exact H]|].
      replace n with (i + (n - i)) by lia. rewrite follow_plus, Ei. apply (follow_round (j - i)); [lia|exact R].
    - exfalso.
      assert (Hd : NoDup (map (fun i => follow_on i k q v) (seq 1 N))).
      { apply NoDup_nth with (d := None). intros i j Hi Hj Eij. rewrite map_length, seq_length in Hi, Hj.
        assert (Enth : forall i, i < N -> nth i (map (fun i => follow_on i k q v) (seq 1 N)) None = follow_on (S i) k q v).
        { intros i0 Hi0. rewrite (nth_indep _ None (follow_on 0 k q v)) by (rewrite map_length, seq_length; exact Hi0).
          rewrite (map_nth (fun i => follow_on i k q v)), seq_nth by exact Hi0. reflexivity. }
        rewrite (Enth i Hi), (Enth j Hj) in Eij.
        assert (Hno : forall i j, i < j -> j < N -> follow_on (S i) k q v = follow_on (S j) k q v -> False).
        { intros i0 j0 H1 H2 E0. assert (Ht : existsb (fun i => existsb (fun j => (i <? j) && eqb (follow_on i k q v) (follow_on j k q v)) (seq 1 N)) (seq 1 N) = true); [|congruence].
          apply existsb_exists. exists (S i0). split; [apply in_seq; lia|]. apply existsb_exists. exists (S j0). split; [apply in_seq; lia|].
          apply andb_true_iff. split; [apply Nat.ltb_lt; lia|apply eqb_eq; exact E0]. }
        destruct (Nat.lt_trichotomy i j) as [Hx|[Hx|Hx]]; [|exact Hx|]; exfalso; eapply Hno; eauto. }
      assert (Hi : incl (map (fun i => follow_on i k q v) (seq 1 N)) (map (fun a => match a with Reduce w _ => Some w | _ => None end) (all_actions tb))).
      { intros o Ho. apply in_map_iff in Ho. destruct Ho as (i & <- & Hi). apply in_seq in Hi.
        destruct (follow_on i k q v) as [w|] eqn:Ei; [|exfalso; apply (follow_less i N k q v); [lia|exact H|exact Ei]].
        destruct i as [|i]; [lia|]. apply follow_in in Ei. apply in_map_iff. exists (Reduce w 1). auto. }
      pose proof (NoDup_incl_length Hd Hi) as Hl. rewrite !map_length, seq_length in Hl. unfold N in Hl. lia.
  Qed.

  Lemma follower_moves k q v v' st ts : follower k q v = Some v' -> moves 3 (Pop k v 0, q :: st, ts) (Pop k v' 0, q :: st, ts).
  Proof.
    unfold SpecPossible.follower. destruct (nth_error (tb_goto tb) q) as [row|] eqn:E1; [|discriminate]. destruct (mget v row) as [d|] eqn:E2; [|discriminate].
    destruct (nth_error (tb_action tb) d) as [row'|] eqn:E3; [|discriminate]. destruct (row_get teq k row') as [[|v0 [|[|n]]|]|] eqn:E4; try discriminate.
    intros [= ->]. econstructor; [cbn [next act hd_error]; rewrite E1, E2; reflexivity|]. cbn [work].
    econstructor; [cbn [next act hd_error]; rewrite E3, E4; reflexivity|]. cbn [work]. econstructor; [reflexivity|constructor].
  Qed.
  Lemma follow_moves n k q : forall v v' st ts, follow_on n k q v = Some v' -> moves (n * 3) (Pop k v 0, q :: st, ts) (Pop k v' 0, q :: st, ts).
  Proof.
    induction n as [|n IH]; intros v v' st ts E; cbn [follow_on] in E; [injection E as ->; constructor|].
    destruct (follower k q v) as [v1|] eqn:E1; [|discriminate]. change (S n * 3) with (3 + n * 3).
    eapply moves_trans; [apply follower_moves; exact E1|apply IH; exact E].
  Qed.
  Lemma spins_lasts k q v st ts : (forall n, spins n k q v = true) -> lasts (Pop k v 0, q :: st, ts).
  Proof.
    intros H n. specialize (H n). apply spins_on in H. destruct (follow_on n k q v) as [v'|] eqn:E; [|congruence].
    apply (moves_fewer teq tb _ _ _ (follow_moves n k q v v' st ts E)). lia.
  Qed.
  Lemma moves_lasts n x y : moves n x y -> lasts y -> lasts x.
  Proof.
    intros M L m. destruct (L m) as (z & Hz). apply (moves_fewer teq tb _ _ _ (moves_trans teq tb _ _ _ _ _ M Hz)). lia.
  Qed.

  (** Every reduction takes something. *)
  Definition taking : Prop := forall v n, In (Reduce v n) (all_actions tb) -> n <> 0.
  Definition N := S (length (all_actions tb)).
  Definition settles (x : config) : Prop :=
    (exists o, ends x o) \/ exists n k v q st ts, moves n x (Pop k v 0, q :: st, ts) /\ spins N k q v = true.
  Lemma moves_settles n x y : moves n x y -> settles y -> settles x.
  Proof.
    intros M [(o & E)|(m & k & v & q & st & ts & M' & H)]; [left; exists o; eapply moves_ends; eauto|].
    right. exists (n + m), k, v, q, st, ts. split; [eapply moves_trans; eauto|exact H].
  Qed.
  Lemma done_settles n x o st ts : moves n x (Done o, st, ts) -> settles x.
  Proof. intros M. left. exists o, n, st, ts. exact M. Qed.

  Lemma stops k q n : forall v, spins n k q v = false -> exists m v', follow_on m k q v = Some v' /\ follower k q v' = None.
  Proof.
    induction n as [|n IH]; intros v E; cbn [SpecPossible.spins] in E; [discriminate|]. destruct (follower k q v) as [v1|] eqn:E1.
    - destruct (IH v1 E) as (m & v' & H1 & H2). exists (S m), v'. cbn [follow_on]. rewrite E1. auto.
    - exists 0, v. auto.
  Qed.

  Section Settle.
    Hypothesis Htake : taking.

    Lemma pop_settles k ts L : (forall st, k <> None -> st <> [] -> settles (Need, st, ts)) ->
      forall v st, length st <= L -> settles (Pop k v 0, st, ts).
    Proof.
      intros Hneed. induction L as [|L IH]; intros v st Hl.
      { destruct st; cbn [length] in Hl; [|lia]. left. exists Panics. apply pop_short. cbn. lia. }
      destruct st as [|q st]; [left; exists Panics; apply pop_short; cbn; lia|]. cbn [length] in Hl.
      destruct (spins N k q v) eqn:Es; [right; exists 0, k, v, q, st, ts; split; [constructor|exact Es]|].
      destruct (stops k q N v Es) as (m & v' & H1 & H2). eapply moves_settles; [apply follow_moves; exact H1|]. clear v m Es H1.
      unfold SpecPossible.follower in H2. destruct (nth_error (tb_goto tb) q) as [row|] eqn:E1.
      2: { eapply (done_settles 1). apply moves_one. cbn [next act hd_error]. rewrite E1. reflexivity. }
      destruct (mget v' row) as [d|] eqn:E2.
      2: { eapply (done_settles 1). apply moves_one. cbn [next act hd_error]. rewrite E1, E2. reflexivity. }
      eapply (moves_settles 1); [apply moves_one; cbn [next act hd_error]; rewrite E1, E2; reflexivity|]. cbn [work].
      destruct (nth_error (tb_action tb) d) as [row'|] eqn:E3.
      2: { eapply (done_settles 1). apply moves_one. cbn [next act hd_error]. rewrite E3. reflexivity. }
      destruct (row_get teq k row') as [[e|w n|w n]|] eqn:E4.
      - destruct k as [t|].
        + eapply (moves_settles 1); [apply moves_one; cbn [next act hd_error]; rewrite E3, E4; reflexivity|]. apply Hneed; discriminate.
        + eapply (done_settles 1). apply moves_one. cbn [next act hd_error]. rewrite E3, E4. reflexivity.
      - assert (Hn : n <> 0) by (apply (Htake w), (in_actions tb d row'), (row_get_in teq k row'); assumption).
        eapply (moves_settles 1); [apply moves_one; cbn [next act hd_error]; rewrite E3, E4; reflexivity|]. cbn [work].
        destruct (Nat.le_gt_cases n (length (d :: q :: st))) as [Hle|Hgt].
        2: { left. exists Panics. apply pop_short. lia. }
        eapply moves_settles; [apply pop_moves; exact Hle|]. apply IH. rewrite skipn_length. cbn [length].
        destruct n as [|[|n]]; [congruence|discriminate H2|lia].
      - eapply (moves_settles 1); [apply moves_one; cbn [next act hd_error]; rewrite E3, E4; reflexivity|]. cbn [work].
        left. eexists. apply drop_ends.
      - eapply (done_settles 1). apply moves_one. cbn [next act hd_error]. rewrite E3, E4. reflexivity.
    Qed.

    Lemma have_settles k st ts : st <> [] -> (forall st, k <> None -> st <> [] -> settles (Need, st, ts)) -> settles (Have k, st, ts).
    Proof.
      intros Hst Hneed. destruct st as [|q st]; [congruence|]. destruct (nth_error (tb_action tb) q) as [row|] eqn:E3.
      2: { eapply (done_settles 1). apply moves_one. cbn [next act hd_error]. rewrite E3. reflexivity. }
      destruct (row_get teq k row) as [[e|w n|w n]|] eqn:E4.
      - destruct k as [t|].
        + eapply (moves_settles 1); [apply moves_one; cbn [next act hd_error]; rewrite E3, E4; reflexivity|]. apply Hneed; discriminate.
        + eapply (done_settles 1). apply moves_one. cbn [next act hd_error]. rewrite E3, E4. reflexivity.
      - eapply (moves_settles 1); [apply moves_one; cbn [next act hd_error]; rewrite E3, E4; reflexivity|]. cbn [work].
        destruct (Nat.le_gt_cases n (length (q :: st))) as [Hle|Hgt].
        2: { left. exists Panics. apply pop_short. lia. }
        eapply moves_settles; [apply pop_moves; exact Hle|]. eapply pop_settles; [exact Hneed|apply le_n].
      - eapply (moves_settles 1); [apply moves_one; cbn [next act hd_error]; rewrite E3, E4; reflexivity|]. cbn [work].
        left. eexists. apply drop_ends.
      - eapply (done_settles 1). apply moves_one. cbn [next act hd_error]. rewrite E3, E4. reflexivity.
    Qed.
    Lemma need_settles ts : forall st, st <> [] -> settles (Need, st, ts).
    Proof.
      induction ts as [|t ts IH]; intros st Hst; (eapply (moves_settles 1); [apply moves_one; reflexivity|]); apply have_settles; auto; congruence.
    Qed.
    Lemma all_settle ts : settles (Begin, [], ts).
    Proof. eapply (moves_settles 1); [apply moves_one; reflexivity|]. apply need_settles. discriminate. Qed.
  End Settle.

  (** ** Any tokens *)
  Context (ks : list T).
  Notation goes := (goes teq tb ks).
  Notation does := (does teq tb ks).

  Definition key_sim (k k' : key T) : Prop :=
    (k = None <-> k' = None) /\ forall row, In row (tb_action tb) -> row_get teq k row = row_get teq k' row.
  Definition sim (c c' : control) : Prop :=
    match c, c' with
    | Have k, Have k' => key_sim k k'
    | Pop k v j, Pop k' v' j' => key_sim k k' /\ v = v' /\ j = j'
    | _, _ => c = c'
    end.
  Lemma key_sim_refl k : key_sim k k.
  Proof. split; [tauto|reflexivity]. Qed.
  Lemma sim_refl c : sim c c.
  Proof. destruct c; cbn; auto using key_sim_refl. Qed.
  Definition covered (ts : list T) : Prop := forall t, In t ts -> exists k, In k ks /\ key_sim (Some t) (Some k).

  Lemma sim_act c c' top c1 d : sim c c' -> SpecPossible.act teq tb c top = Some (c1, d) -> exists c1', SpecPossible.act teq tb c' top = Some (c1', d) /\ sim c1 c1'.
  Proof.
    intros S E. destruct c as [| |k|k v j|j|o], c' as [| |k'|k' v' j'|j'|o']; cbn [sim] in S; try discriminate S; try (injection S as ->);
      try (exists c1; split; [exact E|apply sim_refl]).
    - cbn [act] in *. destruct top as [q|]; [|discriminate]. destruct S as (S1 & S2). destruct (nth_error (tb_action tb) q) as [row|] eqn:En.
      2: { injection E as <- <-. eexists. split; [reflexivity|reflexivity]. }
      rewrite <- (S2 row (nth_error_In _ _ En)). destruct (row_get teq k row) as [[e|w n|w n]|].
      + destruct k as [t|], k' as [t'|].
        * injection E as <- <-. eexists. split; reflexivity.
        * destruct S1 as (_ & S1). discriminate (S1 eq_refl).
        * destruct S1 as (S1 & _). discriminate (S1 eq_refl).
        * injection E as <- <-. eexists. split; reflexivity.
      + injection E as <- <-. eexists. split; [reflexivity|]. cbn. repeat split; auto; apply S1.
      + injection E as <- <-. eexists. split; reflexivity.
      + injection E as <- <-. eexists. split; reflexivity.
    - destruct S as (S & <- & <-). cbn [act] in *. destruct j as [|j], top as [q|]; try (injection E as <- <-; eexists; split; [reflexivity|cbn; auto]).
      destruct (nth_error (tb_goto tb) q) as [row|]; [|injection E as <- <-; eexists; split; reflexivity].
      destruct (mget v row) as [e|]; injection E as <- <-; eexists; (split; [reflexivity|]); [exact S|reflexivity].
  Qed.

  Lemma moves_goes n x y : moves n x y -> forall c', covered (snd x) -> sim (fst (fst x)) c' ->
    exists c1', sim (fst (fst y)) c1' /\ goes (c', snd (fst x)) (c1', snd (fst y)).
  Proof.
    induction 1 as [x|n [[c st] ts] [[c1 st1] ts1] z E _ IH]; intros c' Hc S; [exists c'; split; [exact S|constructor]|]. cbn [fst snd] in *.
    assert (Hact : (exists d, c <> Need /\ act teq tb c (hd_error st) = Some (c1, d) /\ st1 = work d st /\ ts1 = ts) \/
      (c = Need /\ st1 = st /\ ((ts = [] /\ ts1 = [] /\ c1 = Have None) \/ exists t, ts = t :: ts1 /\ c1 = Have (Some t)))).
    { destruct c; cbn [next] in E; try (left; match type of E with match act ?t ?b ?c ?x with _ => _ end = _ => destruct (act t b c x) as [[c2 d]|] end; [injection E; intros <- <- <-; exists d; split; [discriminate|]; split; [reflexivity|]; split; reflexivity|discriminate]).
      right. split; [reflexivity|]. destruct ts as [|t ts]; injection E as <- <- <-; (split; [reflexivity|]); [left; auto|right; eauto]. }
    destruct Hact as [(d & Hneed & Ha & -> & ->)|(-> & -> & [(-> & -> & ->)|(t & -> & ->)])].
    - destruct (sim_act _ _ _ _ _ S Ha) as (c1' & Ha' & S'). destruct (IH c1' Hc S') as (c2 & S2 & G). exists c2. split; [exact S2|].
      econstructor; [|exact G]. destruct c' as [| |k'|k' v' j'|j'|o']; cbn [SpecPossible.does]; try (rewrite Ha'; left; reflexivity).
      exfalso. destruct c; cbn [sim] in S; congruence.
    - destruct c'; try discriminate S. destruct (IH (Have None) Hc (key_sim_refl None)) as (c2 & S2 & G). exists c2. split; [exact S2|].
      apply (goes_step _ _ _ _ _ (Have None) Keep); [|exact G]. cbn. left. reflexivity.
    - destruct c'; try discriminate S. destruct (Hc t (or_introl eq_refl)) as (k & Hk & Sk).
      destruct (IH (Have (Some k)) (fun u Hu => Hc u (or_intror Hu)) Sk) as (c2 & S2 & G). exists c2. split; [exact S2|].
      apply (goes_step _ _ _ _ _ (Have (Some k)) Keep); [|exact G]. cbn. right. rewrite map_map. apply in_map_iff. eauto.
  Qed.

  Definition ended (c : control) : bool := match c with Begin | Need | Have (Some _) | Pop (Some _) _ _ => false | _ => true end.
  Lemma ended_act c top c' d : ended c = true -> act teq tb c top = Some (c', d) -> ended c' = true.
  Proof.
    destruct c as [| |[t|]|[t|] v [|j]|[|j]|o], top as [q|]; cbn [ended act]; try discriminate; intros _; try (intros [= <- <-]; reflexivity).
    - destruct (nth_error (tb_action tb) q) as [row|]; [|intros [= <- <-]; reflexivity]. destruct (row_get teq None row) as [[e|w n|w n]|]; intros [= <- <-]; reflexivity.
    - destruct (nth_error (tb_goto tb) q) as [row|]; [|intros [= <- <-]; reflexivity]. destruct (mget v row); intros [= <- <-]; reflexivity.
  Qed.
  Lemma goes_moves x y : goes x y -> exists ts ts1 n, incl ts ks /\ (ended (fst x) = true -> ts = []) /\ moves n (x, ts) (y, ts1).
  Proof.
    induction 1 as [x|c st c' d y H _ (ts & ts1 & n & I & E & M)].
    - exists [], [], 0. split; [intros t []|]. split; [reflexivity|]. destruct x. constructor.
    - cbn [fst] in *. destruct c as [| |k|k v j|j|o].
      2: { cbn [SpecPossible.does] in H. apply in_map_iff in H. destruct H as (k & [= <- <-] & Hk). cbn [work] in M. destruct Hk as [<-|Hk].
           - specialize (E eq_refl). subst ts. exists [], ts1, (S n). split; [exact I|]. split; [reflexivity|]. econstructor; [reflexivity|exact M].
           - apply in_map_iff in Hk. destruct Hk as (t & <- & Ht). exists (t :: ts), ts1, (S n). split; [intros u [<-|Hu]; [exact Ht|apply I, Hu]|].
             split; [discriminate|]. econstructor; [reflexivity|exact M]. }
      all: cbn [SpecPossible.does] in H; match type of H with In _ match ?a with _ => _ end => destruct a as [[c2 d2]|] eqn:Ea end; [|destruct H];
        destruct H as [[= -> ->]|[]]; exists ts, ts1, (S n); (split; [exact I|]); (split; [intros He; apply E; eapply ended_act; eauto|]);
        (econstructor; [cbn [next]; rewrite Ea; reflexivity|exact M]).
  Qed.

  Lemma incl_covered ts : incl ts ks -> covered ts.
  Proof. intros I t Ht. exists t. split; [apply I, Ht|apply key_sim_refl]. Qed.

  Lemma possible_ends o : possible teq tb ks o = true <-> exists ts, incl ts ks /\ ends (Begin, [], ts) o.
  Proof.
    unfold possible. rewrite existsb_exists. split.
    - intros ([e c] & Hf & E). cbn [snd] in E. apply eqb_eq in E. subst c. apply facts_hold in Hf. apply known_heads in Hf. destruct Hf as (st & _ & G).
      apply goes_moves in G. destruct G as (ts & ts1 & n & I & _ & M). exists ts. split; [exact I|]. exists n, st, ts1. exact M.
    - intros (ts & I & (n & st & ts1 & M)). destruct (moves_goes _ _ _ M Begin (incl_covered ts I) eq_refl) as (c1 & S & G). cbn [fst snd] in *.
      destruct c1; cbn [sim] in S; try discriminate S. injection S as <-. destruct (heads_known _ _ _ _ _ G) as (c0 & Hh).
      exists ((c0, hd_error st), Done o). split; [apply facts_hold, Hh|]. cbn [snd]. apply eqb_eq. reflexivity.
  Qed.
  Lemma covered_ends o ts : covered ts -> ends (Begin, [], ts) o -> possible teq tb ks o = true.
  Proof.
    intros Hc (n & st & ts1 & M). destruct (moves_goes _ _ _ M Begin Hc eq_refl) as (c1 & S & G). cbn [fst snd] in *.
    destruct c1; cbn [sim] in S; try discriminate S. injection S as <-. destruct (heads_known _ _ _ _ _ G) as (c0 & Hh).
    unfold possible. apply existsb_exists. exists ((c0, hd_error st), Done o). split; [apply facts_hold, Hh|]. cbn [snd]. apply eqb_eq. reflexivity.
  Qed.

  Lemma spins_sim k k' q n : key_sim k k' -> forall v, spins n k q v = spins n k' q v.
  Proof.
    intros (_ & S). assert (Hf : forall v, follower k q v = follower k' q v).
    { intros v. unfold SpecPossible.follower. destruct (nth_error (tb_goto tb) q) as [row|]; [|reflexivity]. destruct (mget v row) as [d|]; [|reflexivity].
      destruct (nth_error (tb_action tb) d) as [row'|] eqn:E; [|reflexivity]. rewrite (S row' (nth_error_In _ _ E)). reflexivity. }
    induction n as [|n IH]; intros v; cbn [SpecPossible.spins]; [reflexivity|]. rewrite Hf. destruct (follower k' q v); auto.
  Qed.
  Lemma covered_lasts ts : taking -> covered ts -> lasts (Begin, [], ts) -> endless teq tb ks = true.
  Proof.
    intros Ht Hc L. destruct (all_settle Ht ts) as [(o & E)|(n & k & v & q & st & ts1 & M & Hs)]; [destruct (ends_lasts _ _ _ _ E L)|].
    destruct (moves_goes _ _ _ M Begin Hc eq_refl) as (c1 & S & G). cbn [fst snd] in *.
    destruct c1 as [| | |k' v' j'| |]; cbn [sim] in S; try discriminate S. destruct S as (Sk & <- & <-).
    destruct (heads_known _ _ _ _ _ G) as (c0 & Hh). unfold endless. apply existsb_exists. exists ((c0, Some q), Pop k' v 0).
    split; [apply facts_hold; exact Hh|]. change (spins N k' q v = true). rewrite <- (spins_sim _ _ q _ Sk). exact Hs.
  Qed.
  Lemma endless_lasts : endless teq tb ks = true -> exists ts, incl ts ks /\ lasts (Begin, [], ts).
  Proof.
    unfold endless. rewrite existsb_exists. intros ([[c0 [q|]] c] & Hf & E); [|discriminate]. destruct c as [| | |k v [|j]| |]; try discriminate.
    apply facts_hold in Hf. apply known_heads in Hf. destruct Hf as (st & Htop & G). cbn [snd] in Htop. unfold topped in Htop.
    destruct st as [|q' st]; [discriminate|]. injection Htop as ->.
    apply goes_moves in G. destruct G as (ts & ts1 & n & I & _ & M). exists ts. split; [exact I|].
    eapply moves_lasts; [exact M|]. apply spins_lasts. apply spins_all. exact E.
  Qed.

  (** ** The parser *)
  Lemma alike_sim t k : alike teq tb t k -> key_sim (Some t) (Some k).
  Proof.
    intros H. split; [split; discriminate|]. intros row Hr. assert (Hin : forall x a, In (Some x, a) row -> teq t x = teq k x) by (intros x a; apply H; exact Hr).
    clear H Hr. induction row as [|[[x|] a] row IH]; cbn [row_get key_eq]; [reflexivity| |].
    - rewrite (Hin x a (or_introl eq_refl)). rewrite IH; [reflexivity|]. intros y b Hy. apply (Hin y b). right. exact Hy.
    - apply IH. intros y b Hy. apply (Hin y b). right. exact Hy.
  Qed.

  Lemma some_outcomes (Q : list T -> Prop) : taking -> (forall ts, incl ts ks -> Q ts) -> (forall ts, Q ts -> covered ts) ->
    ((exists ts, Q ts /\ exists fuel n, parse teq fuel tb ts = Val (Some n)) <-> possible teq tb ks Tree = true) /\
    ((exists ts, Q ts /\ exists fuel, parse teq fuel tb ts = Val None) <-> possible teq tb ks Fails = true) /\
    ((exists ts, Q ts /\ exists fuel, parse teq fuel tb ts = Panic) <-> possible teq tb ks Panics = true) /\
    ((exists ts, Q ts /\ forall fuel, parse teq fuel tb ts = Diverge) <-> endless teq tb ks = true).
  Proof.
    intros Ht Hq Hc. split; [|split; [|split]].
    1-3: split; [intros (ts & Hts & H); apply (fun o => covered_ends o ts (Hc ts Hts)); apply (parse_cases teq tb ts); exact H|];
      intros E; apply possible_ends in E; destruct E as (ts & I & E); exists ts; split; [apply Hq, I|]; apply (parse_cases teq tb ts); exact E.
    split.
    - intros (ts & Hts & H). apply (covered_lasts ts Ht (Hc ts Hts)). apply (parse_cases teq tb ts). exact H.
    - intros E. apply endless_lasts in E. destruct E as (ts & I & E). exists ts. split; [apply Hq, I|]. apply (parse_cases teq tb ts). exact E.
  Qed.
End Possible.
