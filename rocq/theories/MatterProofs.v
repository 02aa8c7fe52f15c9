(** When the order of the iterations matters. *)
From Verif Require Import Base GrammarModel CfsmModel SlrModel SpecCfg SpecMachine GrammarProofs FirstProofs FollowProofs GrammarTotal ItemProofs CfsmProofs CfsmCorrect
  TableProofs SlrTable SlrNew SlrRun SlrMoves SlrSim SlrTerm SlrAll SlrFinal SlrPrefix SlrLinear SlrMachine EntryProofs SpecOutcome OutcomeProofs
  SpecPossible PossibleFacts SpecExactness ExactnessProofs SpecBuildable BuildableProofs SpecTextbook TextbookProofs SpecMatter.

Section Matter.
  Context {V T : Type} {dv : DecEq V} {dt : DecEq T}.
  Notation sym := (symbol V T).
  Variable g : grammar V T.
  Hypothesis Hb : built g.
  Variable teq : T -> T -> bool.
  Hypothesis Hteq : lawful teq.

  (** ** The three results *)
  Lemma three_results (ho : HashOrder) fuel p tb ts : slr_new teq fuel p g = Val tb ->
    (exists n m, forall k, m <= k -> parse teq k tb ts = Val (Some n)) \/
    (exists m, forall k, m <= k -> failed (parse teq k tb ts)) \/ forall k, parse teq k tb ts = Diverge.
  Proof.
    intros H. set (B := (2 * length ts + 1) * (length (g_rules g) + 1) + 1).
    assert (L : forall k, B <= k -> parse teq k tb ts = parse teq B tb ts) by (intros k Hk; exact (parse_linear teq Hteq g Hb fuel p tb ts k H Hk)).
    destruct (parse teq B tb ts) as [[n|]| |] eqn:E.
    - left. exists n, B. exact L.
    - right. left. exists B. intros k Hk. left. exact (L k Hk).
    - right. left. exists B. intros k Hk. right. exact (L k Hk).
    - right. right. intros k. destruct (parse teq k tb ts) as [o| |] eqn:E2; [| |reflexivity]; exfalso.
      + pose proof (parse_stable teq tb k ts _ E2 ltac:(discriminate) (Nat.max k B) ltac:(lia)) as E3. rewrite L in E3 by lia. discriminate.
      + pose proof (parse_stable teq tb k ts _ E2 ltac:(discriminate) (Nat.max k B) ltac:(lia)) as E3. rewrite L in E3 by lia. discriminate.
  Qed.
  Lemma endless_both (ho ho' : HashOrder) fuel p tb fuel' p' tb' ts : slr_new teq (ho := ho) fuel p g = Val tb -> slr_new teq (ho := ho') fuel' p' g = Val tb' ->
    (forall k, parse teq k tb ts = Diverge) -> forall k, parse teq k tb' ts = Diverge.
  Proof.
    intros H H' D. destruct (parser_machine (ho := ho) teq Hteq g Hb _ _ _ H) as (e & _ & _ & M). destruct (parser_machine (ho := ho') teq Hteq g Hb _ _ _ H') as (e' & _ & _ & M').
    destruct (M ts) as (_ & _ & M3 & _). destruct (M' ts) as (_ & _ & N3 & _). apply N3, M3, D.
  Qed.
  (** Two parsers agree on an input for which neither returns a tree. *)
  Lemma agree_or_tree (ho ho' : HashOrder) fuel p tb fuel' p' tb' ts : slr_new teq (ho := ho) fuel p g = Val tb -> slr_new teq (ho := ho') fuel' p' g = Val tb' ->
    (exists n k, parse teq k tb ts = Val (Some n)) \/ (exists n k, parse teq k tb' ts = Val (Some n)) \/
    exists m, forall k, m <= k -> agree (parse teq k tb ts) (parse teq k tb' ts).
  Proof.
    intros H H'. destruct (three_results ho _ _ _ ts H) as [(n & m & R)|[(m & R)|R]]; [left; exists n, m; apply R; lia| |];
      (destruct (three_results ho' _ _ _ ts H') as [(n' & m' & R')|[(m' & R')|R']]; [right; left; exists n', m'; apply R'; lia| |]).
    - right. right. exists (Nat.max m m'). intros k Hk. right. left. split; [apply R|apply R']; lia.
    - exfalso. pose proof (endless_both ho' ho _ _ _ _ _ _ ts H' H R' m) as D. destruct (R m (le_n m)) as [E|E]; rewrite E in D; discriminate.
    - exfalso. pose proof (endless_both ho ho' _ _ _ _ _ _ ts H H' R m') as D. destruct (R' m' (le_n m')) as [E|E]; rewrite E in D; discriminate.
    - right. right. exists 0. intros k _. right. right. auto.
  Qed.
  Lemma tree_possible (ho : HashOrder) fuel p tb ts fuel' n : slr_new teq fuel p g = Val tb -> parse teq fuel' tb ts = Val (Some n) -> entry_possible g (g_start g).
  Proof.
    intros H E. destruct (parser_machine teq Hteq g Hb _ _ _ H) as (e & _ & Ep & M). destruct (M ts) as (M1 & _). destruct (proj1 (M1 n)) as (k & [st r] & _ & Ha); [eauto|].
    apply Ep, Ha.
  Qed.

  Lemma differ_not_same ho p ho' p' : differ teq g ho p ho' p' -> same teq g ho p ho' p' -> False.
  Proof.
    intros (n & D) (n' & S). specialize (D (n + n') ltac:(lia)). specialize (S (n + n') ltac:(lia)).
    destruct S as [(S1 & S2)|(tb & tb' & S1 & S2 & S3)]; rewrite S1, S2 in D.
    - destruct D as [(_ & ? & D)|[(_ & ? & D)|(? & ? & ? & D & _)]]; discriminate.
    - destruct D as [(D & _)|[(D & _)|(tb1 & tb1' & ts & D1 & D2 & m & D3)]]; [discriminate|discriminate|]. injection D1 as <-. injection D2 as <-.
      destruct (S3 ts) as (m' & S4). apply (D3 (m + m')); [lia|]. apply S4. lia.
  Qed.

  Notation sure := (entry_sure g (g_start g)).
  Notation maybe := (entry_possible g (g_start g)).

  Lemma clash_dec (e : bool) (E : Prop) : (e = true <-> E) -> clash g teq E \/ ~ clash g teq E.
  Proof. intros He. pose proof (clashb_ok g teq e E He) as C. destruct (clashb g teq e); [left; apply C; reflexivity|right; intros H; apply C in H; discriminate]. Qed.

  (** An order under which the start variable has no entry. *)
  Lemma treeless : ~ sure -> ~ clash g teq maybe -> exists ho p n tb, (forall fuel, n <= fuel -> slr_new teq (ho := ho) fuel p g = Val tb) /\
    forall ts k x, parse teq k tb ts <> Val (Some x).
  Proof.
    intros Hs Hc. destruct (fewest g Hb [0; 1]) as (ho & fuel & fs & E & He).
    destruct (new_with g Hb teq Hteq ho fuel [] fs E) as (n & r & En & [[-> Hn]|(tb & c & -> & Hn & Hcf & Hf & Ht)]).
    - exfalso. apply Hc. eapply clash_mono; [|exact Hn]. intros Hx. exact (proj2 (always g Hb ho _ _ _ E (g_start g)) Hx).
    - exists ho, [], n, tb. split; [exact En|]. intros ts k x Hp.
      destruct (machine_ok teq Hteq g (built_good g Hb) c Hcf fs Hf tb Ht ts) as (M1 & _). destruct (proj1 (M1 x)) as (j & [st r] & _ & Ha); [eauto|].
      destruct Ha as (_ & Ha & _). apply Hs, He, Ha.
  Qed.

  Lemma matters_iff : order_matters teq g <->
    ~ clash g teq sure /\ (clash g teq maybe \/ (~ sure /\ some_tree_at_all teq g)).
  Proof.
    split.
    - intros (ho & p & ho' & p' & n & D).
      destruct (slr_new_total (ho := ho) teq Hteq g Hb p) as (n1 & r1 & E1 & H1). destruct (slr_new_total (ho := ho') teq Hteq g Hb p') as (n2 & r2 & E2 & H2).
      set (N := n + n1 + n2). specialize (D N ltac:(lia)). pose proof (E1 N ltac:(lia)) as F1. pose proof (E2 N ltac:(lia)) as F2. rewrite F1, F2 in D.
      destruct H1 as [(-> & C1)|(tb & -> & C1)], H2 as [(-> & C2)|(tb' & -> & C2)].
      + exfalso. destruct D as [(_ & ? & D)|[(_ & ? & D)|(? & ? & ? & D & _)]]; discriminate.
      + auto.
      + auto.
      + split; [exact C1|]. destruct (clash_dec _ _ (maybeb_ok g (g_start g))) as [Hc|Hc]; [left; exact Hc|right].
        destruct D as [(D & _)|[(D & _)|(tb1 & tb1' & ts & D1 & D2 & m & D3)]]; [discriminate|discriminate|]. injection D1 as <-. injection D2 as <-. split.
        * intros Hs. destruct (steady_orders teq g ho ho' p p' Hteq Hb) as (n' & S); [apply steadyb_ok; auto|].
          specialize (S (N + n') ltac:(lia)). rewrite E1, E2 in S by lia. destruct S as [(S & _)|(tb1 & tb1' & S1 & S2 & S3)]; [discriminate|]. injection S1 as <-. injection S2 as <-.
          destruct (S3 ts) as (m' & S4). apply (D3 (m + m')); [lia|]. apply S4. lia.
        * destruct (agree_or_tree ho ho' _ _ _ _ _ _ ts F1 F2) as [(x & k & Hk)|[(x & k & Hk)|(m' & A)]].
          -- exists ho, N, p, tb, ts, k, x. auto.
          -- exists ho', N, p', tb', ts, k, x. auto.
          -- exfalso. apply (D3 (m + m')); [lia|]. apply A. lia.
    - intros (C & H). destruct (clash_dec _ _ (maybeb_ok g (g_start g))) as [Hc|Hc].
      + destruct (proj2 (proj1 (some_order g Hb teq Hteq)) Hc) as (ho & p & n & E). destruct (proj2 (proj2 (some_order g Hb teq Hteq)) C) as (ho' & p' & n' & tb & E').
        exists ho, p, ho', p', (n + n'). intros fuel Hf. left. split; [apply E; lia|]. exists tb. apply E'. lia.
      + destruct H as [H|(Hs & ho & fuel & p & tb & ts & k & x & E & P)]; [destruct (Hc H)|].
        destruct (treeless Hs Hc) as (ho' & p' & n' & tb' & E' & N').
        destruct (slr_new_total (ho := ho) teq Hteq g Hb p) as (n1 & r1 & E1 & H1).
        assert (r1 = Val tb) as ->.
        { rewrite <- (E1 (fuel + n1) ltac:(lia)). apply (slr_new_more (ho := ho)); auto. }
        exists ho, p, ho', p', (n1 + n'). intros fuel0 Hf. right. right. exists tb, tb', ts. split; [apply E1; lia|]. split; [apply E'; lia|].
        exists k. intros j Hj. rewrite (parse_stable teq tb k ts _ P) by (discriminate || lia).
        intros [(y & _ & A)|[([A|A] & _)|(A & _)]]; try discriminate. exact (N' _ _ _ A).
  Qed.

  (** ** A function that tells *)
  Hypothesis Heps : epsilon_free g.
  Lemma closingb_ok : closingb g = true <-> exists ts x, accepted teq g ts x.
  Proof.
    unfold closingb. rewrite existsb_exists. split.
    - intros ([v bd] & Hr & H). cbn [fst snd] in H. apply andb_true_iff in H. destruct H as (H & H3). apply andb_true_iff in H. destruct H as (H1 & H2).
      apply (eqb_eq v (g_start g)) in H1. subst v. apply in_rules in Hr. apply all_productive_ok in H3.
      assert (Hn : ~ In Eps bd) by (apply (Heps (g_start g)); [exists [], []; constructor|exact Hr]).
      destruct (rev bd) as [|[t|u|] b] eqn:Eb; try discriminate. apply (f_equal (@rev _)) in Eb. rewrite rev_involutive in Eb. cbn [rev] in Eb.
      destruct (productive_read teq Hteq g bd H3 Hn) as (ys & Y1 & Y2). eexists. exists (Branch (g_start g) ys). exists [], [], bd, (rev b), t, ys.
      split; [apply (lr0_start g bd); [exact Hr|]; constructor; intros b' E; apply Hn; rewrite E; left; reflexivity|].
      repeat match goal with |- _ /\ _ => split end; auto; try constructor.
    - intros (ts & x & w & xs & bd & b & t & ys & L & Eb & _ & _ & Y1 & Y2 & _). apply lr0_rule in L. exists (g_start g, bd). split; [apply in_rules; exact L|]. cbn [fst snd].
      rewrite (proj2 (eqb_eq _ _) eq_refl). subst bd. rewrite rev_unit. cbn [andb]. apply all_productive_ok.
      intros v Hv. clear L ts x w xs. induction Y1 as [|s y bd ys Hs Y1 IH]; [destruct Hv|]. inversion Y2 as [|? ? D1 D2]; subst. destruct Hv as [->|Hv]; [exact (tree_steps teq g y D1 _ Hs)|auto].
  Qed.
  Lemma mattersb_ok : mattersb teq g = true <-> order_matters teq g.
  Proof.
    rewrite matters_iff. unfold mattersb, sometimes_built, always_built. rewrite negb_involutive, andb_true_iff, orb_true_iff, !andb_true_iff, !negb_true_iff.
    pose proof (clashb_ok g teq _ _ (sureb_ok g (g_start g))) as C1. pose proof (clashb_ok g teq _ _ (maybeb_ok g (g_start g))) as C2.
    pose proof (maybeb_ok g (g_start g)) as M. pose proof (sureb_ok g (g_start g)) as S. split.
    - intros (H1 & H2). split; [intros C; apply C1 in C; congruence|]. destruct (clashb g teq (maybeb g (g_start g))) eqn:E; [left; apply C2; reflexivity|right].
      destruct H2 as [H2|((H2 & H3) & H4)]; [discriminate|]. split; [intros Hs; apply S in Hs; congruence|]. apply closingb_ok in H4. destruct H4 as (ts & x & H4).
      destruct (proj2 (some_tree g Hb teq Hteq Heps ts x)) as (ho & fuel & p & tb & k & E1 & E2).
      { split; [apply M; exact H2|]. split; [|exact H4]. intros C. apply C2 in C. discriminate. }
      exists ho, fuel, p, tb, ts, k, (to_node x). auto.
    - intros (H1 & H2). split; [destruct (clashb g teq (sureb g (g_start g))); [destruct H1; apply C1; reflexivity|reflexivity]|].
      destruct H2 as [H2|(H2 & ho & fuel & p & tb & ts & k & n & E1 & E2)]; [left; apply C2; exact H2|right].
      split; [split; [apply M; eapply tree_possible; eauto|destruct (sureb g (g_start g)); [destruct H2; apply S; reflexivity|reflexivity]]|].
      apply closingb_ok. destruct (slr_new_parts teq Hteq g Hb _ _ _ E1) as (c & fs & _ & Hc & Hf & Ht).
      destruct (parse_accepted teq Hteq g (built_good g Hb) Heps c Hc fs Hf tb Ht _ _ _ E2) as (_ & x & Ha & _). eauto.
  Qed.
  Lemma same_iff : mattersb teq g = false <-> forall ho p ho' p', same teq g ho p ho' p'.
  Proof.
    split.
    - intros H ho p ho' p'.
      assert (Hno : ~ order_matters teq g) by (intros Hm; apply mattersb_ok in Hm; congruence).
      destruct (slr_new_total (ho := ho) teq Hteq g Hb p) as (n1 & r1 & E1 & H1). destruct (slr_new_total (ho := ho') teq Hteq g Hb p') as (n2 & r2 & E2 & H2).
      exists (n1 + n2). intros fuel Hf. rewrite E1, E2 by lia. pose proof (E1 n1 (le_n _)) as F1. pose proof (E2 n2 (le_n _)) as F2.
      destruct H1 as [(-> & C1)|(tb & -> & C1)], H2 as [(-> & C2)|(tb' & -> & C2)].
      + left. auto.
      + destruct Hno. apply matters_iff. auto.
      + destruct Hno. apply matters_iff. auto.
      + right. exists tb, tb'. split; [reflexivity|]. split; [reflexivity|]. intros ts.
        destruct (sureb g (g_start g)) eqn:Es.
        * apply sureb_ok in Es. destruct (steady_orders teq g ho ho' p p' Hteq Hb) as (n' & S); [apply steadyb_ok; auto|].
          specialize (S (n1 + n2 + n') ltac:(lia)). rewrite E1, E2 in S by lia. destruct S as [(S & _)|(tb1 & tb1' & S1 & S2 & S3)]; [discriminate|]. injection S1 as <-. injection S2 as <-. apply S3.
        * assert (Hs : ~ sure) by (intros Hs; apply sureb_ok in Hs; congruence).
          destruct (agree_or_tree ho ho' _ _ _ _ _ _ ts F1 F2) as [(x & k & Hk)|[(x & k & Hk)|A]]; [| |exact A]; exfalso; apply Hno, matters_iff; split; auto; right; split; auto.
          -- exists ho, n1, p, tb, ts, k, x. auto.
          -- exists ho', n2, p', tb', ts, k, x. auto.
    - intros H. destruct (mattersb teq g) eqn:E; [|reflexivity]. apply mattersb_ok in E. destruct E as (ho & p & ho' & p' & D). destruct (differ_not_same _ _ _ _ D (H ho p ho' p')).
  Qed.
End Matter.
