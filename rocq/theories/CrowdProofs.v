(** How fast the number of runs grows. *)
From Verif Require Import Base RegexModel SpecRegex RegexParseProofs RegexProofs NfaModel SpecNfa NfaCompileProofs NfaLangProofs NfaSimProofs
  NfaMachineProofs NfaTermProofs LexerModel NfaProofs NfaWitness DotProofs LexerProofs SpecLexer SpecMunch LexerWitness SpecOnce SpecCrowd OnceProofs OnceWork.

(** ** Crowds *)
Section Crowds.
  Context {env : Env}.

  Lemma takes_places c ls : exists places, NoDup places /\ (forall i, In i places -> exists l, nth_error ls i = Some l /\ lit_set l c) /\
    length places = sums (takes c) ls.
  Proof.
    induction ls as [|x ls (ps & Hn & Hp & Hl)]; [exists []; repeat split; [constructor|intros i []]|].
    assert (Hn' : NoDup (map S ps)) by (apply FinFun.Injective_map_NoDup; [intros a b [=]; auto|auto]).
    assert (Hp' : forall i, In i (map S ps) -> exists l, nth_error (x :: ls) i = Some l /\ lit_set l c).
    { intros i Hi. apply in_map_iff in Hi. destruct Hi as (j & <- & Hj). apply Hp. auto. }
    rewrite sums_cons. unfold takes at 1. destruct (lit_contains x c) eqn:E.
    - exists (0 :: map S ps). split; [|split].
      + constructor; auto. intros Hi. apply in_map_iff in Hi. destruct Hi as (j & [=] & _).
      + intros i [<-|Hi]; auto. exists x. split; auto. apply lit_spec. auto.
      + cbn. rewrite map_length. lia.
    - exists (map S ps). split; [auto|split; [auto|]]. rewrite map_length. lia.
  Qed.

  Lemma crowd_takes d c ls : crowd d ls -> sums (takes c) ls <= d.
  Proof. intros H. destruct (takes_places c ls) as (ps & Hn & Hp & <-). eapply H; eauto. Qed.

  Lemma takes_crowd d ls : (forall c, sums (takes c) ls <= d) -> crowd d ls.
  Proof.
    intros H c ps Hn Hp. etransitivity; [|apply (H c)]. revert ps Hn Hp. clear. induction ls as [|x ls IH]; intros ps Hn Hp.
    - destruct ps as [|i ps]; [cbn; lia|]. destruct (Hp i (or_introl eq_refl)) as (l & E & _). destruct i; discriminate.
    - rewrite sums_cons.
      assert (Hs : exists qs, NoDup qs /\ (forall i, In i qs -> In (S i) ps) /\ length ps <= length qs + (if in_dec Nat.eq_dec 0 ps then 1 else 0)).
      { clear Hp IH. induction Hn as [|i ps Hi Hn IH]; [exists []; repeat split; [constructor|intros i []|cbn; lia]|].
        destruct IH as (qs & Q1 & Q2 & Q3). destruct i as [|i].
        - exists qs. split; [auto|split; [right; auto|]]. destruct (in_dec Nat.eq_dec 0 ps); [contradiction|].
          destruct (in_dec Nat.eq_dec 0 (0 :: ps)) as [|n']; [cbn; lia|destruct n'; left; auto].
        - exists (i :: qs). split; [constructor; auto|split].
          + intros j [<-|Hj]; [left; auto|right; auto].
          + destruct (in_dec Nat.eq_dec 0 ps); destruct (in_dec Nat.eq_dec 0 (S i :: ps)) as [|n']; cbn; try lia. destruct n'. right. auto. }
      destruct Hs as (qs & Q1 & Q2 & Q3). etransitivity; [exact Q3|]. rewrite Nat.add_comm. apply Nat.add_le_mono.
      + destruct (in_dec Nat.eq_dec 0 ps) as [Hi|]; [|lia]. destruct (Hp _ Hi) as (l & [= <-] & Hl). unfold takes. apply lit_spec in Hl. rewrite Hl. lia.
      + apply IH; auto. intros i Hi. apply (Hp (S i)). auto.
  Qed.

  Lemma crowd_more d d' ls : d <= d' -> crowd d ls -> crowd d' ls.
  Proof. intros H Hc c ps Hn Hp. etransitivity; [eapply Hc; eauto|auto]. Qed.

  Lemma crowd_length ls : crowd (length ls) ls.
  Proof.
    apply takes_crowd. intros c. induction ls as [|x ls IH]; [rewrite sums_nil; lia|]. rewrite sums_cons. unfold takes at 1. cbn. destruct (lit_contains x c); lia.
  Qed.

  Lemma crowd_one ls : crowd 1 ls <-> apart ls.
  Proof.
    split.
    - induction ls as [|x ls IH]; intros H; constructor.
      + apply Forall_forall. intros y Hy c [H1 H2]. apply In_nth_error in Hy. destruct Hy as (j & Hj).
        assert (E : length [0; S j] <= 1); [|cbn in E; lia]. apply (H c).
        * constructor; [intros [[=]|[]]|constructor; [intros []|constructor]].
        * intros i [<-|[<-|[]]]; [exists x|exists y]; auto.
      + apply IH. intros c ps Hn Hp. rewrite <- (map_length S). apply (H c).
        * apply FinFun.Injective_map_NoDup; [intros a b [=]; auto|auto].
        * intros i Hi. apply in_map_iff in Hi. destruct Hi as (j & <- & Hj). apply (Hp j Hj).
    - intros H. apply takes_crowd. intros c. apply apart_takes. auto.
  Qed.

  Lemma crowded_more d d' : d <= d' -> forall e k, crowded d e k -> crowded d' e k.
  Proof.
    intros Hd. induction e as [|e IH|e e2 es IH1 IH2| |l r IHl IHr|l q|e q IH] using expr_seq_ind; intros k H.
    - exact I.
    - destruct H as [H _]. split; [exact (IH k H)|exact I].
    - destruct H as [H1 H2]. split; [exact (IH1 _ H1)|exact (IH2 k H2)].
    - exact I.
    - destruct H. split; auto.
    - destruct q; cbn in *; eapply crowd_more; eauto.
    - destruct q; cbn in *; auto.
  Qed.

  Lemma crowded_exists : forall e k, exists d, crowded d e k.
  Proof.
    induction e as [|e IH|e e2 es IH1 IH2| |l r IHl IHr|l q|e q IH] using expr_seq_ind; intros k.
    - exists 0. exact I.
    - destruct (IH k) as (d & H). exists d. split; [exact H|exact I].
    - destruct (IH1 (openers (EConcat (e2 :: es)) k)) as (d1 & H1), (IH2 k) as (d2 & H2). exists (d1 + d2).
      split; [eapply crowded_more; [|exact H1]; lia|]. refine (crowded_more d2 (d1 + d2) _ (EConcat (e2 :: es)) k H2). lia.
    - exists 0. exact I.
    - destruct (IHl k) as (d1 & H1), (IHr k) as (d2 & H2). exists (d1 + d2). split; (eapply crowded_more; [|eassumption]); lia.
    - destruct q as [q|]; [exists (length (l :: k))|exists (length k)]; apply crowd_length.
    - destruct q as [q|]; [exact (IH _)|exact (IH k)].
  Qed.

  Lemma crowded_one : forall e k, crowded 1 e k <-> settled e k.
  Proof.
    induction e as [|e IH|e e2 es IH1 IH2| |l r IHl IHr|l q|e q IH] using expr_seq_ind; intros k.
    - reflexivity.
    - pose proof (IH k) as H. cbn. tauto.
    - specialize (IH1 (openers (EConcat (e2 :: es)) k)). specialize (IH2 k).
      change (crowded 1 e (openers (EConcat (e2 :: es)) k) /\ crowded 1 (EConcat (e2 :: es)) k <->
              settled e (openers (EConcat (e2 :: es)) k) /\ settled (EConcat (e2 :: es)) k). tauto.
    - reflexivity.
    - specialize (IHl k). specialize (IHr k). cbn. tauto.
    - destruct q; apply crowd_one.
    - destruct q; apply IH.
  Qed.

  Lemma crowded_limited c d : forall e k, crowded d e k -> limited 0 (takes c) d e (sums (takes c) k).
  Proof.
    induction e as [|e IH|e e2 es IH1 IH2| |l r IHl IHr|l q|e q IH] using expr_seq_ind; intros k H.
    - exact I.
    - destruct H as [H _]. exact (IH k H).
    - rewrite limited_seq. destruct H as [H1 H2]. split.
      + apply IH1 in H1. rewrite openers_tally in H1. exact H1.
      + apply IH2. exact H2.
    - exact I.
    - destruct H. split; auto.
    - destruct q as [q|]; cbn [crowded limited] in *; apply (crowd_takes _ c) in H; [rewrite sums_cons in H|]; lia.
    - destruct q as [q|]; cbn [crowded limited] in *; [|auto]. apply IH in H. rewrite sums_app, openers_tally in H. exact H.
  Qed.
End Crowds.

(** ** How many runs there are *)
Section Growth.
  Context {env : Env} {ho : HashOrder}.
  Variables (m : nfa) (kk : nat) (es : list expr) (d : nat).
  Hypothesis Hm : machine m kk es.
  Hypothesis Hd : dup_free m.
  Hypothesis Hes : forall e, In e es -> loops_ok e = true /\ crowded d e [].
  Let Hwf : wf_nfa m := proj2 (machine_wf _ _ _ Hm).
  Notation G := (has_edge m).
  Notation readers := (readers m).
  Notation events := (events m).

  Lemma few_readers c l p y x : G (p, ILit l, y) -> vrun m kk es x -> r_state x = y ->
    forall L, NoDup L -> (forall z, In z L -> star (eps_step m) x z) -> sums (fun z => readers c (r_state z)) L <= d.
  Proof.
    intros He Hx Hxy. apply (machine_cap m kk es Hm 0 (takes c) (readers c)) with (p := p) (l := l) (y := y); try assumption.
    - intros p' E HE. cbn [Nat.add]. apply readers_out; assumption.
    - intros e Hin. destruct (Hes e Hin) as [H1 H2]. split; [assumption|]. apply (crowded_limited c) in H2. exact H2.
  Qed.

  Variable B : nat.
  Hypothesis HB : forall e, In e es -> limited 1 (fun _ => 0) B e 1.

  Lemma closure_few l p y x : G (p, ILit l, y) -> vrun m kk es x -> r_state x = y ->
    forall L, NoDup L -> (forall z, In z L -> star (eps_step m) x z) -> length L <= B.
  Proof.
    intros He Hx Hxy L Hn HL.
    assert (Hc : cap m (fun _ => 1) x B).
    { apply (machine_cap m kk es Hm 1 (fun _ => 0) (fun _ => 1)) with (p := p) (l := l) (y := y); try assumption.
      - intros p' E _. unfold out. cbn. lia.
      - intros e Hin. split; [apply (Hes e Hin)|apply HB; assumption]. }
    specialize (Hc L Hn HL). cbn beta in Hc. etransitivity; [|exact Hc].
    clear. induction L as [|z L IH]; [reflexivity|]. rewrite sums_cons. cbn [length]. lia.
  Qed.

  Lemma closures_grow fuel : forall rs l, landed m kk es rs -> closures fuel m rs = Val l ->
    length l <= length rs * B /\ forall c, events c l <= length rs * d.
  Proof.
    induction rs as [|r rs IH]; intros l Hl H; cbn in H.
    - injection H as <-. split; [cbn; lia|]. intros c. unfold OnceProofs.events. rewrite sums_nil. lia.
    - destruct (run_closure fuel m r) as [l1| |] eqn:E1; try discriminate.
      destruct (closures fuel m rs) as [l2| |] eqn:E2; try discriminate. cbn in H. injection H as <-.
      destruct (IH l2 (fun y Hy => Hl y (or_intror Hy)) eq_refl) as [I1 I2].
      destruct (Hl r (or_introl eq_refl)) as [Hv (p & lt & He)]. pose proof (run_closure_nodup m _ _ _ E1) as Hn.
      pose proof (run_closure_spec m fuel r l1 Hwf ltac:(apply Hv) E1) as Hs.
      split.
      + rewrite app_length. cbn [length].
        assert (length l1 <= B) by (eapply closure_few; [exact He|exact Hv|reflexivity|exact Hn|]; intros z Hz; apply Hs; assumption). lia.
      + intros c. unfold OnceProofs.events. rewrite sums_app. cbn [length].
        assert (sums (fun x => readers c (r_state x)) l1 <= d)
          by (eapply few_readers; [exact He|exact Hv|reflexivity|exact Hn|]; intros z Hz; apply Hs; assumption).
        specialize (I2 c). unfold OnceProofs.events in I2. lia.
  Qed.

  Lemma feed_grow fuel : forall rs c l, (forall x, In x rs -> vrun m kk es x) ->
    feed_runs fuel m rs c = Val l -> length l <= events c rs * B /\ forall c', events c' l <= events c rs * d.
  Proof.
    induction rs as [|r rs IH]; intros c l Hr H; cbn in H.
    - injection H as <-. split; [cbn; lia|]. intros c'. unfold OnceProofs.events. rewrite !sums_nil. lia.
    - pose proof (Hr r (or_introl eq_refl)) as Hv. pose proof Hv as (_ & (st & Hst) & _). rewrite Hst in H. cbn [of_option bind] in H.
      destruct (closures fuel m _) as [l1| |] eqn:E1; try discriminate.
      destruct (feed_runs fuel m rs c) as [l2| |] eqn:E2; try discriminate. cbn in H. injection H as <-.
      destruct (IH c l2 (fun y Hy => Hr y (or_intror Hy)) E2) as [I1 I2].
      apply closures_grow in E1.
      + rewrite (succs_length m fuel st r c Hst) in E1. destruct E1 as [F1 F2]. unfold OnceProofs.events in *. rewrite sums_cons. split.
        * rewrite app_length. lia.
        * intros c'. rewrite sums_app. specialize (F2 c'). specialize (I2 c'). lia.
      + intros x Hx. apply (in_char_succs m) in Hx; [|assumption]. split; [eapply vrun_char; eassumption|].
        destruct Hx as (lt & t & He & _ & ->). eexists _, _. exact He.
  Qed.

  Lemma each_grow fuel : forall w rs l A, (forall x, In x rs -> vrun m kk es x) ->
    (forall c, events c rs <= A) -> w <> [] -> feed_each fuel m rs w = Val l -> length l <= A * d ^ (length w - 1) * B.
  Proof.
    induction w as [|c w IH]; intros rs l A Hr He Hne H; [contradiction|]. cbn [feed_each] in H.
    unfold sim_feed in H. destruct (feed_runs fuel m rs c) as [rs'| |] eqn:E; try discriminate. cbn [bind] in H.
    destruct (sim_accepting m rs') as [b| |]; try discriminate. cbn [bind] in H.
    destruct (feed_grow fuel rs c rs' Hr E) as [H1 H2]. destruct w as [|c2 w].
    - cbn [feed_each] in H. injection H as <-. cbn. rewrite Nat.mul_1_r. etransitivity; [exact H1|]. apply Nat.mul_le_mono_r. auto.
    - replace (A * d ^ (length (c :: c2 :: w) - 1)) with (A * d * d ^ (length (c2 :: w) - 1)).
      + apply (IH rs' l (A * d)); [|intros c'; etransitivity; [apply H2|]; apply Nat.mul_le_mono_r; auto|discriminate|exact H].
        assert (Hok : runs_ok m rs) by (intros x Hx; apply (Hr x Hx)). intros x Hx.
        apply (feed_runs_spec m fuel rs c rs' Hwf Hok E) in Hx. destruct Hx as (r & r' & Hin & Hc & Hs).
        eapply vrun_star; [exact Hm| |exact Hs]. eapply vrun_char; [exact Hm|apply Hr; exact Hin|exact Hc].
      + cbn [length]. replace (S (S (length w)) - 1) with (S (length w)) by lia. replace (S (length w) - 1) with (length w) by lia. cbn [Nat.pow]. lia.
  Qed.

  Lemma text_grow fuel w rs : sim_text fuel m w = Val rs -> w <> [] -> length rs <= length (all_placed kk es) * d ^ (length w - 1) * B.
  Proof.
    intros H Hw. unfold sim_text in H. destruct (sim_new fuel m) as [rs0| |] eqn:E; try discriminate. cbn [bind] in H.
    destruct (new_few m kk es Hm Hd fuel rs0 E) as (H1 & H2 & H3). eapply each_grow; eauto.
  Qed.
End Growth.

(** The factor depends on the regexes only. *)
Lemma runs_grow {env : Env} kk es d : (forall e, In e es -> loops_ok e = true /\ crowded d e []) ->
  exists A, forall (ho : HashOrder) m fuel w rs, machine m kk es -> dup_free m -> sim_text fuel m w = Val rs -> length rs <= A * d ^ (length w - 1).
Proof.
  intros Hes. destruct (closure_bound es) as (B & HB).
  exists (kk + list_sum (map (fun e => S (size e)) es) + length (all_placed kk es) * B).
  intros ho m fuel w rs Hm Hd H. destruct w as [|c w].
  - cbn. unfold sim_text in H. destruct (sim_new fuel m) as [rs0| |] eqn:E; try discriminate. cbn in H. injection H as <-.
    destruct (new_few m kk es Hm Hd fuel rs0 E) as (H1 & _). rewrite (mc_size _ _ _ Hm) in H1. lia.
  - etransitivity; [eapply text_grow; eauto; discriminate|]. set (p := d ^ _). nia.
Qed.

Lemma from_grow {env : Env} e d : loops_ok e = true -> crowded d e [] ->
  exists A, forall (ho : HashOrder) m fuel w rs, nfa_from e = Val m -> sim_text fuel m w = Val rs -> length rs <= A * d ^ (length w - 1).
Proof.
  intros H1 H2. destruct (runs_grow 1 [e] d) as (A & HA); [intros e' [<-|[]]; auto|]. exists A. intros ho m fuel w rs Hf H.
  eapply HA; [apply (nfa_from_ok _ _ Hf)|apply built_dup_free; eapply nfa_from_built; eassumption|exact H].
Qed.

Lemma lexer_grow {env : Env} (K : Type) (ts : list (list char * generator K)) es d : parsed ts es ->
  (forall e, In e es -> loops_ok e = true /\ crowded d e []) ->
  exists A, forall input lx (ho : HashOrder) fuel w rs, build_lexer ts input = Val (inl lx) ->
    sim_text fuel (lx_nfa lx) w = Val rs -> length rs <= A * d ^ (length w - 1).
Proof.
  intros Hp Hes. destruct (runs_grow 2 es d Hes) as (A & HA). exists A. intros input lx ho fuel w rs Hb H.
  eapply HA; [exact (ls_machine _ _ _ _ (build_state_es ts input lx es Hb Hp))|eapply build_dup_free; eassumption|exact H].
Qed.
