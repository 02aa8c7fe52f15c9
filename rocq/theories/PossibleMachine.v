(** The parser as the machine of SpecPossible.v. *)
From Verif Require Import Base GrammarModel CfsmModel SlrModel SpecPossible GrammarProofs PossibleFacts.

Section Machine.
  Context {V T : Type} {dv : DecEq V} {dt : DecEq T} (teq : T -> T -> bool) (tb : table V T).
  Notation control := (control V T).
  Notation act := (act teq tb).

  (** With the tokens that are left. *)
  Definition config : Type := control * list nat * list T.
  Definition next (x : config) : option config :=
    let '(c, st, ts) := x in
    match c with
    | Need => match ts with [] => Some (Have None, st, []) | t :: ts' => Some (Have (Some t), st, ts') end
    | _ => match act c (hd_error st) with Some (c', d) => Some (c', work d st, ts) | None => None end
    end.
  Inductive moves : nat -> config -> config -> Prop :=
  | moves_none x : moves 0 x x
  | moves_step n x y z : next x = Some y -> moves n y z -> moves (S n) x z.
  Definition ends (x : config) (o : verdict) : Prop := exists n st ts, moves n x (Done o, st, ts).
  Definition lasts (x : config) : Prop := forall n, exists y, moves n x y.

  Lemma moves_trans n m x y z : moves n x y -> moves m y z -> moves (n + m) x z.
  Proof. induction 1; intros; [assumption|]. cbn. econstructor; eauto. Qed.
  Lemma moves_one x y : next x = Some y -> moves 1 x y.
  Proof. intros H. econstructor; [exact H|constructor]. Qed.
  Lemma moves_ends n x y o : moves n x y -> ends y o -> ends x o.
  Proof. intros H (m & st & ts & H'). exists (n + m), st, ts. eapply moves_trans; eauto. Qed.
  Lemma moves_same n x y : moves n x y -> forall m z, moves m x z -> next y = None -> m <= n /\ (next z = None -> y = z).
  Proof.
    induction 1 as [x|n x y z E _ IH]; intros m z' H' Hy.
    - inversion H'; subst; [auto|congruence].
    - inversion H' as [|m' x' y' ? E' H'']; subst; [split; [lia|congruence]|]. rewrite E in E'. injection E' as <-.
      destruct (IH _ _ H'' Hy) as (H1 & H2). split; [lia|exact H2].
  Qed.
  Lemma ends_one x o o' : ends x o -> ends x o' -> o = o'.
  Proof. intros (n & st & ts & H) (n' & st' & ts' & H'). destruct (moves_same _ _ _ H _ _ H' eq_refl) as (_ & E). injection (E eq_refl). auto. Qed.
  Lemma ends_lasts x o : ends x o -> ~ lasts x.
  Proof. intros (n & st & ts & H) L. destruct (L (S n)) as (y & Hy). destruct (moves_same _ _ _ H _ _ Hy eq_refl). lia. Qed.
  Lemma moves_fewer n x y : moves n x y -> forall m, m <= n -> exists z, moves m x z.
  Proof.
    induction 1 as [x|n x y z E _ IH]; intros m Hm.
    - exists x. replace m with 0 by lia. constructor.
    - destruct m as [|m]; [eexists; constructor|]. destruct (IH m) as (z' & Hz); [lia|]. exists z'. econstructor; eauto.
  Qed.

  (** ** Taking entries off the stack *)
  Lemma pop_moves k v n : forall st ts, n <= length st -> moves n (Pop k v n, st, ts) (Pop k v 0, skipn n st, ts).
  Proof.
    induction n as [|n IH]; intros st ts Hn; [constructor|]. destruct st as [|q st]; cbn [length] in Hn; [lia|].
    econstructor; [reflexivity|]. cbn [work tl skipn]. apply IH. lia.
  Qed.
  Lemma pop_short k v n : forall st ts, length st <= n -> ends (Pop k v n, st, ts) Panics.
  Proof.
    induction n as [|n IH]; intros st ts Hn.
    - destruct st; cbn [length] in Hn; [|lia]. exists 1, [], ts. apply moves_one. reflexivity.
    - destruct st as [|q st]; cbn [length] in Hn; [exists 1, [], ts; apply moves_one; reflexivity|].
      eapply moves_ends; [apply moves_one; reflexivity|]. cbn [work tl]. apply IH. lia.
  Qed.
  Lemma drop_ends n : forall st ts, ends (Drop n, st, ts) (if n <=? length st then Tree else Panics).
  Proof.
    induction n as [|n IH]; intros st ts.
    - exists 1, st, ts. apply moves_one. cbn. destruct st; reflexivity.
    - destruct st as [|q st]; [exists 1, [], ts; apply moves_one; reflexivity|].
      eapply moves_ends; [apply moves_one; reflexivity|]. exact (IH st ts).
  Qed.

  (** ** The parser *)
  Definition after (k : key T) (tok : option T) : control :=
    match k with None => Have None | Some _ => match tok with None => Need | Some t => Have (Some t) end end.

  Lemma handle_moves k (stack : list (parse_node V T)) cur ts : hd_error (map snd stack) = Some cur ->
    match handle_token teq tb k stack cur with
    | Val (Some (tok, stack', pn, true)) => ends (Have k, map snd stack, ts) Tree
    | Val (Some (tok, stack', pn, false)) => exists n, moves (S n) (Have k, map snd stack, ts) (after k tok, snd pn :: map snd stack', ts)
    | Val None => ends (Have k, map snd stack, ts) Fails
    | Panic => ends (Have k, map snd stack, ts) Panics
    | Diverge => False
    end.
  Proof.
    intros Hh. unfold handle_token. set (st := map snd stack) in *.
    assert (Hl : length stack = length st) by (unfold st; rewrite map_length; reflexivity).
    assert (Hnext : forall x, act (Have k) (Some cur) = Some x -> next (Have k, st, ts) = Some (fst x, work (snd x) st, ts)).
    { intros [c' d] E. unfold next. rewrite Hh, E. reflexivity. }
    cbn [SpecPossible.act] in Hnext. destruct (nth_error (tb_action tb) cur) as [row|]; cbn [of_option bind].
    2: { eexists 1, _, _. apply moves_one. rewrite (Hnext _ eq_refl). reflexivity. }
    destruct (row_get teq k row) as [[d|v n|v n]|].
    - destruct k as [t|]; cbn [of_option bind].
      + exists 0. apply moves_one. rewrite (Hnext _ eq_refl). reflexivity.
      + eexists 1, _, _. apply moves_one. rewrite (Hnext _ eq_refl). reflexivity.
    - specialize (Hnext _ eq_refl). cbn [fst snd work] in Hnext. unfold drain. rewrite Hl. destruct (Nat.leb_spec n (length st)) as [Hn|Hn]; cbn [bind].
      2: { eapply moves_ends; [apply moves_one, Hnext|]. apply pop_short. lia. }
      pose proof (moves_trans _ _ _ _ _ (moves_one _ _ Hnext) (pop_moves k v n st ts Hn)) as M.
      assert (Es : skipn n st = map snd (skipn n stack)) by (unfold st; apply skipn_map). rewrite Es in M.
      destruct (skipn n stack) as [|[nd q] rest]; cbn [hd_error of_option bind map snd] in *.
      { eapply moves_ends; [exact M|]. apply pop_short. cbn. lia. }
      destruct (nth_error (tb_goto tb) q) as [grow|] eqn:Eg; cbn [of_option bind].
      2: { eapply moves_ends; [exact M|]. eexists 1, _, _. apply moves_one. cbn. rewrite Eg. reflexivity. }
      destruct (mget v grow) as [d|] eqn:Ed.
      + exists (n + 1). replace (S (n + 1)) with (1 + n + 1) by lia. eapply moves_trans; [exact M|]. apply moves_one. cbn [next SpecPossible.act hd_error].
        rewrite Eg, Ed. destruct k; reflexivity.
      + eapply moves_ends; [exact M|]. eexists 1, _, _. apply moves_one. cbn [next SpecPossible.act hd_error]. rewrite Eg, Ed. reflexivity.
    - specialize (Hnext _ eq_refl). cbn [fst snd work] in Hnext. unfold drain. rewrite Hl. pose proof (drop_ends n st ts) as D.
      destruct (Nat.leb_spec n (length st)) as [Hn|Hn]; cbn [bind]; (eapply moves_ends; [apply moves_one, Hnext|exact D]).
    - eexists 1, _, _. apply moves_one. rewrite (Hnext _ eq_refl). reflexivity.
  Qed.

  Definition tells (x : config) (fuel : nat) (r : res (option (node V T))) : Prop :=
    match r with
    | Val (Some _) => ends x Tree
    | Val None => ends x Fails
    | Panic => ends x Panics
    | Diverge => exists n y, fuel <= n /\ moves n x y
    end.
  Lemma tells_after n x y fuel r : moves (S n) x y -> tells y fuel r -> tells x (S fuel) r.
  Proof.
    intros M. destruct r as [[nd|]| |]; cbn [tells]; try apply (moves_ends _ _ _ _ M). intros (m & z & Hm & M'). exists (S n + m), z.
    split; [lia|]. eapply moves_trans; eauto.
  Qed.

  Lemma eof_tells fuel : forall stack cur, hd_error (map snd stack) = Some cur ->
    tells (Have None, map snd stack, []) fuel (eof_loop teq fuel tb stack cur).
  Proof.
    induction fuel as [|fuel IH]; intros stack cur Hh; cbn [eof_loop].
    - exists 0, (Have None, map snd stack, []). split; [lia|constructor].
    - pose proof (handle_moves None stack cur [] Hh) as H. destruct (handle_token teq tb None stack cur) as [[[[[tok stack'] pn] [|]]|]| |]; cbn [bind]; try exact H; [|destruct H].
      destruct H as (n & M). cbn [after] in M. eapply tells_after; [exact M|]. exact (IH (pn :: stack') (snd pn) eq_refl).
  Qed.
  Lemma parse_tells fuel : forall ts tok stack cur, hd_error (map snd stack) = Some cur ->
    tells (match tok with None => Need | Some t => Have (Some t) end, map snd stack, ts) fuel (parse_loop teq next_of_list fuel tb ts tok stack cur).
  Proof.
    assert (Hhave : forall fuel t ts stack cur, hd_error (map snd stack) = Some cur ->
      (forall ts tok stack cur, hd_error (map snd stack) = Some cur ->
        tells (match tok with None => Need | Some t => Have (Some t) end, map snd stack, ts) fuel (parse_loop teq next_of_list fuel tb ts tok stack cur)) ->
      tells (Have (Some t), map snd stack, ts) (S fuel)
        (let! o := handle_token teq tb (Some t) stack cur in
         match o with
         | None => Val None
         | Some (tok2, stack', pn, accept) => if accept then Val (Some (fst pn)) else parse_loop teq next_of_list fuel tb ts tok2 (pn :: stack') (snd pn)
         end)).
    { clear fuel. intros fuel t ts stack cur Hh IH. pose proof (handle_moves (Some t) stack cur ts Hh) as H.
      destruct (handle_token teq tb (Some t) stack cur) as [[[[[tok stack'] pn] [|]]|]| |]; cbn [bind]; try exact H; [|destruct H].
      destruct H as (n & M). cbn [after] in M. eapply tells_after; [exact M|]. exact (IH ts tok (pn :: stack') (snd pn) eq_refl). }
    induction fuel as [|fuel IH]; intros ts tok stack cur Hh; cbn [parse_loop].
    - eexists 0, _. split; [lia|constructor].
    - destruct tok as [t|]; cbn [bind]; [apply Hhave; assumption|]. destruct ts as [|t ts]; cbn [next_of_list bind].
      + eapply (tells_after 0); [apply moves_one; reflexivity|]. apply eof_tells, Hh.
      + specialize (Hhave fuel t ts stack cur Hh IH). revert Hhave. match goal with |- tells _ _ ?r -> _ => generalize r end. intros r Hr.
        assert (M : moves 1 (Need, map snd stack, t :: ts) (Have (Some t), map snd stack, ts)) by (apply moves_one; reflexivity).
        destruct r as [[nd|]| |]; cbn [tells] in *; try (eapply moves_ends; eassumption). destruct Hr as (n & y & Hn & M'). exists (1 + n), y.
        split; [lia|]. eapply moves_trans; eauto.
  Qed.

  Lemma parse_tells_all fuel ts : tells (Begin, [], ts) fuel (parse teq fuel tb ts).
  Proof.
    unfold parse, parse_from. pose proof (parse_tells fuel ts None [(Node (Var (g_start (tb_grammar tb))) [], 0)] 0 eq_refl) as H. revert H.
    match goal with |- tells _ _ ?r -> _ => generalize r end. intros r Hr.
    assert (M : moves 1 (Begin, [], ts) (Need, [0], ts)) by (apply moves_one; reflexivity). cbn [map snd] in Hr.
    destruct r as [[nd|]| |]; cbn [tells] in *; try (eapply moves_ends; eassumption). destruct Hr as (n & y & Hn & M'). exists (1 + n), y.
    split; [lia|]. eapply moves_trans; eauto.
  Qed.

  Lemma parse_cases ts :
    ((exists fuel n, parse teq fuel tb ts = Val (Some n)) <-> ends (Begin, [], ts) Tree) /\
    ((exists fuel, parse teq fuel tb ts = Val None) <-> ends (Begin, [], ts) Fails) /\
    ((exists fuel, parse teq fuel tb ts = Panic) <-> ends (Begin, [], ts) Panics) /\
    ((forall fuel, parse teq fuel tb ts = Diverge) <-> lasts (Begin, [], ts)).
  Proof.
    assert (Hsome : forall o, ends (Begin, [], ts) o -> exists fuel, parse teq fuel tb ts <> Diverge).
    { intros o (n & st & ts' & M). exists (S n). intros E. pose proof (parse_tells_all (S n) ts) as H. rewrite E in H. destruct H as (m & y & Hm & M').
      destruct (moves_same _ _ _ M _ _ M' eq_refl). lia. }
    assert (Hpick : forall o, ends (Begin, [], ts) o -> exists fuel, match o with Tree => exists n, parse teq fuel tb ts = Val (Some n)
      | Fails => parse teq fuel tb ts = Val None | Panics => parse teq fuel tb ts = Panic end).
    { intros o Ho. destruct (Hsome o Ho) as (fuel & Hf). exists fuel. pose proof (parse_tells_all fuel ts) as H.
      destruct (parse teq fuel tb ts) as [[nd|]| |]; cbn [tells] in H; [| | |congruence]; rewrite (ends_one _ _ _ Ho H); eauto. }
    split; [|split; [|split]].
    - split; [|apply (Hpick Tree)]. intros (fuel & n & E). pose proof (parse_tells_all fuel ts) as H. rewrite E in H. exact H.
    - split; [|apply (Hpick Fails)]. intros (fuel & E). pose proof (parse_tells_all fuel ts) as H. rewrite E in H. exact H.
    - split; [|apply (Hpick Panics)]. intros (fuel & E). pose proof (parse_tells_all fuel ts) as H. rewrite E in H. exact H.
    - split.
      + intros E n. pose proof (parse_tells_all n ts) as H. rewrite E in H. destruct H as (m & y & Hm & M). exact (moves_fewer _ _ _ M n Hm).
      + intros L fuel. pose proof (parse_tells_all fuel ts) as H. destruct (parse teq fuel tb ts) as [[nd|]| |]; cbn [tells] in H; [| | |reflexivity];
          destruct (ends_lasts _ _ H L).
  Qed.
End Machine.
