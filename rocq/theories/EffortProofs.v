(** What the simulator looks at, in proportion to the number of runs. *)
From Verif Require Import Base RegexModel SpecRegex NfaModel SpecNfa SpecExtent NfaCompileProofs NfaLangProofs NfaSimProofs NfaMachineProofs NfaTermProofs NfaProofs NfaWitness
  LexerModel SpecLexer LexerProofs LexerCallsProofs LexerWitness NfaCountProofs CounterProofs ExtentProofs GrowthProofs TurnProofs EffortModel.

(** ** Counting changes nothing *)
Section Forget.
  Context {env : Env} {ho : HashOrder}.

  Definition forget {A} (x : res (A * nat)) : res A := let! (a, _) := x in Val a.

  Lemma forget_static fuel m : forall queue result, forget (effort_static fuel m queue result) = static_loop fuel m queue result.
  Proof.
    induction fuel as [|fuel IH]; intros [|i queue] result; cbn [effort_static static_loop]; try reflexivity.
    destruct (get_state m i) as [s|]; [|reflexivity]. cbn [of_option bind].
    destruct (static_push (static_targets (S fuel) s) queue result) as [q' r']. rewrite <- IH.
    destruct (effort_static fuel m q' r') as [[l k]| |]; reflexivity.
  Qed.
  Lemma forget_new fuel m : forget (effort_new fuel m) = sim_new fuel m.
  Proof.
    unfold effort_new, sim_new, static_closure. rewrite <- forget_static. destruct (effort_static fuel m _ _) as [[l k]| |]; reflexivity.
  Qed.
  Lemma forget_loop fuel m : forall queue result, forget (effort_loop fuel m queue result) = closure_loop fuel m queue result.
  Proof.
    induction fuel as [|fuel IH]; intros [|r queue] result; cbn [effort_loop closure_loop]; try reflexivity.
    destruct (get_state m (r_state r)) as [s|]; [|reflexivity]. cbn [of_option bind].
    destruct (closure_push (eps_succs (S fuel) s r) queue result) as [q' r']. rewrite <- IH.
    destruct (effort_loop fuel m q' r') as [[l k]| |]; reflexivity.
  Qed.
  Lemma forget_closure fuel m r : forget (effort_closure fuel m r) = run_closure fuel m r.
  Proof. unfold effort_closure, run_closure. rewrite <- forget_loop. destruct (effort_loop fuel m _ _) as [[l k]| |]; reflexivity. Qed.
  Lemma forget_closures fuel m : forall rs, forget (effort_closures fuel m rs) = closures fuel m rs.
  Proof.
    induction rs as [|r rs IH]; cbn [effort_closures closures]; [reflexivity|]. rewrite <- forget_closure, <- IH.
    destruct (effort_closure fuel m r) as [[l k]| |]; [|reflexivity|reflexivity]. cbn [bind forget].
    destruct (effort_closures fuel m rs) as [[l' k']| |]; reflexivity.
  Qed.
  Lemma forget_runs fuel m c : forall rs, forget (effort_runs fuel m rs c) = feed_runs fuel m rs c.
  Proof.
    induction rs as [|r rs IH]; cbn [effort_runs feed_runs]; [reflexivity|].
    destruct (get_state m (r_state r)) as [s|]; [|reflexivity]. cbn [of_option bind]. rewrite <- forget_closures, <- IH.
    destruct (effort_closures fuel m _) as [[l k]| |]; [|reflexivity|reflexivity]. cbn [bind forget].
    destruct (effort_runs fuel m rs c) as [[l' k']| |]; reflexivity.
  Qed.
  Lemma forget_accepting m : forall rs, forget (effort_accepting m rs) = sim_accepting m rs.
  Proof.
    induction rs as [|r rs IH]; cbn [effort_accepting sim_accepting]; [reflexivity|].
    destruct (get_state m (r_state r)) as [s|]; [|reflexivity]. cbn [of_option bind]. destruct (st_fin s); [reflexivity|]. rewrite <- IH.
    destruct (effort_accepting m rs) as [[b k]| |]; reflexivity.
  Qed.
  Lemma forget_feed fuel m rs c : forget (effort_feed fuel m rs c) = sim_feed fuel m rs c.
  Proof.
    unfold effort_feed, sim_feed. rewrite <- forget_runs. destruct (effort_runs fuel m rs c) as [[l k]| |]; [|reflexivity|reflexivity].
    cbn [bind forget]. rewrite <- forget_accepting. destruct (effort_accepting m l) as [[a k']| |]; reflexivity.
  Qed.
  Lemma forget_can m c : forall rs, forget (effort_can_feed m rs c) = sim_can_feed m rs c.
  Proof.
    induction rs as [|r rs IH]; cbn [effort_can_feed sim_can_feed]; [reflexivity|].
    destruct (get_state m (r_state r)) as [s|]; [|reflexivity]. cbn [of_option bind]. destruct (existsb _ (st_trans s)); [reflexivity|]. rewrite <- IH.
    destruct (effort_can_feed m rs c) as [[b k]| |]; reflexivity.
  Qed.
  Lemma forget_str fuel m w : forall rs last, forget (effort_str fuel m rs last w) = feed_str_from fuel m rs last w.
  Proof.
    induction w as [|c w IH]; intros rs last; cbn [effort_str feed_str_from].
    - rewrite <- forget_accepting. destruct (effort_accepting m rs) as [[b k]| |]; destruct last; reflexivity.
    - rewrite <- forget_feed. destruct (effort_feed fuel m rs c) as [[[l a] k]| |]; [|reflexivity|reflexivity]. cbn [bind forget fst snd].
      rewrite <- IH. destruct (effort_str fuel m l (Some a) w) as [[y k']| |]; reflexivity.
  Qed.
  Lemma forget_simulate fuel m w : forget (effort_simulate fuel m w) = simulate fuel m w.
  Proof.
    unfold effort_simulate, simulate, feed_str. rewrite <- forget_new. destruct (effort_new fuel m) as [[rs k]| |]; [|reflexivity|reflexivity].
    cbn [bind forget]. rewrite <- forget_str. destruct (effort_str fuel m rs None w) as [[[l b] k']| |]; reflexivity.
  Qed.

  Context {K : Type}.
  Lemma forget_lex fuel : forall steps (lx : lexer K) i rs kind, forget (effort_lex fuel steps lx i rs kind) = lex_loop fuel steps lx i rs kind.
  Proof.
    induction steps as [|steps IH]; intros lx i rs kind; cbn [effort_lex lex_loop]; destruct (iter_next i) as [[ch|] i1]; try reflexivity;
      try (rewrite <- forget_accepting; destruct (effort_accepting (lx_nfa lx) rs) as [[[|] k]| |]; reflexivity).
    rewrite <- forget_can. destruct (effort_can_feed (lx_nfa lx) rs ch) as [[[|] k]| |]; try reflexivity. cbn [bind forget negb].
    rewrite <- forget_feed. destruct (effort_feed fuel (lx_nfa lx) rs ch) as [[[l a] k1]| |]; try reflexivity. cbn [bind forget fst snd].
    destruct a.
    - destruct (hd_error (sim_final_states (lx_nfa lx) l)) as [f|]; try reflexivity. cbn [of_option bind].
      destruct (find_token f (lx_tokens lx)) as [g|]; try reflexivity. cbn [of_option bind]. rewrite <- IH.
      destruct (effort_lex fuel steps lx _ l _) as [[r k2]| |]; reflexivity.
    - rewrite <- IH. destruct (effort_lex fuel steps lx _ l _) as [[r k2]| |]; reflexivity.
  Qed.
  Lemma forget_next fuel (lx : lexer K) : forget (effort_next fuel lx) = lex_next fuel lx.
  Proof.
    unfold effort_next, lex_next. rewrite <- forget_new. destruct (effort_new fuel (lx_nfa lx)) as [[rs k]| |]; try reflexivity. cbn [bind forget].
    rewrite <- forget_lex. destruct (effort_lex fuel _ lx _ rs None) as [[r k']| |]; reflexivity.
  Qed.
  Lemma forget_calls fuel n : forall lx : lexer K, forget (effort_calls fuel n lx) = lex_calls fuel n lx.
  Proof.
    induction n as [|n IH]; intros lx; cbn [effort_calls lex_calls]; [reflexivity|]. rewrite <- forget_next.
    destruct (effort_next fuel lx) as [[[o lx1] k]| |]; try reflexivity. cbn [bind forget fst snd]. rewrite <- IH.
    destruct (effort_calls fuel n lx1) as [[[os lx2] k']| |]; reflexivity.
  Qed.
End Forget.

Lemma forget_val {A} (x : res (A * nat)) a k : x = Val (a, k) -> forget x = Val a.
Proof. intros ->. reflexivity. Qed.
Lemma forget_back {A} (x : res (A * nat)) a : forget x = Val a -> exists k, x = Val (a, k).
Proof. destruct x as [[b k]| |]; cbn; intros E; try discriminate. injection E as ->. eauto. Qed.

(** ** How much *)
Lemma seek_le l i : seek l i <= length l.
Proof. induction l as [|s l IH]; cbn; [lia|]. destruct (st_id s =? i); lia. Qed.

Definition entries (m : nfa) : nat := list_sum (map (fun s => length (st_trans s)) (nfa_states m)).
Definition span (m : nfa) : nat := nstates m + entries m + arrows m * S (nstates m).
Definition pace (m : nfa) : nat := 2 * span m + 2 * nstates m + 2.

Lemma sum_in {A} (f : A -> nat) l x : In x l -> f x <= list_sum (map f l).
Proof.
  induction l as [|y l IH]; intros Hx; [destruct Hx|]. change (f x <= f y + list_sum (map f l)). destruct Hx as [->|Hx]; [lia|]. specialize (IH Hx). lia.
Qed.
Lemma state_in m i s : get_state m i = Some s -> In s (nfa_states m).
Proof. unfold get_state. intros H. apply find_some in H. apply H. Qed.
Lemma entries_le m i s : get_state m i = Some s -> length (st_trans s) <= entries m.
Proof. intros H. apply state_in in H. exact (sum_in (fun s => length (st_trans s)) _ s H). Qed.
Lemma arrows_le m i s : get_state m i = Some s -> list_sum (map (fun x : input * list nat => length (snd x)) (st_trans s)) <= arrows m.
Proof. intros H. apply state_in in H. exact (sum_in (fun s => list_sum (map (fun x : input * list nat => length (snd x)) (st_trans s))) _ s H). Qed.

Lemma sum_perm l l' : Permutation l l' -> list_sum l = list_sum l'.
Proof. induction 1; unfold list_sum in *; cbn [fold_right]; lia. Qed.

Lemma flat_le {A B} (f : A -> list B) (h : A -> nat) l : (forall x, length (f x) <= h x) -> length (flat_map f l) <= list_sum (map h l).
Proof.
  intros H. induction l as [|x l IH]; [cbn; lia|]. cbn [flat_map map]. rewrite app_length. change (list_sum (h x :: map h l)) with (h x + list_sum (map h l)). specialize (H x). lia.
Qed.

Section Much.
  Context {env : Env} {ho : HashOrder}.

  Lemma weigh_iter k s : list_sum (map (fun x : input * list nat => length (snd x)) (iter_trans k s)) = list_sum (map (fun x : input * list nat => length (snd x)) (st_trans s)).
  Proof.
    unfold iter_trans. rewrite map_map. cbn [snd]. rewrite (map_ext _ (fun x : input * list nat => length (snd x))); [|intros x; apply hash_iter_length].
    apply sum_perm, Permutation_map, hash_iter_perm.
  Qed.
  Lemma static_few m i k s : get_state m i = Some s -> length (static_targets k s) <= arrows m.
  Proof.
    intros H. etransitivity; [|exact (arrows_le m i s H)]. rewrite <- (weigh_iter k s). apply flat_le. intros [[l| |q] ts]; cbn; try lia. destruct (is_satisfied q 0); cbn; lia.
  Qed.
  Lemma eps_few m i k s r : get_state m i = Some s -> length (eps_succs k s r) <= arrows m.
  Proof.
    intros H. etransitivity; [|exact (arrows_le m i s H)]. rewrite <- (weigh_iter k s). apply flat_le. intros [[l| |q] ts]; cbn; rewrite ?map_length; try lia.
    destruct (is_satisfied q _); cbn; rewrite ?map_length; lia.
  Qed.
  Lemma char_few m i k s r c : get_state m i = Some s -> length (char_succs k s r c) <= arrows m.
  Proof.
    intros H. etransitivity; [|exact (arrows_le m i s H)]. rewrite <- (weigh_iter k s). apply flat_le. intros [l ts]; cbn. destruct (can_take l c); cbn; rewrite ?map_length; lia.
  Qed.

  Lemma bset_insert_len x : forall l, ~ In x l -> length (bset_insert x l) = S (length l).
  Proof.
    induction l as [|y l IH]; intros Hx; cbn [bset_insert]; [reflexivity|]. destruct (Nat.eqb_spec x y) as [->|_]; [exfalso; apply Hx; left; reflexivity|].
    destruct (x <? y); [reflexivity|]. cbn [length]. rewrite IH; [reflexivity|]. intros H. apply Hx. right. exact H.
  Qed.
  Lemma static_push_len : forall l queue result q' r', static_push l queue result = (q', r') -> length q' + length result = length queue + length r' /\ length result <= length r'.
  Proof.
    induction l as [|x l IH]; intros queue result q' r'; cbn [static_push]; [intros [= <- <-]; lia|].
    destruct (memb x result) eqn:Em; [apply IH|]. apply memb_not_in in Em. intros H. apply IH in H. rewrite app_length, bset_insert_len in H by exact Em. cbn [length] in H. lia.
  Qed.
  Lemma closure_push_len : forall l queue result q' r', closure_push l queue result = (q', r') -> length q' + length result = length queue + length r' /\ length result <= length r'.
  Proof.
    induction l as [|x l IH]; intros queue result q' r'; cbn [closure_push]; [intros [= <- <-]; lia|].
    destruct (memb x result); [apply IH|]. intros H. apply IH in H. rewrite !app_length in H. cbn in H. lia.
  Qed.
  Lemma closure_push_in (P : run -> Prop) : forall l queue result q' r', closure_push l queue result = (q', r') ->
    (forall x, In x l -> P x) -> (forall x, In x queue -> P x) -> forall x, In x q' -> P x.
  Proof.
    induction l as [|y l IH]; intros queue result q' r'; cbn [closure_push]; [intros [= <- <-]; auto|].
    destruct (memb y result); intros H Hl Hq; (eapply IH; [exact H|intros x Hx; apply Hl; right; exact Hx|]); [exact Hq|].
    intros x Hx. apply in_app_or in Hx. destruct Hx as [Hx|[<-|[]]]; [auto|]. apply Hl. left. reflexivity.
  Qed.

  Lemma static_effort m W : (forall i s k, get_state m i = Some s -> seek (nfa_states m) i + length (st_trans s) + length (static_targets k s) <= W) ->
    forall fuel queue result l k, effort_static fuel m queue result = Val (l, k) -> k + W * length result <= W * (length l + length queue) /\ length result <= length l.
  Proof.
    intros HW. induction fuel as [|fuel IH]; intros [|i queue] result l k; cbn [effort_static]; try discriminate; try (intros [= <- <-]; cbn [length]; nia).
    destruct (get_state m i) as [s|] eqn:Es; [|discriminate]. cbn [of_option bind].
    destruct (static_push (static_targets (S fuel) s) queue result) as [q' r'] eqn:Ep. apply static_push_len in Ep.
    destruct (effort_static fuel m q' r') as [[l1 k1]| |] eqn:E; try discriminate. cbn [bind]. intros [= <- <-]. apply IH in E.
    pose proof (HW i s (S fuel) Es) as H1. cbn [length]. split; [|lia]. nia.
  Qed.
End Much.

Section Machine.
  Context {env : Env} {ho : HashOrder}.
  Variables (m : nfa) (k0 : nat) (l0 : list expr).
  Hypothesis Hm : machine m k0 l0.
  Notation fair := (fair m k0 l0).
  Notation n := (nstates m).

  Lemma sorted_short : forall (c : counters) lo hi, sorted_from lo c -> (forall i v, In (i, v) c -> i < hi) -> length c <= hi - lo.
  Proof.
    induction c as [|[i v] c IH]; intros lo hi Hs Hi; cbn [length]; [lia|]. destruct Hs as [H1 H2].
    pose proof (Hi i v (or_introl eq_refl)) as H3. specialize (IH (S i) hi H2 (fun j w Hj => Hi j w (or_intror Hj))). lia.
  Qed.
  Lemma fair_girth r : fair r -> girth r <= S n.
  Proof.
    intros [(H1 & _) (B & HB)]. unfold girth. pose proof (sorted_short (r_cnt r) 0 n H1 (fun i v Hi => proj1 (HB i v Hi))). lia.
  Qed.
  Lemma girths xs : (forall x, In x xs -> fair x) -> list_sum (map girth xs) <= length xs * S n.
  Proof.
    induction xs as [|x xs IH]; intros Hx; [cbn; lia|]. cbn [map length]. change (list_sum (girth x :: map girth xs)) with (girth x + list_sum (map girth xs)).
    pose proof (fair_girth x (Hx x (or_introl eq_refl))). specialize (IH (fun y Hy => Hx y (or_intror Hy))). lia.
  Qed.

  Lemma turn_le r s xs : get_state m (r_state r) = Some s -> (forall x, In x xs -> fair x) -> length xs <= arrows m ->
    seek (nfa_states m) (r_state r) + length (st_trans s) + list_sum (map girth xs) <= span m.
  Proof.
    intros Hs Hx Hl. pose proof (seek_le (nfa_states m) (r_state r)). pose proof (entries_le m _ s Hs). pose proof (girths xs Hx).
    unfold span. unfold nstates at 1. assert (length xs * S n <= arrows m * S n) by (apply Nat.mul_le_mono_r; exact Hl). lia.
  Qed.

  Lemma fair_succs k s r : fair r -> get_state m (r_state r) = Some s -> forall x, In x (eps_succs k s r) -> fair x.
  Proof. intros Hr Hs x Hx. apply (in_eps_succs m k s r x Hs) in Hx. eapply (TurnProofs.fair_star m k0 l0 Hm); [exact Hr|]. eapply star_step; [apply star_refl|exact Hx]. Qed.

  Lemma loop_effort : forall fuel queue result l k, (forall r, In r queue -> fair r) -> effort_loop fuel m queue result = Val (l, k) ->
    k + span m * length result <= span m * (length l + length queue) /\ length result <= length l.
  Proof.
    induction fuel as [|fuel IH]; intros [|r queue] result l k Hq; cbn [effort_loop]; try discriminate; try (intros [= <- <-]; cbn [length]; nia).
    destruct (get_state m (r_state r)) as [s|] eqn:Es; [|discriminate]. cbn [of_option bind].
    destruct (closure_push (eps_succs (S fuel) s r) queue result) as [q' r'] eqn:Ep. pose proof (closure_push_len _ _ _ _ _ Ep) as Hlen.
    pose proof (fair_succs (S fuel) s r (Hq r (or_introl eq_refl)) Es) as Hx.
    destruct (effort_loop fuel m q' r') as [[l1 k1]| |] eqn:E; try discriminate. cbn [bind]. intros [= <- <-]. apply IH in E.
    2:{ eapply closure_push_in; [exact Ep|exact Hx|]. intros x Hy. apply Hq. right. exact Hy. }
    pose proof (turn_le r s _ Es Hx (eps_few m _ (S fuel) s r Es)) as H1. cbn [length]. split; [|lia]. nia.
  Qed.

  Lemma closure_effort fuel r l k : fair r -> effort_closure fuel m r = Val (l, k) -> k <= (span m + n + 2) * length l.
  Proof.
    intros Hr. unfold effort_closure. destruct (effort_loop fuel m [r] [r]) as [[l1 k1]| |] eqn:E; try discriminate. cbn [bind]. intros [= <- <-].
    apply loop_effort in E; [|intros x [<-|[]]; exact Hr]. cbn [length] in E. pose proof (fair_girth r Hr) as Hg. rewrite ?hash_iter_length.
    destruct E as [E1 E2]. assert (S n * 1 <= S n * length l1) by (apply Nat.mul_le_mono_l; exact E2). unfold girth in Hg. lia.
  Qed.
  Lemma closures_effort fuel : forall rs l k, (forall r, In r rs -> fair r) -> effort_closures fuel m rs = Val (l, k) -> k <= (span m + n + 2) * length l.
  Proof.
    induction rs as [|r rs IH]; intros l k Hr; cbn [effort_closures]; [intros [= <- <-]; cbn; lia|].
    destruct (effort_closure fuel m r) as [[l1 k1]| |] eqn:E1; try discriminate. cbn [bind].
    destruct (effort_closures fuel m rs) as [[l2 k2]| |] eqn:E2; try discriminate. cbn [bind]. intros [= <- <-].
    apply closure_effort in E1; [|apply Hr; left; reflexivity]. specialize (IH _ _ (fun x Hx => Hr x (or_intror Hx)) eq_refl). rewrite app_length. nia.
  Qed.
  Lemma runs_effort fuel c : forall rs l k, (forall r, In r rs -> fair r) -> effort_runs fuel m rs c = Val (l, k) ->
    k <= span m * length rs + (span m + n + 2) * length l.
  Proof.
    induction rs as [|r rs IH]; intros l k Hr; cbn [effort_runs]; [intros [= <- <-]; cbn; lia|].
    destruct (get_state m (r_state r)) as [s|] eqn:Es; [|discriminate]. cbn [of_option bind].
    assert (Hx : forall x, In x (char_succs fuel s r c) -> fair x).
    { intros x Hx. apply (in_char_succs m fuel s r c x Es) in Hx. eapply (fair_char m k0 l0 Hm); [|exact Hx]. apply Hr. left. reflexivity. }
    destruct (effort_closures fuel m (char_succs fuel s r c)) as [[l1 k1]| |] eqn:E1; try discriminate. cbn [bind].
    destruct (effort_runs fuel m rs c) as [[l2 k2]| |] eqn:E2; try discriminate. cbn [bind]. intros [= <- <-].
    apply closures_effort in E1; [|exact Hx]. specialize (IH _ _ (fun x Hy => Hr x (or_intror Hy)) eq_refl).
    pose proof (turn_le r s _ Es Hx (char_few m _ fuel s r c Es)). rewrite app_length. cbn [length]. nia.
  Qed.
  Lemma accepting_effort : forall rs b k, effort_accepting m rs = Val (b, k) -> k <= n * length rs.
  Proof.
    induction rs as [|r rs IH]; intros b k; cbn [effort_accepting]; [intros [= <- <-]; lia|].
    destruct (get_state m (r_state r)) as [s|]; [|discriminate]. cbn [of_option bind]. pose proof (seek_le (nfa_states m) (r_state r)) as H. fold n in H.
    cbn [length]. destruct (st_fin s); [intros [= <- <-]; nia|].
    destruct (effort_accepting m rs) as [[b1 k1]| |] eqn:E; try discriminate. cbn [bind]. intros [= <- <-]. specialize (IH _ _ eq_refl). nia.
  Qed.
  Lemma can_effort c : forall rs b k, effort_can_feed m rs c = Val (b, k) -> k <= span m * length rs.
  Proof.
    induction rs as [|r rs IH]; intros b k; cbn [effort_can_feed]; [intros [= <- <-]; lia|].
    destruct (get_state m (r_state r)) as [s|] eqn:Es; [|discriminate]. cbn [of_option bind].
    pose proof (turn_le r s [] Es (fun x (H : In x []) => match H with end) (Nat.le_0_l _)) as H. cbn [map length] in *. change (list_sum []) with 0 in H.
    destruct (existsb _ (st_trans s)); [intros [= <- <-]; nia|].
    destruct (effort_can_feed m rs c) as [[b1 k1]| |] eqn:E; try discriminate. cbn [bind]. intros [= <- <-]. specialize (IH _ _ eq_refl). nia.
  Qed.
  Lemma feed_effort fuel rs c l b k : (forall r, In r rs -> fair r) -> effort_feed fuel m rs c = Val (l, b, k) ->
    k <= span m * length rs + (span m + 2 * n + 2) * length l.
  Proof.
    intros Hr. unfold effort_feed. destruct (effort_runs fuel m rs c) as [[l1 k1]| |] eqn:E1; try discriminate. cbn [bind].
    destruct (effort_accepting m l1) as [[a k2]| |] eqn:E2; try discriminate. cbn [bind]. intros [= <- <- <-].
    apply runs_effort in E1; [|exact Hr]. apply accepting_effort in E2. nia.
  Qed.
  Lemma new_effort fuel rs k : effort_new fuel m = Val (rs, k) -> k <= (span m + 1) * length rs.
  Proof.
    unfold effort_new. destruct (effort_static fuel m _ _) as [[l k1]| |] eqn:E; try discriminate. cbn [bind]. intros [= <- <-]. rewrite map_length.
    apply (static_effort m (span m)) in E; [cbn [length] in E; nia|]. intros i s j Hs.
    pose proof (seek_le (nfa_states m) i). pose proof (entries_le m i s Hs). pose proof (static_few m i j s Hs). unfold span. unfold nstates at 1.
    assert (arrows m * 1 <= arrows m * S n) by (apply Nat.mul_le_mono_l; lia). lia.
  Qed.
  Lemma new_fair fuel rs k : effort_new fuel m = Val (rs, k) -> forall r, In r rs -> fair r.
  Proof.
    intros H r Hr. apply forget_val in H. rewrite forget_new in H. apply (fair_init m k0 l0 Hm).
    apply (proj2 (sim_new_spec m fuel rs (proj2 (machine_wf _ _ _ Hm)) H)). exact Hr.
  Qed.
  Lemma feed_fair fuel rs c l b k : (forall r, In r rs -> fair r) -> effort_feed fuel m rs c = Val (l, b, k) -> forall r, In r l -> fair r.
  Proof.
    intros Hr H. apply forget_val in H. rewrite forget_feed in H. exact (proj1 (feed_enough m k0 l0 Hm ho fuel rs c l b Hr H)).
  Qed.

  (** A text *)
  Lemma str_effort B fuel w : forall x rs last y k, (forall r, In r rs -> fair r) -> sim_text fuel m x = Val rs ->
    (forall u v l, w = u ++ v -> sim_text fuel m (x ++ u) = Val l -> length l <= B) ->
    effort_str fuel m rs last w = Val (y, k) -> k <= pace m * (B * length w) + n * B.
  Proof.
    induction w as [|c w IH]; intros x rs last y k Hr Hx HB; cbn [effort_str].
    - destruct (effort_accepting m rs) as [[b k1]| |] eqn:E; try discriminate. cbn [bind]. intros [= <- <-]. apply accepting_effort in E.
      pose proof (HB [] [] rs eq_refl ltac:(rewrite app_nil_r; exact Hx)). nia.
    - destruct (effort_feed fuel m rs c) as [[[l a] k1]| |] eqn:E1; try discriminate. cbn [bind fst snd].
      destruct (effort_str fuel m l (Some a) w) as [[y1 k2]| |] eqn:E2; try discriminate. cbn [bind]. intros [= <- <-].
      pose proof (HB [] (c :: w) rs eq_refl ltac:(rewrite app_nil_r; exact Hx)) as H0.
      assert (Hx' : sim_text fuel m (x ++ [c]) = Val l).
      { pose proof (forget_val _ _ _ E1) as Ef. rewrite forget_feed in Ef. exact (sim_text_snoc m fuel c _ rs l a Hx Ef). }
      pose proof (HB [c] w l eq_refl Hx') as H1. pose proof (feed_effort _ _ _ _ _ _ Hr E1) as H2.
      apply (IH (x ++ [c])) in E2; [|exact (feed_fair _ _ _ _ _ _ Hr E1)|exact Hx'|].
      2:{ intros u v l1 -> Hl. apply (HB (c :: u) v l1 eq_refl). rewrite <- app_assoc in Hl. exact Hl. }
      cbn [length]. unfold pace in *. nia.
  Qed.
  Lemma simulate_effort B fuel w b k : (forall u v l, w = u ++ v -> sim_text fuel m u = Val l -> length l <= B) ->
    effort_simulate fuel m w = Val (b, k) -> k <= pace m * (B * S (length w)).
  Proof.
    intros HB. unfold effort_simulate. destruct (effort_new fuel m) as [[rs k1]| |] eqn:E1; try discriminate. cbn [bind].
    destruct (effort_str fuel m rs None w) as [[y k2]| |] eqn:E2; try discriminate. cbn [bind]. intros [= <- <-].
    assert (Hx : sim_text fuel m [] = Val rs) by (unfold sim_text; rewrite <- forget_new, E1; reflexivity).
    pose proof (HB [] w rs eq_refl Hx) as H0. apply (str_effort B fuel w []) in E2; [|exact (new_fair _ _ _ E1)|exact Hx|exact HB].
    apply new_effort in E1. unfold pace in *. nia.
  Qed.
End Machine.
