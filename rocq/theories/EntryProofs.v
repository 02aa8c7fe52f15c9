(** Which variables get an entry in the FOLLOW map, over all orders: the orders
    that give the most and the fewest. *)
From Verif Require Import Base GrammarModel CfsmModel SlrModel OrderModel OrderProofs OrderLink OrderAll SpecCfg
  GrammarProofs FirstProofs FollowProofs GrammarTotal ItemProofs CfsmProofs CfsmCorrect TableProofs SlrTable SlrNew SlrRun SlrMoves
  SlrSim SlrTerm SlrAll SlrFinal.

Lemma outcome_bind {A B} (c : prog A) a (f : A -> prog B) r : outcome c (Val a) -> outcome (f a) r -> outcome (pbind c f) r.
Proof.
  intros H Hf. remember (Val a) as x eqn:E. induction H as [x|k X l l' h x Hp H IH]; subst; cbn [pbind]; [exact Hf|].
  eapply outcome_ask; [exact Hp|auto].
Qed.

Lemma outcome_each {I X Y} (k : I -> list nat) (h : I -> X -> Y) s l :
  outcome (ask_each k h s l) (Val (flat_map (fun e => map (h e) (s e)) l)).
Proof. pose proof (run_outcome id_order (ask_each k h s l)) as H. rewrite run_each in H. exact H. Qed.

Lemma filter_halves {A} (f : A -> bool) (l : list A) : Permutation (filter f l ++ filter (fun x => negb (f x)) l) l.
Proof.
  induction l as [|x l IH]; [constructor|]. cbn [filter]. destruct (f x); cbn [negb app].
  - constructor. exact IH.
  - rewrite <- Permutation_middle. constructor. exact IH.
Qed.

Section Entries.
  Context {V T : Type} {dv : DecEq V} {dt : DecEq T}.
  Notation sym := (symbol V T).
  Notation sets := (list (V * list sym)).
  Implicit Types (m : sets) (deps : list (V * list V)) (q : list (V * V)) (K : list V).
  Notation keys m := (map fst (m : sets)).

  (** The pairs of the queue that come from an entry of the dependencies. *)
  Definition pairs_of (e : V * list V) : list (V * V) := map (fun lhs => (lhs, fst e)) (snd e).
  Definition queue_of deps : list (V * V) := flat_map pairs_of deps.

  Lemma in_queue_of deps a b : In (a, b) (queue_of deps) <-> exists l, In (b, l) deps /\ In a l.
  Proof.
    unfold queue_of. rewrite in_flat_map. split.
    - intros ([b' l] & H1 & H2). apply in_map_iff in H2. destruct H2 as (a' & [= -> <-] & H2). eauto.
    - intros (l & H1 & H2). exists (b, l). split; [exact H1|]. apply in_map_iff. exists a. auto.
  Qed.

  Lemma outcome_deps p deps ds : Permutation ds deps -> outcome (o_iter_deps p deps) (Val (queue_of ds)).
  Proof.
    intros Hp. unfold o_iter_deps. eapply outcome_bind.
    - unfold ask. eapply outcome_ask; [exact Hp|apply outcome_over].
    - match goal with |- outcome (ask_each ?k ?h ?s ?l) _ => pose proof (outcome_each k h s l) as H end.
      replace (queue_of ds) with (flat_map (fun e : nat * (V * list V) => map (fun lhs => (lhs, fst (snd e))) (snd (snd e))) (enumerate ds)); [exact H|].
      unfold queue_of. rewrite <- (map_snd_enumerate ds) at 2. generalize (enumerate ds). intros l.
      induction l as [|e l IH]; [reflexivity|]. cbn [map flat_map]. rewrite IH. reflexivity.
  Qed.

  Lemma in_deps deps b l : deps_ok deps -> In (b, l) deps -> mget b deps = Some l.
  Proof. intros Hn H. apply in_mget; auto. Qed.

  Lemma queue_dep deps ds a b : deps_ok deps -> Permutation ds deps -> In (a, b) (queue_of ds) <-> dep deps b a.
  Proof.
    intros Hn Hp. rewrite in_queue_of. unfold dep. split; intros (l & H1 & H2); exists l; (split; [|exact H2]).
    - apply in_deps; [exact Hn|]. eapply Permutation_in; eauto.
    - eapply Permutation_in; [apply Permutation_sym; exact Hp|]. apply mget_in; auto.
  Qed.

  Section Loop.
    Context {ho : HashOrder}.
    Variable p : list nat.
    Variable deps : list (V * list V).

    Definition more lhs fr m : list (V * V) :=
      let old := match mget lhs m with Some l => l | None => [] end in
      let new := set_extend fr old in
      let result' := mupdate lhs [] (set_extend fr) m in
      if Nat.eqb (length old) (length new) then []
      else match mget lhs deps with
           | Some ds => map (fun d => (d, lhs)) (hash_at (first_size result' :: 5 :: p) ds)
           | None => []
           end.

    Lemma loop_step fuel lhs rhs rest m : follow_loop (S fuel) p deps ((lhs, rhs) :: rest) m =
      match mget rhs m with
      | None => follow_loop fuel p deps rest m
      | Some fr => follow_loop fuel p deps (rest ++ more lhs fr m) (mupdate lhs [] (set_extend fr) m)
      end.
    Proof. reflexivity. Qed.

    Lemma loop_keys fuel : forall q m m', follow_loop fuel p deps q m = Val m' -> incl (keys m) (keys m').
    Proof.
      induction fuel as [|fuel IH]; intros q m m' H; destruct q as [|[lhs rhs] rest]; try discriminate.
      - injection H as <-. apply incl_refl.
      - injection H as <-. apply incl_refl.
      - rewrite loop_step in H. destruct (mget rhs m) as [fr|]; [|eauto]. apply IH in H.
        intros v Hv. apply H, in_mupdate_keys. auto.
    Qed.

    (** The variables with an entry after going through the queue once. *)
    Definition spread K q : list V := fold_left (fun K x => if memb (snd x) K then fst x :: K else K) q K.

    Lemma spread_incl q : forall K, incl K (spread K q).
    Proof.
      induction q as [|[a b] q IH]; intros K; [apply incl_refl|]. cbn [spread fold_left snd fst]. fold (spread (if memb b K then a :: K else K) q).
      eapply incl_tran; [|apply IH]. destruct (memb b K); [apply incl_tl|]; apply incl_refl.
    Qed.

    Lemma loop_spread q : forall fuel q' K m m', follow_loop fuel p deps (q ++ q') m = Val m' -> incl K (keys m) ->
      incl (spread K q) (keys m').
    Proof.
      induction q as [|[a b] q IH]; intros fuel q' K m m' H HK.
      - eapply incl_tran; [exact HK|]. eapply loop_keys; eauto.
      - destruct fuel as [|fuel]; [discriminate|]. cbn [app] in H. rewrite loop_step in H.
        cbn [spread fold_left snd fst]. fold (spread (if memb b K then a :: K else K) q).
        destruct (mget b m) as [fr|] eqn:E.
        + rewrite <- app_assoc in H. eapply IH; [exact H|]. intros v Hv. apply in_mupdate_keys.
          destruct (memb b K); [destruct Hv as [->|Hv]|]; auto.
        + eapply IH; [exact H|]. destruct (memb b K) eqn:Em; [|exact HK].
          apply memb_in in Em. apply HK in Em. apply mget_none in E. contradiction.
    Qed.

    Lemma spread_app q q' K : spread K (q ++ q') = spread (spread K q) q'.
    Proof. apply fold_left_app. Qed.

    Lemma spread_pairs b l K : In b K -> incl l (spread K (pairs_of (b, l))).
    Proof.
      unfold pairs_of. cbn [fst snd]. revert K. induction l as [|a l IH]; intros K Hb; [intros v []|].
      cbn [map spread fold_left snd fst]. fold (spread (if memb b K then a :: K else K) (map (fun lhs => (lhs, b)) l)).
      assert (memb b K = true) as -> by (apply memb_in; exact Hb). intros v [->|Hv].
      - apply spread_incl. left; reflexivity.
      - apply IH; [right; exact Hb|exact Hv].
    Qed.

    Lemma spread_none q K : (forall a b, In (a, b) q -> ~ In b K) -> spread K q = K.
    Proof.
      induction q as [|[a b] q IH]; intros H; [reflexivity|]. cbn [spread fold_left snd fst].
      assert (memb b K = false) as -> by (apply memb_not_in, (H a); left; reflexivity). apply IH. intros a' b' Hi. apply (H a'). right; exact Hi.
    Qed.

    (** Take an entry that is ready as long as there is one. *)
    Lemma greedy n : forall rem K, length rem = n -> exists ds, Permutation ds rem /\
      forall b l, In (b, l) rem -> In b (spread K (queue_of ds)) -> incl l (spread K (queue_of ds)).
    Proof.
      induction n as [|n IH]; intros rem K Hn.
      { destruct rem; [|discriminate]. exists []. split; [constructor|]. intros b l []. }
      destruct (find (fun e => memb (fst e) K) rem) as [[b l]|] eqn:E.
      - apply find_some in E. destruct E as [Hi Hb]. cbn [fst] in Hb. apply memb_in in Hb.
        apply in_split in Hi. destruct Hi as (r1 & r2 & ->).
        destruct (IH (r1 ++ r2) (spread K (pairs_of (b, l)))) as (ds & Hp & Hc).
        { rewrite app_length in *. cbn in Hn. lia. }
        exists ((b, l) :: ds). split; [rewrite <- Permutation_middle; constructor; exact Hp|].
        cbn [queue_of flat_map]. fold (queue_of ds). rewrite spread_app. intros b' l' Hi Hb'.
        apply in_app_iff in Hi. destruct Hi as [Hi|[[= <- <-]|Hi]].
        + apply (Hc b'); [apply in_app_iff; auto|exact Hb'].
        + eapply incl_tran; [apply (spread_pairs b l K Hb)|]. apply spread_incl.
        + apply (Hc b'); [apply in_app_iff; auto|exact Hb'].
      - exists rem. split; [apply Permutation_refl|].
        assert (Hs : spread K (queue_of rem) = K).
        { apply spread_none. intros a b Hab. apply in_queue_of in Hab. destruct Hab as (l & Hi & _).
          pose proof (find_none _ _ E _ Hi) as H. cbn [fst] in H. apply memb_not_in. exact H. }
        rewrite Hs. intros b l Hi Hb. pose proof (find_none _ _ E _ Hi) as H. cbn [fst] in H. apply memb_not_in in H. contradiction.
    Qed.

    (** Nothing happens as long as the sets that are handed on do not exist. *)
    Lemma loop_skip q : forall fuel q' m m', (forall a b, In (a, b) q -> ~ In b (keys m)) ->
      follow_loop fuel p deps (q ++ q') m = Val m' -> exists fuel', follow_loop fuel' p deps q' m = Val m'.
    Proof.
      induction q as [|[a b] q IH]; intros fuel q' m m' Hq H; [eauto|]. destruct fuel as [|fuel]; [discriminate|].
      cbn [app] in H. rewrite loop_step in H. assert (mget b m = None) as E by (apply mget_none, (Hq a); left; reflexivity).
      rewrite E in H. eapply IH; [|exact H]. intros a' b' Hi. apply (Hq a'). right; exact Hi.
    Qed.
  End Loop.

  Variable g : grammar V T.
  Hypothesis Hb : built g.
  Let Hgood : good g := built_good g Hb.

  Definition direct v : Prop := exists h l r, rule g h (l ++ Var v :: r) /\ r <> [].

  Section Few.
    Context {ho : HashOrder}.
    Variable p : list nat.
    Variable deps : list (V * list V).
    Hypothesis Hdeps : forall h v, dep deps h v <-> exists l r, rule g h (l ++ Var v :: r) /\ nullb g r.

    Lemma loop_few fuel : forall q m m',
      (forall a b, In (a, b) q -> dep deps b a /\ (direct b \/ exists t, followb g b t)) ->
      (forall v, In v (keys m) -> entry_sure g v) -> (forall v x, elem m v x -> exists t, x = Ter t /\ followb g v t) ->
      follow_loop fuel p deps q m = Val m' -> forall v, In v (keys m') -> entry_sure g v.
    Proof.
      induction fuel as [|fuel IH]; intros q m m' Hq Hk He H; destruct q as [|[a b] rest]; try discriminate; try (injection H as <-; exact Hk).
      rewrite loop_step in H. destruct (mget b m) as [fr|] eqn:Er.
      2: { eapply IH; [| | |exact H]; auto. intros a' b' Hi. apply Hq. right; exact Hi. }
      assert (He1 : forall v x, elem (mupdate a [] (set_extend fr) m) v x -> exists t, x = Ter t /\ followb g v t).
      { intros v x Hx. apply elem_extend in Hx. destruct Hx as [Hx|[-> Hx]]; [auto|].
        destruct (He b x) as (t & -> & Ht); [exists fr; auto|]. exists t. split; [reflexivity|].
        destruct (Hq a b) as [Hd _]; [left; reflexivity|]. apply Hdeps in Hd. destruct Hd as (l & r & Hr & Hn). eapply follow_up; eauto. }
      eapply IH; [| |exact He1|exact H].
      - intros a' b' Hi. apply in_app_iff in Hi. destruct Hi as [Hi|Hi]; [apply Hq; right; exact Hi|].
        unfold more in Hi. cbv zeta in Hi. destruct (Nat.eqb _ _) eqn:El; [destruct Hi|]. apply Nat.eqb_neq in El.
        destruct (mget a deps) as [ds|] eqn:Ed; [|destruct Hi]. apply in_map_iff in Hi. destruct Hi as (d & [= <- <-] & Hi).
        apply in_hash_at in Hi. split; [exists ds; auto|]. right.
        destruct (set_extend fr match mget a m with Some l => l | None => [] end) as [|x l] eqn:En.
        + pose proof (set_extend_length fr match mget a m with Some l => l | None => [] end) as Hl. rewrite En in Hl. cbn in Hl, El. lia.
        + destruct (He1 a x) as (t & -> & Ht); [|eauto]. unfold elem. rewrite mget_mupdate, eqb_refl.
          eexists. split; [reflexivity|]. rewrite En. left; reflexivity.
      - intros v Hv. apply in_mupdate_keys in Hv. destruct Hv as [->|Hv]; [|auto].
        destruct (Hq a b) as [Hd Hor]; [left; reflexivity|]. apply Hdeps in Hd. destruct Hd as (l & r & Hr & Hn).
        destruct r as [|s r]; [|left; exists b, l, (s :: r); split; [exact Hr|discriminate]].
        destruct Hor as [(h & l' & r' & Hr' & Hne)|(t & Ht)].
        + right. right. exists b, l, h, l', r'. auto.
        + right. left. exists t. apply follow_steps. eapply follow_up; eauto.
    Qed.
  End Few.

  (** The first phase, and the second one with any queue that holds all dependencies. *)
  Lemma phases (ho : HashOrder) p : exists n st, (forall fuel, n <= fuel ->
      follow_rules fuel (2 :: p) g (enumerate (iter_rules p g)) {| w_result := []; w_deps := [] |} = Val st) /\
    (forall h v, dep (w_deps st) h v <-> exists l r, rule g h (l ++ Var v :: r) /\ nullb g r) /\ deps_ok (w_deps st) /\
    (forall v, In v (keys (w_result st)) <-> direct v) /\
    (forall v x, elem (w_result st) v x -> exists t, x = Ter t /\ followb g v t) /\
    forall q, (forall a b, In (a, b) q <-> dep (w_deps st) b a) ->
      exists n' fs, forall fuel, n' <= fuel -> follow_loop fuel p (w_deps st) q (w_result st) = Val fs.
  Proof.
    destruct (follow_rules_spec g Hgood (enumerate (iter_rules p g)) (2 :: p)
                {| w_result := []; w_deps := [] |}) as (n1 & st & E1 & Hc).
    { intros h b x H Hx. rewrite map_snd_enumerate in H. apply in_iter_rules in H.
      eapply (good_closed g Hgood); eauto. }
    assert (Hocc : forall h v r, (exists b, In (h, b) (map snd (enumerate (iter_rules p g))) /\ occurs h b h v r) <->
                     exists l, rule g h (l ++ Var v :: r)).
    { intros h v r. rewrite map_snd_enumerate. split.
      - intros (b & H1 & (_ & l & ->)). exists l. apply in_iter_rules in H1. auto.
      - intros (l & H). exists (l ++ Var v :: r). split; [apply in_iter_rules; auto|]. split; eauto. }
    eapply contributes_ext in Hc; [|exact Hocc]. clear Hocc.
    destruct Hc as [Hel Hk Hdep Hsets Hdok].
    assert (Hd : forall h v, dep (w_deps st) h v <-> exists l r, rule g h (l ++ Var v :: r) /\ nullb g r).
    { intros h v. rewrite Hdep. cbn. split.
      - intros [(l & H & _)|(r & (l & H) & H')]; [discriminate|eauto].
      - intros (l & r & H & H'). right. eauto. }
    assert (Hs : forall v x, elem (w_result st) v x -> exists t, x = Ter t /\ followb g v t).
    { intros v x H. apply Hel in H. destruct H as [(l & H & _)|(h & r & t & (l & H1) & H2 & H3)]; [discriminate|].
      exists t. split; auto. eapply follow_direct; eauto. }
    exists n1, st. split; [exact E1|]. split; [exact Hd|]. split; [apply Hdok; constructor|]. split.
    { intros v. rewrite Hk. unfold direct. split; [intros [[]|(h & r & (l & H1) & H2)]; eauto 6|intros (h & l & r & H1 & H2); right; eauto]. }
    split; [exact Hs|]. intros q Hq.
    assert (Hi : linv g (w_deps st) (w_result st) q (w_result st)).
    { split; auto.
      - apply Hsets. split; [constructor|intros v l []].
      - intros v H. apply Hk in H. destruct H as [[]|(h & r & (l & H1) & H2)]. eapply fkey_direct; eauto.
      - intros lhs rhs H. apply Hq. exact H.
      - intros lhs rhs H _. left. apply Hq. exact H.
      - intros lhs rhs H. left. apply Hq. exact H. }
    destruct (follow_loop_spec g Hgood p (w_deps st) Hd (w_result st) _ _ _ _ Hi (le_n _) (le_n _)) as (n2 & fs & E2 & _).
    exists n2, fs. exact E2.
  Qed.

  Lemma entry_fkey v : entry_possible g v -> fkey g v.
  Proof. induction 1; [eapply fkey_direct; eauto|eapply fkey_up; eauto; apply null_steps; auto]. Qed.

  Lemma with_queue p n st q fs : (forall fuel, n <= fuel ->
      follow_rules (ho := id_order) fuel (2 :: p) g (enumerate (iter_rules (ho := id_order) p g)) {| w_result := []; w_deps := [] |} = Val st) ->
    (exists ds, Permutation ds (w_deps st) /\ q = queue_of ds) ->
    (exists n', forall fuel, n' <= fuel -> follow_loop (ho := id_order) fuel p (w_deps st) q (w_result st) = Val fs) ->
    exists ho fuel, @follow_set V T _ _ ho fuel p g = Val fs.
  Proof.
    intros E1 (ds & Hp & ->) (n' & E2).
    assert (H : outcome (o_follow_set (n + n') p g) (Val fs)).
    { unfold o_follow_set. eapply outcome_bind.
      { pose proof (run_outcome id_order (o_iter_rules p g)) as H. unfold o_iter_rules in *. rewrite run_bind, run_ask in H. cbn [bind] in H.
        rewrite run_each in H. exact H. }
      eapply outcome_bind.
      { match goal with |- outcome ?c _ => pose proof (run_outcome id_order c) as H end. rewrite run_follow_rules in H.
        unfold iter_rules in E1. rewrite E1 in H by lia. exact H. }
      eapply outcome_bind; [apply outcome_deps; exact Hp|].
      match goal with |- outcome ?c _ => pose proof (run_outcome id_order c) as H end. rewrite run_follow_loop, E2 in H by lia. exact H. }
    apply follow_outcomes in H. destruct H as (ho & H). exists ho, (n + n'). exact H.
  Qed.

  Lemma most p : exists ho fuel fs, @follow_set V T _ _ ho fuel p g = Val fs /\ forall v, mget v fs <> None <-> entry_possible g v.
  Proof.
    destruct (phases id_order p) as (n & st & E1 & Hd & Hok & Hk & Hs & Hl).
    destruct (greedy (length (w_deps st)) (w_deps st) (keys (w_result st)) eq_refl) as (ds & Hp & Hc).
    destruct (Hl (queue_of ds)) as (n' & fs & E2); [intros a b; apply queue_dep; auto|].
    destruct (with_queue p n st (queue_of ds) fs E1) as (ho & fuel & E); [eauto|eauto|].
    exists ho, fuel, fs. split; [exact E|]. pose proof (follow_set_answer g Hb _ _ _ E) as Hf. intros v. split.
    - intros H. destruct (mget v fs) as [l|] eqn:El; [|congruence]. apply fkey_possible. eapply (ef_key _ _ Hf); eauto.
    - intros H. apply entry_fkey in H. rewrite mget_none.
      assert (Hin : In v (spread (keys (w_result st)) (queue_of ds))).
      { assert (Hup : forall h u, dep (w_deps st) h u -> In h (spread (keys (w_result st)) (queue_of ds)) -> In u (spread (keys (w_result st)) (queue_of ds))).
        { intros h u (l & E' & Hu) Hh. apply mget_in in E'. exact (Hc h l E' Hh u Hu). }
        induction H as [h l u r Hr Hne|h l u r Hr Hn H IH].
        - apply spread_incl, Hk. exists h, l, r. auto.
        - apply (Hup h); [apply Hd; eauto|exact IH]. }
      intros Hno. apply Hno. revert Hin. apply (loop_spread (ho := id_order) p (w_deps st) (queue_of ds) n' [] _ (w_result st) fs).
      + rewrite app_nil_r. apply E2. lia.
      + apply incl_refl.
  Qed.

  Lemma fewest p : exists ho fuel fs, @follow_set V T _ _ ho fuel p g = Val fs /\ forall v, mget v fs <> None <-> entry_sure g v.
  Proof.
    destruct (phases id_order p) as (n & st & E1 & Hd & Hok & Hk & Hs & Hl).
    set (late := fun e : V * list V => memb (fst e) (keys (w_result st))).
    set (ds1 := filter (fun e => negb (late e)) (w_deps st)). set (ds2 := filter late (w_deps st)).
    assert (Hp : Permutation (ds1 ++ ds2) (w_deps st)).
    { eapply Permutation_trans; [apply Permutation_app_comm|]. apply filter_halves. }
    destruct (Hl (queue_of (ds1 ++ ds2))) as (n' & fs & E2); [intros a b; apply queue_dep; auto|].
    destruct (with_queue p n st (queue_of (ds1 ++ ds2)) fs E1) as (ho & fuel & E); [eauto|eauto|].
    exists ho, fuel, fs. split; [exact E|]. pose proof (follow_set_answer g Hb _ _ _ E) as Hf. intros v. split.
    - intros H. assert (Hv : In v (keys fs)).
      { destruct (mget v fs) as [l|] eqn:El; [|congruence]. eapply mget_some_key; eauto. }
      specialize (E2 n' (le_n _)). unfold queue_of in E2. rewrite flat_map_app in E2. fold (queue_of ds1) (queue_of ds2) in E2.
      apply loop_skip in E2.
      + destruct E2 as (fuel' & E2). revert v H Hv.
        cut (forall v, In v (keys fs) -> entry_sure g v); [auto|].
        eapply (loop_few (ho := id_order) p (w_deps st) Hd fuel' (queue_of ds2) (w_result st) fs); [| |exact Hs|exact E2].
        * intros a b Hi. apply in_queue_of in Hi. destruct Hi as (l & Hi & Ha). apply filter_In in Hi. destruct Hi as [Hi Hm].
          unfold late in Hm. cbn [fst] in Hm. apply memb_in, Hk in Hm. split; [|left; exact Hm].
          exists l. split; [apply in_deps; auto|exact Ha].
        * intros v Hv. apply Hk in Hv. left. exact Hv.
      + intros a b Hi. apply in_queue_of in Hi. destruct Hi as (l & Hi & Ha). apply filter_In in Hi. destruct Hi as [Hi Hm].
        unfold late in Hm. cbn [fst] in Hm. apply memb_not_in. apply Bool.negb_true_iff. exact Hm.
    - intros [(h & l & r & H1 & H2)|[(t & H)|(h & l & h' & l' & r' & H1 & H2 & H3)]].
      + eapply (ef_direct _ _ Hf); eauto.
      + apply follow_steps in H. destruct (ef_complete _ _ Hf _ _ H) as (l & E' & _). congruence.
      + eapply (ef_next _ _ Hf); eauto.
  Qed.

  Lemma always (ho : HashOrder) fuel p fs : follow_set fuel p g = Val fs ->
    forall v, (entry_sure g v -> mget v fs <> None) /\ (mget v fs <> None -> entry_possible g v).
  Proof.
    intros E v. pose proof (follow_set_answer g Hb _ _ _ E) as Hf. split.
    - intros [(h & l & r & H1 & H2)|[(t & H)|(h & l & h' & l' & r' & H1 & H2 & H3)]].
      + eapply (ef_direct _ _ Hf); eauto.
      + apply follow_steps in H. destruct (ef_complete _ _ Hf _ _ H) as (l & E' & _). congruence.
      + eapply (ef_next _ _ Hf); eauto.
    - intros H. destruct (mget v fs) as [l|] eqn:El; [|congruence]. apply fkey_possible. eapply (ef_key _ _ Hf); eauto.
  Qed.

  (** ** The parser *)

  Variable teq : T -> T -> bool.
  Hypothesis Hteq : lawful teq.

  (** With a given FOLLOW map. *)
  Lemma new_with (ho : HashOrder) fuel p fs : follow_set fuel (0 :: 1 :: p) g = Val fs -> exists n r,
    (forall fuel', n <= fuel' -> slr_new teq fuel' p g = r) /\
    ((r = Panic /\ clash g teq (has_entry g fs)) \/
     exists tb c, r = Val tb /\ ~ clash g teq (has_entry g fs) /\ cfsm_ok g c /\ exact_follow g fs /\ table_ok teq g c fs tb).
  Proof.
    intros E2. destruct (from_grammar_ok g Hgood (0 :: p)) as (n1 & c & E1 & Hc).
    pose proof (follow_set_answer g Hb _ _ _ E2) as Hf.
    assert (E2' : forall n, fuel <= n -> follow_set n (0 :: 1 :: p) g = Val fs).
    { intros n Hn. replace n with (fuel + (n - fuel)) by lia. apply follow_set_more. exact E2. }
    destruct (new_slr_spec teq Hteq g c fuel (1 :: p) fs Hc E2 Hf) as (o & E3 & H).
    assert (E4 : forall n, fuel <= n -> new_slr teq n (1 :: p) c = Val o).
    { intros n Hn. rewrite <- E3. unfold new_slr. rewrite (ok_grammar _ _ Hc), (E2' n Hn), E2. reflexivity. }
    exists (Nat.max n1 fuel), (of_option o). split.
    - intros n Hn. unfold slr_new. rewrite E1 by lia. cbn [bind]. rewrite E4 by lia. reflexivity.
    - destruct o as [tb|].
      + right. exists tb, c. split; auto. split; [|auto]. exact (no_clash teq Hteq g c Hc fs Hf tb H).
      + left. split; auto. destruct H as (st & Hin & Hd). eapply not_distinct_clash; eauto.
  Qed.

  Lemma new_entry (ho : HashOrder) fuel p tb : slr_new teq fuel p g = Val tb ->
    exists c fs, follow_set fuel (0 :: 1 :: p) g = Val fs /\ cfsm_ok g c /\ exact_follow g fs /\ table_ok teq g c fs tb.
  Proof.
    intros H. unfold slr_new in H. apply bind_val in H. destruct H as (c & E1 & H). apply bind_val in H.
    destruct H as (o & E2 & H). destruct o as [tb'|]; [|discriminate]. injection H as ->.
    pose proof (from_grammar_answer g Hb _ _ _ E1) as Hc.
    pose proof E2 as E3. unfold new_slr in E3. apply bind_val in E3. destruct E3 as (fs & E3 & _). rewrite (ok_grammar _ _ Hc) in E3.
    pose proof (follow_set_answer g Hb _ _ _ E3) as Hf.
    destruct (new_slr_spec teq Hteq g c fuel (1 :: p) fs Hc E3 Hf) as (o & E4 & H0). rewrite E2 in E4. injection E4 as <-.
    exists c, fs. auto.
  Qed.

  Lemma some_order :
    ((exists (ho : HashOrder) p n, forall fuel, n <= fuel -> slr_new teq fuel p g = Panic) <-> clash g teq (entry_possible g (g_start g))) /\
    ((exists (ho : HashOrder) p n tb, forall fuel, n <= fuel -> slr_new teq fuel p g = Val tb) <-> ~ clash g teq (entry_sure g (g_start g))).
  Proof.
    split; split.
    - intros (ho & p & n & E). destruct (slr_new_total teq Hteq g Hb p) as (n' & r & E' & [[-> Hc]|(tb & -> & _)]); [exact Hc|].
      specialize (E (n + n') ltac:(lia)). rewrite E' in E by lia. discriminate.
    - intros Hc. destruct (most [0; 1]) as (ho & fuel & fs & E & He). destruct (new_with ho fuel [] fs E) as (n & r & En & [[-> _]|(tb & c & -> & Hn & _)]).
      + exists ho, [], n. exact En.
      + exfalso. apply Hn. eapply clash_mono; [|exact Hc]. apply He.
    - intros (ho & p & n & tb & E). exact (new_no_clash teq Hteq g Hb n p tb (E n (le_n _))).
    - intros Hc. destruct (fewest [0; 1]) as (ho & fuel & fs & E & He). destruct (new_with ho fuel [] fs E) as (n & r & En & [[-> Hn]|(tb & c & -> & _)]).
      + exfalso. apply Hc. eapply clash_mono; [|exact Hn]. apply He.
      + exists ho, [], n, tb. exact En.
  Qed.

  Hypothesis Heps : epsilon_free g.

  Lemma some_tree ts x :
    (exists (ho : HashOrder) fuel p tb fuel', slr_new teq fuel p g = Val tb /\ parse teq fuel' tb ts = Val (Some (to_node x))) <->
    entry_possible g (g_start g) /\ ~ clash g teq (entry_possible g (g_start g)) /\ accepted teq g ts x.
  Proof.
    split.
    - intros (ho & fuel & p & tb & fuel' & E & Hp). destruct (new_entry ho _ _ _ E) as (c & fs & Ef & Hc & Hf & Ht).
      destruct (parse_accepted teq Hteq g Hgood Heps c Hc fs Hf tb Ht _ _ _ Hp) as (He & x' & Ha & Ex).
      split; [eapply has_entry_possible; eauto|]. split.
      + intros Hcl. apply (no_clash teq Hteq g c Hc fs Hf tb Ht). eapply clash_mono; [|exact Hcl]. auto.
      + assert (Hnode : forall y y' : tree V T, to_node y = to_node y' -> y = y').
        { clear. induction y as [t|v cs IH] using tree_ind2; intros [t'|v' cs'] E; cbn in E.
          + injection E as ->. reflexivity.
          + discriminate.
          + discriminate.
          + injection E as -> E. f_equal. apply (f_equal (@rev _)) in E. rewrite !rev_involutive in E.
            revert cs' E. induction IH as [|x cs Hx Hcs IH']; intros [|x' cs'] E; cbn in E; try discriminate; auto.
            injection E as E1 E2. f_equal; auto. }
        apply Hnode in Ex. subst x'. exact Ha.
    - intros (Hpos & Hcl & Ha). destruct (most [0; 1]) as (ho & fuel & fs & E & He).
      destruct (new_with ho fuel [] fs E) as (n & r & En & [[-> Hn]|(tb & c & -> & Hn & Hc & Hf & Ht)]).
      + exfalso. apply Hcl. eapply clash_mono; [|exact Hn]. apply He.
      + assert (Hn' : exists n', forall fuel', n' <= fuel' -> parse teq fuel' tb ts = Val (Some (to_node x))) by (eapply accepted_parse; eauto; apply He; exact Hpos).
        destruct Hn' as (n' & Hn').
        exists ho, n, [], tb, n'. split; [apply En|apply Hn']; lia.
  Qed.

  Lemma some_none ts x : accepted teq g ts x ->
    (exists (ho : HashOrder) fuel p tb, slr_new teq fuel p g = Val tb /\ forall fuel' n, parse teq fuel' tb ts <> Val (Some n)) <->
    ~ entry_sure g (g_start g) /\ ~ clash g teq (entry_sure g (g_start g)).
  Proof.
    intros Ha. split.
    - intros (ho & fuel & p & tb & E & Hp). split; [|exact (new_no_clash teq Hteq g Hb fuel p tb E)].
      intros He. destruct (proj1 (parse_exact teq Hteq g Hb fuel p tb ts x Heps E He) Ha) as (n & Hn). exact (Hp n _ (Hn n (le_n _))).
    - intros [Hno Hcl]. destruct (fewest [0; 1]) as (ho & fuel & fs & E & He).
      destruct (new_with ho fuel [] fs E) as (n & r & En & [[-> Hn]|(tb & c & -> & Hn & Hc & Hf & Ht)]).
      + exfalso. apply Hcl. eapply clash_mono; [|exact Hn]. apply He.
      + exists ho, n, [], tb. split; [apply En; lia|]. intros fuel' m Hp.
        destruct (parse_accepted teq Hteq g Hgood Heps c Hc fs Hf tb Ht _ _ _ Hp) as (Hh & _). apply Hno, He, Hh.
  Qed.
End Entries.
