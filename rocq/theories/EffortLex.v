(** The same for the calls of a lexer. *)
From Verif Require Import Base RegexModel SpecRegex NfaModel SpecNfa SpecExtent NfaCompileProofs NfaLangProofs NfaSimProofs NfaMachineProofs NfaTermProofs NfaProofs NfaWitness
  LexerModel SpecLexer LexerProofs LexerCallsProofs LexerWitness CountModel CountProofs NfaCountProofs CounterProofs SpecOnce OnceProofs OnceWork ExtentProofs GrowthProofs TurnProofs EffortModel EffortProofs.
From Verif Require HangProofs.

Definition stride (m : nfa) : nat := 3 * span m + 3 * nstates m + 3.

Section Lexer.
  Context {env : Env} {ho : HashOrder} {K : Type}.
  Variables (m : nfa) (k0 : nat) (l0 : list expr).
  Hypothesis Hm : machine m k0 l0.
  Notation fair := (fair m k0 l0).
  Notation n := (nstates m).

  Lemma lex_effort B N fuel : (forall u l, length u <= N -> sim_text fuel m u = Val l -> length l <= B) ->
    forall steps (lx : lexer K) i rs kind x r k, lx_nfa lx = m -> (forall q, In q rs -> fair q) -> sim_text fuel m x = Val rs -> 1 <= B -> length x + steps <= N ->
    effort_lex fuel steps lx i rs kind = Val (r, k) ->
    exists c, count_loop fuel steps lx i rs kind = Val (r, c) /\ k <= stride m * (B * c) + n * B.
  Proof.
    intros HB. induction steps as [|steps IH]; intros lx i rs kind x r k Hn Hr Hx H1 HN; cbn [effort_lex count_loop]; destruct (iter_next i) as [[ch|] i1]; try discriminate; rewrite Hn.
    1,3: rewrite <- forget_accepting; destruct (effort_accepting m rs) as [[[|] k1]| |] eqn:E; try discriminate; cbn [bind forget]; intros [= <- <-];
      exists 0; (split; [reflexivity|]); apply accepting_effort in E; pose proof (HB x rs ltac:(lia) Hx); nia.
    rewrite <- forget_can. destruct (effort_can_feed m rs ch) as [[[|] k1]| |] eqn:E1; try discriminate; cbn [bind forget negb].
    2:{ intros [= <- <-]. exists 1. split; [reflexivity|]. apply (can_effort m k0 l0) in E1. pose proof (HB x rs ltac:(lia) Hx). unfold stride. nia. }
    rewrite <- forget_feed. destruct (effort_feed fuel m rs ch) as [[[l a] k2]| |] eqn:E2; try discriminate. cbn [bind forget fst snd].
    assert (Hx' : sim_text fuel m (x ++ [ch]) = Val l).
    { pose proof (forget_val _ _ _ E2) as Ef. rewrite forget_feed in Ef. exact (sim_text_snoc m fuel ch _ rs l a Hx Ef). }
    pose proof (HB x rs ltac:(lia) Hx) as Hb1. assert (Hl' : length (x ++ [ch]) + steps <= N) by (rewrite app_length; cbn [length]; lia).
    pose proof (HB (x ++ [ch]) l ltac:(lia) Hx') as Hb2.
    apply (can_effort m k0 l0) in E1. pose proof (feed_effort m k0 l0 Hm _ _ _ _ _ _ Hr E2) as Hf. pose proof (feed_fair m k0 l0 Hm _ _ _ _ _ _ Hr E2) as Hr'.
    assert (Hc : k1 + k2 + (n + length l) <= stride m * B).
    { assert (span m * length rs <= span m * B) by (apply Nat.mul_le_mono_l; exact Hb1).
      assert ((span m + 2 * n + 2) * length l <= (span m + 2 * n + 2) * B) by (apply Nat.mul_le_mono_l; exact Hb2).
      assert (n * 1 <= n * B) by (apply Nat.mul_le_mono_l; exact H1). unfold stride. lia. }
    destruct a.
    - destruct (hd_error (sim_final_states m l)) as [f|]; [|discriminate]. cbn [of_option bind].
      destruct (find_token f (lx_tokens lx)) as [g|]; [|discriminate]. cbn [of_option bind].
      destruct (effort_lex fuel steps lx (accept_suffix i1) l _) as [[r' k3]| |] eqn:E3; try discriminate. cbn [bind]. intros [= <- <-].
      destruct (IH _ _ _ _ _ _ _ Hn Hr' Hx' H1 Hl' E3) as (c & -> & Hk). exists (S c). split; [reflexivity|]. change (length (nfa_states m)) with n. lia.
    - destruct (effort_lex fuel steps lx i1 l kind) as [[r' k3]| |] eqn:E3; try discriminate. cbn [bind]. intros [= <- <-].
      destruct (IH _ _ _ _ _ _ _ Hn Hr' Hx' H1 Hl' E3) as (c & -> & Hk). exists (S c). split; [reflexivity|]. lia.
  Qed.

  Lemma next_effort B N fuel (lx : lexer K) r k : (forall u l, length u <= N -> sim_text fuel m u = Val l -> length l <= B) -> 1 <= B -> lx_nfa lx = m ->
    iter_left (lx_iter lx) <= N -> effort_next fuel lx = Val (r, k) ->
    exists c, count_next fuel lx = Val (r, c) /\ k <= stride m * (B * S c).
  Proof.
    intros HB H1 Hn HN. unfold effort_next, count_next. rewrite Hn, <- forget_new. destruct (effort_new fuel m) as [[rs k1]| |] eqn:E1; try discriminate. cbn [bind forget].
    destruct (effort_lex fuel _ lx _ rs None) as [[r' k2]| |] eqn:E2; try discriminate. cbn [bind]. intros [= <- <-].
    assert (Hx : sim_text fuel m [] = Val rs) by (unfold sim_text; rewrite <- forget_new, E1; reflexivity).
    destruct (lex_effort B N fuel HB _ _ _ _ _ [] _ _ Hn (new_fair m k0 l0 Hm _ _ _ E1) Hx H1 HN E2) as (c & -> & Hk).
    exists c. split; [reflexivity|]. apply new_effort in E1. pose proof (HB [] rs (Nat.le_0_l _) Hx) as Hb.
    assert ((span m + 1) * length rs <= (span m + 1) * B) by (apply Nat.mul_le_mono_l; exact Hb). unfold stride in *. lia.
  Qed.
End Lexer.

Section Calls.
  Context {env : Env} {K : Type}.
  Variables (m : nfa) (es : list expr) (gs : list (generator K)).
  Hypothesis Hm : machine m 2 es.
  Hypothesis Ht : targets_ok m.
  Hypothesis Hl : length gs = length es.

  Lemma calls_effort (ho : HashOrder) B N fuel : (forall u l, length u <= N -> sim_text fuel m u = Val l -> length l <= B) -> 1 <= B ->
    forall n (lx : lexer K) os lx' k, ours m es gs lx -> weight lx <= N -> effort_calls fuel n lx = Val (os, lx', k) ->
    exists ks, count_calls fuel n lx = Val (os, lx', ks) /\ k <= stride m * (B * (list_sum ks + n)).
  Proof.
    intros HB H1. induction n as [|n IH]; intros lx os lx' k Ho HN; cbn [effort_calls count_calls].
    - intros [= <- <- <-]. exists []. split; [reflexivity|lia].
    - destruct (effort_next fuel lx) as [[[o l] k1]| |] eqn:E1; try discriminate. cbn [bind fst snd].
      destruct (effort_calls fuel n l) as [[[os' l'] k2]| |] eqn:E2; try discriminate. cbn [bind fst snd]. intros [= <- <- <-].
      assert (Hx : lex_next fuel lx = Val (o, l)) by (rewrite <- forget_next, E1; reflexivity).
      pose proof (next_val m es gs Hm Ht Hl _ _ _ _ Ho Hx) as Hr. destruct (result_weight m es gs Hm Hl _ _ _ Hr) as [Hw _].
      destruct (next_effort m 2 es Hm B N fuel lx _ _ HB H1 (proj1 Ho) ltac:(unfold weight in HN; lia) E1) as (c & -> & Hc).
      cbn [bind fst snd]. destruct (IH l os' l' k2 (result_ours m es gs _ _ _ Hr Ho) ltac:(lia) E2) as (ks & -> & Hk).
      cbn [bind fst snd]. exists (c :: ks). split; [reflexivity|]. change (list_sum (c :: ks)) with (c + list_sum ks). lia.
  Qed.
End Calls.

(** ** Built automata *)
Definition growth (m : nfa) : nat := S (arrows m * (nstates m * 5 ^ nstates m)).

Lemma growth_le m j k : j <= k -> (arrows m * (nstates m * 5 ^ nstates m)) ^ j <= growth m ^ k.
Proof.
  intros H. etransitivity; [apply Nat.pow_le_mono_l with (b := growth m); unfold growth; lia|]. apply Nat.pow_le_mono_r; [unfold growth; lia|exact H].
Qed.

Lemma machine_nonempty {env : Env} m k l : machine m k l -> 1 <= nstates m.
Proof.
  intros Hm. destruct (proj1 (proj2 (machine_wf _ _ _ Hm))) as (st & Hs). apply EffortProofs.state_in in Hs. unfold nstates. destruct (nfa_states m); [destruct Hs|cbn; lia].
Qed.

Section Same.
  Context {env : Env} {ho : HashOrder}.
  Lemma same_any {A} (x : res (A * nat)) y : forget x = y -> (forall a, y = Val a <-> exists k, x = Val (a, k)) /\ (y = Panic <-> x = Panic) /\ (y = Diverge <-> x = Diverge).
  Proof.
    intros <-. split; [intros a; split; [apply forget_back|intros (k & ->); reflexivity]|]. destruct x as [[a k]| |]; cbn; split; split; congruence.
  Qed.
  Lemma same_simulate fuel m w :
    (forall b, simulate fuel m w = Val b <-> exists k, effort_simulate fuel m w = Val (b, k)) /\
    (simulate fuel m w = Panic <-> effort_simulate fuel m w = Panic) /\
    (simulate fuel m w = Diverge <-> effort_simulate fuel m w = Diverge).
  Proof. exact (same_any _ _ (forget_simulate fuel m w)). Qed.
  Lemma same_calls {K : Type} fuel n (lx : lexer K) :
    (forall os lx', lex_calls fuel n lx = Val (os, lx') <-> exists k, effort_calls fuel n lx = Val (os, lx', k)) /\
    (lex_calls fuel n lx = Panic <-> effort_calls fuel n lx = Panic) /\
    (lex_calls fuel n lx = Diverge <-> effort_calls fuel n lx = Diverge).
  Proof.
    destruct (same_any _ _ (forget_calls fuel n lx)) as (H1 & H2 & H3). split; [|split; assumption]. intros os lx'. exact (H1 (os, lx')).
  Qed.
End Same.

Section Built.
  Context {env : Env}.

  Lemma from_effort_runs {ho : HashOrder} e m B fuel w b k : nfa_from e = Val m ->
    (forall u v rs, w = u ++ v -> sim_text fuel m u = Val rs -> length rs <= B) ->
    effort_simulate fuel m w = Val (b, k) -> k <= pace m * (B * S (length w)).
  Proof. intros Hf. exact (simulate_effort m 1 [e] (proj2 (nfa_from_ok _ _ Hf)) B fuel w b k). Qed.

  Lemma from_effort e m (ho : HashOrder) fuel w b k : nfa_from e = Val m -> effort_simulate fuel m w = Val (b, k) ->
    k <= pace m * (nstates m * growth m ^ length w * S (length w)).
  Proof.
    intros Hf H. apply (simulate_effort m 1 [e] (proj2 (nfa_from_ok _ _ Hf)) (nstates m * growth m ^ length w)) in H; [exact H|].
    intros u v l E Hl. pose proof (from_growth e m ho fuel u l Hf Hl) as Hg. change (length (nfa_states m)) with (nstates m) in Hg.
    assert (Hp : length u <= length w) by (rewrite E, app_length; lia). pose proof (growth_le m _ _ Hp) as Hq.
    etransitivity; [exact Hg|]. apply Nat.mul_le_mono_l. exact Hq.
  Qed.

  Lemma from_effort_settled e : loops_ok e = true -> settled e [] ->
    exists A, forall (ho : HashOrder) m fuel w b k, nfa_from e = Val m -> effort_simulate fuel m w = Val (b, k) -> k <= A * S (length w).
  Proof.
    intros H1 H2. destruct (from_bounded e H1 H2) as (B & HB). destruct (nfa_from e) as [m0| |] eqn:Hf; [|exists 0; discriminate|exists 0; discriminate].
    exists (pace m0 * B). intros ho m fuel w b k [= <-] H. rewrite <- Nat.mul_assoc.
    apply (simulate_effort m0 1 [e] (proj2 (nfa_from_ok _ _ Hf)) B) in H; [exact H|]. intros u v l _ Hl. exact (HB ho m0 fuel u l eq_refl Hl).
  Qed.

  (** The number of runs is a lower bound. *)
  Section Least.
    Context {ho : HashOrder}.
    Lemma closures_least fuel m : forall rs l k, effort_closures fuel m rs = Val (l, k) -> length l <= k.
    Proof.
      induction rs as [|r rs IH]; intros l k; cbn [effort_closures]; [intros [= <- <-]; cbn; lia|]. unfold effort_closure.
      destruct (effort_loop fuel m [r] [r]) as [[l1 k1]| |]; try discriminate. cbn [bind].
      destruct (effort_closures fuel m rs) as [[l2 k2]| |]; try discriminate. cbn [bind]. intros [= <- <-]. specialize (IH _ _ eq_refl).
      rewrite app_length, hash_iter_length. lia.
    Qed.
    Lemma runs_least fuel m c : forall rs l k, effort_runs fuel m rs c = Val (l, k) -> length l <= k.
    Proof.
      induction rs as [|r rs IH]; intros l k; cbn [effort_runs]; [intros [= <- <-]; cbn; lia|].
      destruct (get_state m (r_state r)) as [s|]; [|discriminate]. cbn [of_option bind].
      destruct (effort_closures fuel m _) as [[l1 k1]| |] eqn:E1; try discriminate. cbn [bind]. apply closures_least in E1.
      destruct (effort_runs fuel m rs c) as [[l2 k2]| |]; try discriminate. cbn [bind]. intros [= <- <-]. specialize (IH _ _ eq_refl).
      rewrite app_length. lia.
    Qed.
    Lemma str_least fuel m w : forall x rs last y k l, sim_text fuel m x = Val rs -> effort_str fuel m rs last w = Val (y, k) ->
      sim_text fuel m (x ++ w) = Val l -> length l <= length rs + k.
    Proof.
      induction w as [|c w IH]; intros x rs last y k l Hx; cbn [effort_str].
      - rewrite app_nil_r, Hx. intros _ [= <-]. lia.
      - destruct (effort_feed fuel m rs c) as [[[l1 a] k1]| |] eqn:E1; try discriminate. cbn [bind fst snd].
        destruct (effort_str fuel m l1 (Some a) w) as [[y1 k2]| |] eqn:E2; try discriminate. cbn [bind]. intros [= <- <-].
        assert (Hx' : sim_text fuel m (x ++ [c]) = Val l1).
        { pose proof (forget_val _ _ _ E1) as Ef. rewrite forget_feed in Ef. exact (sim_text_snoc m fuel c _ rs l1 a Hx Ef). }
        intros Hl. replace (x ++ c :: w) with ((x ++ [c]) ++ w) in Hl by (rewrite <- app_assoc; reflexivity).
        pose proof (IH _ _ _ _ _ _ Hx' E2 Hl) as H. unfold effort_feed in E1.
        destruct (effort_runs fuel m rs c) as [[l2 k3]| |] eqn:E3; try discriminate. cbn [bind] in E1. apply runs_least in E3.
        destruct (effort_accepting m l2) as [[a' k4]| |]; try discriminate. cbn [bind] in E1. injection E1 as <- <- <-. lia.
    Qed.
    Lemma simulate_least fuel m w b k l : effort_simulate fuel m w = Val (b, k) -> sim_text fuel m w = Val l -> length l <= k.
    Proof.
      unfold effort_simulate. destruct (effort_new fuel m) as [[rs k1]| |] eqn:E1; try discriminate. cbn [bind].
      destruct (effort_str fuel m rs None w) as [[y k2]| |] eqn:E2; try discriminate. cbn [bind]. intros [= <- <-] Hl.
      assert (Hx : sim_text fuel m [] = Val rs) by (unfold sim_text; rewrite <- forget_new, E1; reflexivity).
      pose proof (str_least _ _ _ _ _ _ _ _ _ Hx E2 Hl) as H. unfold effort_new in E1.
      destruct (effort_static fuel m _ _) as [[l1 k3]| |]; try discriminate. cbn [bind] in E1. injection E1 as <- <-. rewrite map_length in H. lia.
    Qed.
  End Least.

  Lemma twice_effort (ho : HashOrder) fuel n b k : 3 <= fuel -> effort_simulate fuel NfaCountProofs.twice_nfa (repeat NfaCountProofs.ca n) = Val (b, k) -> 2 ^ n <= k.
  Proof.
    intros Hf H. destruct (proj2 (proj2 (proj2 twice_unsettled)) ho fuel n Hf) as (rs & Hrs & Hn). pose proof (simulate_least _ _ _ _ _ _ H Hrs). lia.
  Qed.

  Lemma twice_takes : nfa_from NfaCountProofs.twice_a = Val NfaCountProofs.twice_nfa /\
    forall (ho : HashOrder) fuel n, 3 <= fuel -> exists b k, effort_simulate fuel NfaCountProofs.twice_nfa (repeat NfaCountProofs.ca n) = Val (b, k) /\ 2 ^ n <= k.
  Proof.
    split; [exact NfaCountProofs.twice_from|]. intros ho fuel n Hf. destruct (proj2 (proj2 (proj2 twice_unsettled)) ho fuel n Hf) as (rs & Hrs & Hn).
    assert (Hs : exists b, simulate fuel NfaCountProofs.twice_nfa (repeat NfaCountProofs.ca n) = Val b).
    { pose proof (proj2 (machine_wf _ _ _ (proj2 (nfa_from_ok _ _ NfaCountProofs.twice_from)))) as Hwf. rewrite simulate_text, Hrs. cbn [bind].
      destruct (sim_accepting_spec NfaCountProofs.twice_nfa rs) as (b & -> & _); [|eauto]. eapply sim_text_spec; eassumption. }
    destruct Hs as (b & Hb). rewrite <- forget_simulate in Hb. destruct (forget_back _ _ Hb) as (k & Hk). exists b, k. split; [exact Hk|].
    exact (twice_effort ho fuel n b k Hf Hk).
  Qed.

  Context {K : Type}.

  Lemma built_effort (ts : list (list char * generator K)) input lx (ho : HashOrder) fuel n os lx' k : build_lexer ts input = Val (inl lx) ->
    effort_calls fuel n lx = Val (os, lx', k) ->
    k <= stride (lx_nfa lx) * (nstates (lx_nfa lx) * growth (lx_nfa lx) ^ length input * (length input * (length input + 1) + n)).
  Proof.
    intros Hb H. destruct (built_parsed _ _ _ Hb) as (es & Hp). destruct (build_state_es ts input lx es Hb Hp) as [_ Hm Ht Hl Ho Hi].
    set (m := lx_nfa lx) in *. set (B := nstates m * growth m ^ length input).
    assert (E : weight lx = length input) by (unfold weight, iter_left; rewrite Hi; cbn; lia).
    destruct (calls_effort m es (map snd ts) Hm Ht Hl ho B (length input) fuel) with (n := n) (lx := lx) (os := os) (lx' := lx') (k := k) as (ks & Hc & Hk); [| |exact Ho|lia|exact H|].
    - intros u l Hu Hl'. pose proof (lexer_growth K ts input lx ho fuel u l Hb Hl') as Hg. cbn zeta in Hg. change (length (nfa_states (lx_nfa lx))) with (nstates m) in Hg.
      etransitivity; [exact Hg|]. apply Nat.mul_le_mono_l. exact (growth_le m _ _ Hu).
    - unfold B. assert (1 <= nstates m) by (apply (machine_nonempty _ _ _ Hm)). assert (1 <= growth m ^ length input); [|nia].
      apply Nat.neq_0_lt_0, Nat.pow_nonzero. unfold growth. discriminate.
    - pose proof (built_quadratic ts input lx ho fuel n os lx' ks Hb Hc) as Hq. etransitivity; [exact Hk|]. apply Nat.mul_le_mono_l, Nat.mul_le_mono_l. lia.
  Qed.

  Lemma built_effort_settled (ts : list (list char * generator K)) es : parsed ts es -> (forall e, In e es -> loops_ok e = true /\ settled e []) ->
    exists A, forall input lx (ho : HashOrder) fuel n os lx' k, build_lexer ts input = Val (inl lx) -> effort_calls fuel n lx = Val (os, lx', k) ->
      k <= A * (length input * (length input + 1) + n) /\ (steady es -> k <= A * (2 * length input + n)).
  Proof.
    intros Hp Hs. destruct (lexer_bounded ts es Hp Hs) as (B & HB).
    destruct (build_lexer ts []) as [[lx0|errs]| |] eqn:Hb0.
    1:{ exists (stride (lx_nfa lx0) * S B). intros input lx ho fuel n os lx' k Hb H.
    destruct (HangProofs.other_input ts input lx [] Hb) as (lx1 & Hb1 & En). rewrite Hb0 in Hb1. injection Hb1 as <-. rewrite En.
    destruct (build_state_es ts input lx es Hb Hp) as [_ Hm Ht Hl Ho Hi].
    destruct (calls_effort (lx_nfa lx) es (map snd ts) Hm Ht Hl ho (S B) (weight lx) fuel) with (n := n) (lx := lx) (os := os) (lx' := lx') (k := k) as (ks & Hc & Hk); [| lia|exact Ho|lia|exact H|].
    { intros u l _ Hu. specialize (HB input lx ho fuel u l Hb Hu). lia. }
    rewrite <- !Nat.mul_assoc. split.
    - pose proof (built_quadratic ts input lx ho fuel n os lx' ks Hb Hc) as Hq. etransitivity; [exact Hk|]. apply Nat.mul_le_mono_l, Nat.mul_le_mono_l. lia.
    - intros Hst. pose proof (built_linear ts input lx es ho fuel n os lx' ks Hb Hp Hst Hc) as Hq. etransitivity; [exact Hk|]. apply Nat.mul_le_mono_l, Nat.mul_le_mono_l. lia. }
    all: exists 0; intros input lx ho fuel n os lx' k Hb; destruct (HangProofs.other_input ts input lx [] Hb) as (lx1 & Hb1 & _); congruence.
  Qed.
End Built.
