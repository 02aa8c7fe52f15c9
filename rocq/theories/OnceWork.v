(** The work of a lexer whose patterns are settled. *)
From Verif Require Import Base RegexModel SpecRegex NfaModel SpecNfa NfaCompileProofs NfaLangProofs NfaSimProofs
  NfaMachineProofs NfaTermProofs LexerModel NfaProofs NfaWitness DotProofs SpecLexer SpecMunch LexerProofs LexerWitness CountModel CountProofs
  SpecPlain PlainProofs RunsModel SpecOnce OnceProofs.
From Verif Require NfaCountProofs.

(** ** The numbers change nothing *)
Section Forget.
  Context {env : Env} {ho : HashOrder} {K : Type}.

  Lemma runs_loop_count fuel : forall steps (lx : lexer K) i runs kind,
    (let! (r, k) := runs_loop fuel steps lx i runs kind in Val (r, length k)) = count_loop fuel steps lx i runs kind.
  Proof.
    induction steps as [|steps IH]; intros lx i runs kind; cbn [runs_loop count_loop]; destruct (iter_next i) as [[ch|] i1]; try reflexivity.
    - destruct (sim_accepting (lx_nfa lx) runs) as [[|]| |]; reflexivity.
    - destruct (sim_can_feed (lx_nfa lx) runs ch) as [[|]| |]; try reflexivity. cbn [bind negb].
      destruct (sim_feed fuel (lx_nfa lx) runs ch) as [[runs' [|]]| |]; try reflexivity; cbn [bind].
      + destruct (hd_error (sim_final_states (lx_nfa lx) runs')) as [f|]; [|reflexivity]. cbn [of_option bind].
        destruct (find_token f (lx_tokens lx)) as [g|]; [|reflexivity]. cbn [of_option bind]. rewrite <- IH.
        destruct (runs_loop fuel steps lx (accept_suffix i1) runs' _) as [[r k]| |]; reflexivity.
      + rewrite <- IH. destruct (runs_loop fuel steps lx i1 runs' kind) as [[r k]| |]; reflexivity.
    - destruct (sim_accepting (lx_nfa lx) runs) as [[|]| |]; reflexivity.
  Qed.
  Lemma runs_next_count fuel (lx : lexer K) : (let! (r, k) := runs_next fuel lx in Val (r, length k)) = count_next fuel lx.
  Proof. unfold runs_next, count_next. destruct (sim_new fuel (lx_nfa lx)) as [runs| |]; try reflexivity. apply runs_loop_count. Qed.
  Lemma runs_calls_count fuel n : forall lx : lexer K,
    (let! (q, ks) := runs_calls fuel n lx in Val (q, map (@length nat) ks)) = count_calls fuel n lx.
  Proof.
    induction n as [|n IH]; intros lx; [reflexivity|]. cbn [runs_calls count_calls]. rewrite <- runs_next_count.
    destruct (runs_next fuel lx) as [[[o l] k]| |]; try reflexivity. cbn [bind snd fst]. rewrite <- IH.
    destruct (runs_calls fuel n l) as [[[os l'] ks]| |]; reflexivity.
  Qed.

  Lemma runs_same fuel n (lx : lexer K) os lx' ks :
    count_calls fuel n lx = Val (os, lx', ks) <-> exists rss, runs_calls fuel n lx = Val (os, lx', rss) /\ ks = map (@length nat) rss.
  Proof.
    rewrite <- runs_calls_count. destruct (runs_calls fuel n lx) as [[[os' l] rss]| |]; cbn [bind]; split.
    - intros [= <- <- <-]. eauto.
    - intros (rss' & [= <- <- <-] & ->). reflexivity.
    - discriminate.
    - intros (rss & H & _). discriminate.
    - discriminate.
    - intros (rss & H & _). discriminate.
  Qed.
End Forget.

(** ** The numbers *)
Section Numbers.
  Context {env : Env} {ho : HashOrder} {K : Type}.
  Variables (m : nfa) (fuel B : nat).
  Hypothesis HB : forall w rs, sim_text fuel m w = Val rs -> length rs <= B.

  Lemma loop_bounded : forall steps (lx : lexer K) i runs kind x r k, lx_nfa lx = m -> sim_text fuel m x = Val runs ->
    runs_loop fuel steps lx i runs kind = Val (r, k) -> Forall (fun j => j <= B) k.
  Proof.
    induction steps as [|steps IH]; intros lx i runs kind x r k Hn Hs; cbn [runs_loop]; destruct (iter_next i) as [[ch|] i1]; try discriminate; rewrite Hn.
    1,3: destruct (sim_accepting m runs) as [[|]| |]; try discriminate; intros [= <- <-]; constructor.
    destruct (sim_can_feed m runs ch) as [[|]| |]; try discriminate; cbn [bind negb].
    2:{ intros [= <- <-]. constructor; [eauto|constructor]. }
    destruct (sim_feed fuel m runs ch) as [[runs' b]| |] eqn:Ef; try discriminate. cbn [bind].
    pose proof (sim_text_snoc m fuel ch _ runs runs' b Hs Ef) as Hs'. destruct b.
    - destruct (hd_error (sim_final_states m runs')) as [f|]; [|discriminate]. cbn [of_option bind].
      destruct (find_token f (lx_tokens lx)) as [g|]; [|discriminate]. cbn [of_option bind].
      destruct (runs_loop fuel steps lx (accept_suffix i1) runs' _) as [[r' k']| |] eqn:E; try discriminate. intros [= <- <-].
      constructor; [eauto|]. exact (IH _ _ _ _ _ _ _ Hn Hs' E).
    - destruct (runs_loop fuel steps lx i1 runs' kind) as [[r' k']| |] eqn:E; try discriminate. intros [= <- <-].
      constructor; [eauto|]. exact (IH _ _ _ _ _ _ _ Hn Hs' E).
  Qed.

  Lemma loop_nfa : forall steps (lx : lexer K) i runs kind r k, runs_loop fuel steps lx i runs kind = Val (r, k) -> lx_nfa (snd r) = lx_nfa lx.
  Proof.
    assert (He : forall (lx : lexer K) i kind, lx_nfa (snd (emit lx i kind)) = lx_nfa lx)
      by (intros lx i [kd|]; [unfold emit; destruct (consume_token i)|]; reflexivity).
    induction steps as [|steps IH]; intros lx i runs kind r k; cbn [runs_loop]; destruct (iter_next i) as [[ch|] i1]; try discriminate.
    1,3: destruct (sim_accepting (lx_nfa lx) runs) as [[|]| |]; try discriminate; intros [= <- <-]; [apply He|reflexivity].
    destruct (sim_can_feed (lx_nfa lx) runs ch) as [[|]| |]; try discriminate; cbn [bind negb].
    2:{ intros [= <- <-]. apply He. }
    destruct (sim_feed fuel (lx_nfa lx) runs ch) as [[runs' b]| |] eqn:Ef; try discriminate. cbn [bind]. destruct b.
    - destruct (hd_error (sim_final_states (lx_nfa lx) runs')) as [f|]; [|discriminate]. cbn [of_option bind].
      destruct (find_token f (lx_tokens lx)) as [g|]; [|discriminate]. cbn [of_option bind].
      destruct (runs_loop fuel steps lx (accept_suffix i1) runs' _) as [[r' k']| |] eqn:E; try discriminate. intros [= <- <-]. exact (IH _ _ _ _ _ _ E).
    - destruct (runs_loop fuel steps lx i1 runs' kind) as [[r' k']| |] eqn:E; try discriminate. intros [= <- <-]. exact (IH _ _ _ _ _ _ E).
  Qed.

  Lemma calls_bounded n : forall (lx : lexer K) os lx' rss, lx_nfa lx = m -> runs_calls fuel n lx = Val (os, lx', rss) ->
    Forall (Forall (fun j => j <= B)) rss.
  Proof.
    induction n as [|n IH]; intros lx os lx' rss Hn; cbn [runs_calls]; [intros [= <- <- <-]; constructor|].
    unfold runs_next. rewrite Hn. destruct (sim_new fuel m) as [runs| |] eqn:E; try discriminate. cbn [bind].
    destruct (runs_loop fuel _ lx _ runs None) as [[r k]| |] eqn:El; try discriminate. cbn [bind].
    destruct (runs_calls fuel n (snd r)) as [[[os' l'] ks]| |] eqn:Ec; try discriminate. cbn [bind]. intros [= <- <- <-].
    constructor.
    - eapply (loop_bounded _ lx _ runs None [] r k Hn); [|exact El]. unfold sim_text. rewrite E. reflexivity.
    - eapply IH; [|exact Ec]. rewrite (loop_nfa _ _ _ _ _ _ _ El). assumption.
  Qed.
End Numbers.

Lemma work_le B rss : Forall (Forall (fun j => j <= B)) rss ->
  list_sum (map (@list_sum) rss) <= B * list_sum (map (@length nat) rss).
Proof.
  induction 1 as [|rs rss H _ IH]; [cbn; lia|]. cbn [map].
  change (list_sum rs + list_sum (map (@list_sum) rss) <= B * (length rs + list_sum (map (@length nat) rss))).
  assert (Hs : list_sum rs <= B * length rs); [|lia]. clear - H. induction H as [|x l Hx _ IH]; [cbn; lia|].
  change (list_sum (x :: l)) with (x + list_sum l). cbn [length]. lia.
Qed.

Section Built.
  Context {env : Env} {K : Type}.

  Lemma build_dup_free (ts : list (list char * generator K)) input lx : build_lexer ts input = Val (inl lx) -> dup_free (lx_nfa lx).
  Proof.
    unfold build_lexer. intros H. destruct (@lexgen_new K) as [lg0| |] eqn:E0; try discriminate. cbn [bind] in H.
    destruct (add_tokens lg0 ts) as [[lg|errs]| |] eqn:Ea; try discriminate. cbn [bind] in H.
    destruct (tokens_state lg0 lg ts E0 Ea) as (es & Hes & (Hm & Htok & Hlen) & Hb). unfold tokenize in H.
    destruct (machine_wf _ _ _ Hm) as [Hc _]. unfold compiler_compile in H. rewrite Hc in H. cbn [bind] in H. injection H as <-.
    apply built_dup_free. assumption.
  Qed.

  Lemma lexer_bounded (ts : list (list char * generator K)) es : parsed ts es -> (forall e, In e es -> loops_ok e = true /\ settled e []) ->
    exists B, forall input lx (ho : HashOrder) fuel w rs, build_lexer ts input = Val (inl lx) ->
      sim_text fuel (lx_nfa lx) w = Val rs -> length rs <= B.
  Proof.
    intros Hp Hes. destruct (runs_bounded 2 es Hes) as (B & HB). exists B. intros input lx ho fuel w rs Hb H.
    eapply HB; [exact (ls_machine _ _ _ _ (build_state_es ts input lx es Hb Hp))|eapply build_dup_free; eassumption|exact H].
  Qed.

  Lemma lexer_work (ts : list (list char * generator K)) es : parsed ts es -> (forall e, In e es -> loops_ok e = true /\ settled e []) ->
    exists B, forall input lx (ho : HashOrder) fuel n os lx' rss, build_lexer ts input = Val (inl lx) ->
      runs_calls fuel n lx = Val (os, lx', rss) ->
      Forall (Forall (fun j => j <= B)) rss /\
      2 * list_sum (map (@list_sum) rss) <= B * (length input * (length input + 1)) /\
      (steady es -> list_sum (map (@list_sum) rss) <= B * (2 * length input - 1)).
  Proof.
    intros Hp Hes. destruct (lexer_bounded ts es Hp Hes) as (B & HB). exists B. intros input lx ho fuel n os lx' rss Hb H.
    assert (HF : Forall (Forall (fun j => j <= B)) rss).
    { eapply (calls_bounded (lx_nfa lx) fuel B); [|reflexivity|exact H]. intros w rs. apply (HB input lx ho fuel w rs Hb). }
    split; [assumption|]. pose proof (work_le B rss HF) as Hw.
    assert (Hc : count_calls fuel n lx = Val (os, lx', map (@length nat) rss)) by (apply runs_same; eauto).
    split.
    - pose proof (built_quadratic ts input lx ho fuel n os lx' _ Hb Hc). nia.
    - intros Hs. pose proof (built_linear ts input lx es ho fuel n os lx' _ Hb Hp Hs Hc) as Hl.
      etransitivity; [exact Hw|]. apply Nat.mul_le_mono_l. assumption.
  Qed.
End Built.

(** ** Examples *)
Section Samples.
  Context {env : Env}.

  Lemma apart_nil : apart [].
  Proof. constructor. Qed.
  Lemma apart_one l : apart [l].
  Proof. repeat constructor. Qed.
  Lemma lang_settled e : In e lang_es -> loops_ok e = true /\ settled e [].
  Proof.
    intros He. split; [destruct He as [<-|[<-|[<-|[<-|[<-|[<-|[<-|[]]]]]]]]; reflexivity|].
    destruct He as [<-|[<-|[<-|[<-|[<-|[<-|[<-|[]]]]]]]]; cbn; repeat split; try apply apart_nil; try apply apart_one.
    all: constructor; [|apply apart_one]; constructor; [|constructor]; intros c [H1 H2]; cbn in H1, H2; apply H1;
      exists (GMatch 34%N); (split; [left; reflexivity|]); exact H2.
  Qed.

  Lemma twice_unsettled : loops_ok NfaCountProofs.twice_a = true /\ ~ settled NfaCountProofs.twice_a [] /\
    nfa_from NfaCountProofs.twice_a = Val NfaCountProofs.twice_nfa /\
    forall (ho : HashOrder) fuel n, 3 <= fuel ->
      exists rs, sim_text fuel NfaCountProofs.twice_nfa (repeat NfaCountProofs.ca n) = Val rs /\ 2 ^ n <= length rs.
  Proof.
    split; [reflexivity|]. split; [|split; [exact NfaCountProofs.twice_from|intros ho fuel n; apply NfaCountProofs.double_runs]].
    cbn. intros [H _]. inversion H as [|x l Hx _]; subst. inversion Hx as [|y l' Hy _]; subst. apply (Hy ($"a")). split; [reflexivity|].
    exists (GMatch ($"a")). split; [left; reflexivity|reflexivity].
  Qed.
End Samples.
