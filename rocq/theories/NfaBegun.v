(** Which texts leave a run in the simulator. *)
From Verif Require Import Base RegexModel SpecRegex NfaModel SpecNfa NfaCompileProofs NfaSimProofs NfaLangProofs NfaMachineProofs NfaProofs.

Section Begun.
  Context {env : Env}.

  Lemma alive_begun (ho : HashOrder) e m fuel w rs : nfa_from e = Val m -> sim_text fuel m w = Val rs -> rs <> [] <-> impl_begun e w.
  Proof.
    intros H E. destruct (nfa_from_ok e m H) as [_ Hm]. pose proof (machine_wf _ _ _ Hm) as [_ Hwf].
    destruct (sim_text_spec m fuel w rs Hwf E) as [_ Hin].
    transitivity (exists x, after m (init m) w x).
    - split.
      + intros Hne. destruct rs as [|r rs]; [congruence|]. exists r. apply Hin. left. reflexivity.
      + intros (r & Hr) ->. apply Hin in Hr. destruct Hr.
    - rewrite (machine_begun m 1 [e] w Hm). split.
      + intros [->|(e' & [<-|[]] & Hb)]; [apply impl_begun_nil|assumption].
      + intros Hb. right. exists e. split; [left; reflexivity|assumption].
  Qed.

  Lemma alive_lead (ho : HashOrder) e m fuel w rs : nfa_from e = Val m -> lead_ok e = true -> sim_text fuel m w = Val rs ->
    rs <> [] <-> begun e w.
  Proof. intros H Hl E. rewrite (alive_begun ho e m fuel w rs H E). apply lead_begun. exact Hl. Qed.

  Lemma pow_app (L : list char -> Prop) n m u v : lang_pow L n u -> lang_pow L m v -> lang_pow L (n + m) (u ++ v).
  Proof.
    revert u. induction n as [|n IH]; intros u Hu Hv; [cbn in Hu; subst; assumption|].
    destruct Hu as (a & b & -> & Ha & Hb). exists a, (b ++ v). rewrite app_assoc. auto.
  Qed.
  Lemma pow_inhabited (L : list char -> Prop) w n : L w -> exists v, lang_pow L n v.
  Proof.
    intros Hw. induction n as [|n (v & Hv)]; [exists []; reflexivity|]. exists (w ++ v), w, v. auto.
  Qed.
  Lemma unbounded_allowed q n : unbounded q -> exists m, allowed q (n + m).
  Proof.
    destruct q as [| | |k|k|a b]; intros []; cbn.
    - exists 0. trivial.
    - exists 1. lia.
    - exists (N.to_nat k). lia.
  Qed.

  (** Rounds of a repetition without a bound can be added until it may be left. *)
  Lemma rounds_complete (L : list char -> Prop) q n u w : unbounded q -> L w -> lang_pow L n u ->
    exists v, lang_quant (Some q) L (u ++ v).
  Proof.
    intros Hq Hw Hu. destruct (unbounded_allowed q n Hq) as (m & Hm). destruct (pow_inhabited L w m Hw) as (v & Hv).
    exists v, (n + m). split; [assumption|]. apply pow_app; assumption.
  Qed.

  Lemma endless_inhabited : forall e, endless e -> exists w, lang e w.
  Proof.
    induction e as [|e IH|e e2 es IH1 IH2| |l r IHl IHr|l q|e q IH] using expr_seq_ind; intros H.
    - exists []. reflexivity.
    - destruct (IH (proj1 H)) as (w & Hw). exists w. apply lang_single. assumption.
    - destruct (IH1 (proj1 H)) as (u & Hu). destruct (IH2 (proj2 H)) as (v & Hv). exists (u ++ v), u, v. auto.
    - exists []. reflexivity.
    - destruct (IHl (proj1 H)) as (w & Hw). exists w. left. assumption.
    - destruct H as ((c & Hc) & Hq). destruct q as [q|]; [|exists [c], c; auto].
      destruct (rounds_complete (fun w => exists c, w = [c] /\ lit_set l c) q 0 [] [c] Hq (ex_intro _ c (conj eq_refl Hc)) eq_refl) as (v & Hv).
      exists v. exact Hv.
    - destruct H as (He & Hq). destruct (IH He) as (w & Hw). destruct q as [q|]; [|exists w; assumption].
      destruct (rounds_complete (lang e) q 0 [] w Hq Hw eq_refl) as (v & Hv). exists v. exact Hv.
  Qed.

  Lemma begun_viable : forall e, endless e -> forall w, begun e w -> exists v, lang e (w ++ v).
  Proof.
    induction e as [|e IH|e e2 es IH1 IH2| |l r IHl IHr|l q|e q IH] using expr_seq_ind; intros H w Hb.
    - cbn in Hb. subst w. exists []. reflexivity.
    - apply (begun_single e w) in Hb. destruct (IH (proj1 H) w Hb) as (v & Hv). exists v. apply lang_single. assumption.
    - destruct H as (He & Hes). apply begun_seq in Hb. destruct Hb as [Hb|(x & y & -> & Hx & Hy)].
      + destruct (IH1 He w Hb) as (v & Hv). destruct (endless_inhabited (EConcat (e2 :: es)) Hes) as (v2 & Hv2).
        exists (v ++ v2), (w ++ v), v2. rewrite app_assoc. auto.
      + destruct (IH2 Hes y Hy) as (v & Hv). exists v, x, (y ++ v). rewrite app_assoc. auto.
    - cbn in Hb. subst w. exists []. reflexivity.
    - destruct H as (Hl & Hr). destruct Hb as [Hb|Hb].
      + destruct (IHl Hl w Hb) as (v & Hv). exists v. left. assumption.
      + destruct (IHr Hr w Hb) as (v & Hv). exists v. right. assumption.
    - destruct H as ((c & Hc) & Hq). destruct q as [q|].
      + destruct Hb as (n & Hb).
        exact (rounds_complete (fun w => exists c, w = [c] /\ lit_set l c) q n w [c] Hq (ex_intro _ c (conj eq_refl Hc)) Hb).
      + destruct Hb as [->|Hb]; [exists [c], c; auto|]. exists []. rewrite app_nil_r. exact Hb.
    - destruct H as (He & Hq). destruct q as [q|]; [|exact (IH He w Hb)].
      destruct Hb as (n & x & y & -> & Hx & Hy). destruct (IH He y Hy) as (v & Hv).
      destruct (rounds_complete (lang e) q (S n) (x ++ y ++ v) (y ++ v) Hq Hv (lang_pow_snoc _ _ _ _ Hx Hv)) as (z & Hz).
      exists (v ++ z). replace ((x ++ y) ++ v ++ z) with ((x ++ y ++ v) ++ z) by (rewrite !app_assoc; reflexivity). exact Hz.
  Qed.

  Lemma viable_begun e w v : lang e (w ++ v) -> begun e w.
  Proof. intros H. eapply begun_app. apply lang_begun. exact H. Qed.

  Lemma alive_viable (ho : HashOrder) e m fuel w rs : nfa_from e = Val m -> lead_ok e = true -> endless e -> sim_text fuel m w = Val rs ->
    rs <> [] <-> exists v, lang e (w ++ v).
  Proof.
    intros H Hl He E. rewrite (alive_lead ho e m fuel w rs H Hl E). split; [apply begun_viable; assumption|].
    intros (v & Hv). eapply viable_begun. exact Hv.
  Qed.

  Lemma question_aa v : ~ lang (ELit (LMatch ($"a")) (Some QQuestion)) (str "aa"%string ++ v).
  Proof.
    intros (n & Hn & H). destruct n as [|[|n]]; [discriminate H| |cbn in Hn; lia].
    destruct H as (x & y & E & (c & -> & _) & Hy). cbn in Hy. subst y. discriminate E.
  Qed.
  Lemma question_begun : impl_begun (ELit (LMatch ($"a")) (Some QQuestion)) (str "aa"%string).
  Proof.
    exists 2, [$"a"], [$"a"]. split; [reflexivity|]. split; [eexists; split; reflexivity|].
    exists [$"a"], []. split; [reflexivity|]. split; [eexists; split; reflexivity|reflexivity].
  Qed.
  Lemma question_alive m : nfa_from (ELit (LMatch ($"a")) (Some QQuestion)) = Val m -> forall (ho : HashOrder), exists N, forall fuel, N <= fuel ->
    exists rs, sim_text fuel m (str "aa"%string) = Val rs /\ rs <> [].
  Proof.
    intros H ho. destruct (nfa_from_ok _ m H) as [_ Hm]. pose proof (machine_wf _ _ _ Hm) as [_ Hwf].
    assert (E : exists l, @sim_text env id_order 30 m (str "aa"%string) = Val l).
    { vm_compute in H. injection H as <-. eexists. vm_compute. reflexivity. }
    destruct E as (l & E). destruct (text_orders m _ id_order ho 30 l Hwf E) as (N & HN). exists N. intros fuel Hf.
    destruct (HN fuel Hf) as (rs & Ers & _). exists rs. split; [assumption|]. apply (alive_begun ho _ m fuel _ rs H Ers). exact question_begun.
  Qed.
End Begun.
