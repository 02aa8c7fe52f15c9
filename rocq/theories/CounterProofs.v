(** How large the numbers become that lexing counts with: the counters of runs
    and the positions of tokens. *)
From Verif Require Import Base RegexModel SpecRegex NfaModel SpecNfa NfaCompileProofs NfaLangProofs NfaSimProofs
  NfaMachineProofs NfaTermProofs LexerModel NfaProofs NfaWitness SpecLexer LexerProofs LexerCallsProofs SpecCalls SpecCounter LexerRef NfaSpin
  NfaCountProofs ReturnProofs LexerMunch LexerWitness.
From Verif Require CountProofs.

Section Machine.
  Context {env : Env}.
  Variables (m : nfa) (k : nat) (l : list expr).
  Hypothesis Hm : machine m k l.

  Lemma machine_case p : p < nstates m -> p <> 0 -> (1 <= p < k \/ exists e n, In (e, n, p) (placement k l)) \/
    exists e n f, In (e, n, f) (placement k l) /\ n <= p < n + size e.
  Proof.
    intros Hp H0. rewrite (mc_size _ _ _ Hm) in Hp. destruct (Nat.lt_ge_cases p k) as [|Hk]; [left; left; lia|].
    revert Hp Hk. generalize k. clear. induction l as [|a r IH]; intros k Hp Hk; cbn [placement] in *.
    - cbn in Hp. lia.
    - change (list_sum (map (fun e => S (size e)) (a :: r))) with (S (size a) + list_sum (map (fun e => S (size e)) r)) in Hp.
      destruct (Nat.eq_dec p k) as [->|]; [left; right; exists a, (S k); left; reflexivity|].
      destruct (Nat.lt_ge_cases p (S k + size a)) as [|Hge].
      + right. exists a, (S k), k. split; [left; reflexivity|lia].
      + destruct (IH (S k + size a) ltac:(lia) Hge) as [[H1|(e & n0 & H1)]|(e & n0 & f & H1 & H2)].
        * lia.
        * left. right. exists e, n0. right. assumption.
        * right. exists e, n0, f. split; [right; assumption|assumption].
  Qed.

  Lemma machine_nstep g c j : g < nstates m -> g <> 0 -> ~ mbads k l g -> valid (mgroups k l) g c -> nstep (has_edge m) (mbads k l) g j c.
  Proof.
    intros Hg H0 Hb Hv. destruct (machine_case g Hg H0) as [Hf|(e & n & f & Hin & Hr)].
    - intros y Hy. exfalso. exact (machine_final_dead m k l g Hm Hf IEps y Hy).
    - pose proof (placement_in _ _ _ _ _ Hin) as Hpl.
      destruct (expr_back (has_edge m) (mgroups k l) (mbads k l) g (mgroups_isq m k l Hm) (mgroups_valid m k l Hm) Hb e n 0 f) as [HI _].
      + eapply machine_placed; eauto.
      + intros x Hx. exists e, n, f. auto.
      + intros i z (e' & n' & f' & Hin' & Hgr) Hr'.
        destruct (placement_disjoint _ _ _ _ _ _ _ _ Hin Hin') as [[= <- <- <-]|Hd]; [assumption|].
        apply groups_range in Hgr. apply placement_in in Hin'. lia.
      + exact Hr.
      + apply HI; [|exact Hv]. intros c' _. apply nre_make; [lia|]. intros k' _ i y c1 Hy _. exfalso.
        exact (machine_final_dead m k l f Hm (or_intror (ex_intro _ e (ex_intro _ n Hin))) i y Hy).
  Qed.

  (** Steps counted. *)
  Inductive nsteps : nat -> run -> run -> Prop :=
  | nsteps_O r : nsteps 0 r r
  | nsteps_S j r y z : eps_step m r y -> nsteps j y z -> nsteps (S j) r z.
  Lemma star_nsteps r z : star (eps_step m) r z -> exists j, nsteps j r z.
  Proof.
    intros H. assert (Hr : forall a b, star (eps_step m) a b -> forall j c, nsteps j b c -> exists j', nsteps j' a c).
    { intros a b Hab. induction Hab as [|b c Hab IH Hbc]; intros j d Hd; [eauto|]. apply (IH (S j)). econstructor; eassumption. }
    apply (Hr _ _ H 0 z). constructor.
  Qed.

  Lemma nre_nsteps g j : forall r z, vrun m k l r -> (forall x, star (eps_step m) r x -> ~ mbads k l (r_state x)) ->
    nre (has_edge m) (mbads k l) g j (r_state r) (cof r) -> nsteps j r z -> r_state z <> g.
  Proof.
    induction j as [|j IH]; intros r z Hv Hnb Hn Hz; inversion Hz as [r0|j0 r0 y z0 Hy Hyz]; subst.
    - destruct Hn as [Hn|[Hn _]]; [destruct (Hnb z (star_refl _ _) Hn)|exact Hn].
    - destruct Hn as [Hn|[_ Hn]]; [destruct (Hnb r (star_refl _ _) Hn)|].
      apply (IH y z (vrun_eps m k l Hm r y Hv Hy)); [|clear IH|exact Hyz].
      + intros x Hx. apply Hnb. eapply star_left; eassumption.
      + destruct Hv as (Hok & _). destruct Hy as (i & t & He & H). destruct i as [lt| |q]; [destruct H| |].
        * subst y. eapply nre_ceq; [|exact (Hn IEps t _ He eq_refl)]. intros j' _. symmetry. apply cof_take_false. assumption.
        * destruct H as [Hs ->]. eapply nre_ceq; [|exact (Hn (IQuant q) t _ He (conj Hs eq_refl))].
          intros j' _. symmetry. apply cof_take_true. assumption.
  Qed.

  (** A state left by an epsilon edge is not come back to without reading. *)
  Lemma no_return r y z : vrun m k l r -> r_state r <> 0 -> (forall x, star (eps_step m) r x -> ~ mbads k l (r_state x)) ->
    eps_step m r y -> cof y (r_state r) <> 0 -> star (eps_step m) y z -> r_state z <> r_state r.
  Proof.
    intros Hv H0 Hnb Hy Hc Hz. pose proof Hv as (Hok & (st & Hst) & Hval).
    pose proof (vrun_eps m k l Hm r y Hv Hy) as Hvy.
    assert (Hnb' : forall x, star (eps_step m) y x -> ~ mbads k l (r_state x)).
    { intros x Hx. apply Hnb. eapply star_left; eassumption. }
    destruct Hy as (i & t & He & H). destruct i as [lt| |q]; [destruct H| |].
    - destruct (star_nsteps _ _ Hz) as (j & Hj). apply (nre_nsteps (r_state r) j y z Hvy Hnb'); [|exact Hj].
      subst y. eapply nre_ceq; [|cbn; apply (machine_nstep (r_state r) (cof r) j); [| |apply Hnb; constructor|exact Hval|exact He]].
      + intros i _. symmetry. apply cof_take_false. assumption.
      + eapply get_state_lt; [apply Hm|eassumption].
      + assumption.
    - exfalso. destruct H as [_ ->]. apply Hc. rewrite cof_take_true by assumption. unfold zer. rewrite Nat.eqb_refl. reflexivity.
  Qed.

  (** With [n] characters read: no counter is above [n + 1], and those of the states
      that can be left before the next character are not above [n]. *)
  Definition low (n : nat) (r : run) : Prop :=
    (forall i, cof r i <= S n) /\ forall z, star (eps_step m) r z -> cof r (r_state z) <= n.

  Lemma low_char n c r r' : run_ok r -> low n r -> char_step m c r r' -> low (S n) r'.
  Proof.
    intros Hok [H1 H2] (lt & t & _ & _ & ->). assert (H : forall i, cof (take_transition r t false) i <= S n).
    { intros i. rewrite cof_take_false by assumption. unfold inc. destruct (Nat.eqb_spec i (r_state r)) as [->|]; [|apply H1].
      apply le_n_S, H2. constructor. }
    split; [|auto]. intros i. specialize (H i). lia.
  Qed.

  Lemma low_eps n r r' : vrun m k l r -> r_state r <> 0 -> (forall x, star (eps_step m) r x -> ~ mbads k l (r_state x)) ->
    low n r -> eps_step m r r' -> low n r'.
  Proof.
    intros Hv H0 Hnb [H1 H2] Hr.
    assert (Hc : forall i, i <> r_state r -> cof r' i = cof r i).
    { intros i Hi. destruct Hr as (p & t & _ & H). destruct Hv as (Hok & _). destruct p as [lt| |q]; [destruct H| |destruct H as [_ H]]; subst r';
        [rewrite cof_take_false by assumption|rewrite cof_take_true by assumption]; unfold inc, zer; destruct (Nat.eqb_spec i (r_state r)); congruence. }
    assert (Hs : cof r' (r_state r) <= S n).
    { specialize (H2 r (star_refl _ _)). destruct Hr as (p & t & _ & H). destruct Hv as (Hok & _).
      destruct p as [lt| |q]; [destruct H| |destruct H as [_ H]]; subst r';
        [rewrite cof_take_false by assumption|rewrite cof_take_true by assumption]; unfold inc, zer; rewrite Nat.eqb_refl; lia. }
    split.
    - intros i. destruct (Nat.eq_dec i (r_state r)) as [->|Hi]; [exact Hs|]. rewrite Hc by assumption. apply H1.
    - intros z Hz. destruct (Nat.eq_dec (r_state z) (r_state r)) as [E|Hi].
      + destruct (Nat.eq_dec (cof r' (r_state r)) 0) as [Ez|Hne]; [rewrite E, Ez; lia|].
        exfalso. exact (no_return r r' z Hv H0 Hnb Hr Hne Hz E).
      + rewrite Hc by assumption. apply H2. eapply star_left; eassumption.
  Qed.

  Lemma low_star n r r' : vrun m k l r -> r_state r <> 0 -> (forall x, star (eps_step m) r x -> ~ mbads k l (r_state x)) ->
    low n r -> star (eps_step m) r r' -> low n r'.
  Proof.
    intros Hv H0 Hnb Hl Hs. destruct (star_nsteps _ _ Hs) as (j & Hj). clear Hs. revert r Hv H0 Hnb Hl Hj.
    induction j as [|j IH]; intros r Hv H0 Hnb Hl Hj; inversion Hj as [|j0 r0 y z0 Hy Hyz]; subst; [assumption|].
    apply (IH y).
    - eapply vrun_eps; eassumption.
    - destruct Hy as (i & t & He & H). intros E. apply (machine_start_fresh m k l (r_state r) i Hm).
      destruct i as [lt| |q]; [destruct H| |destruct H as [_ H]]; subst y; cbn in E; subst t; exact He.
    - intros x Hx. apply Hnb. eapply star_left; eassumption.
    - eapply low_eps; eassumption.
    - exact Hyz.
  Qed.

  Lemma after_low w : (forall u v x, w = u ++ v -> u <> [] -> after m (init m) u x -> ~ mbads k l (r_state x)) ->
    forall x, after m (init m) w x -> low (length w) x.
  Proof.
    induction w as [|c w IH] using rev_ind; intros Hnb x Hx.
    - destruct Hx as [H1 _]. assert (H : forall i, cof x i = 0) by (intros i; unfold cof; rewrite H1; reflexivity).
      split; intros; rewrite H; lia.
    - rewrite after_app in Hx. destruct Hx as (r & r' & Hr & Hc & Hs). cbn [after] in Hr.
      assert (Hvr : vrun m k l r) by exact (after_vrun m k l Hm w r Hr).
      destruct (vrun_char m k l Hm c r r' Hvr Hc) as [Hv' H0].
      assert (Hn' : forall y, star (eps_step m) r' y -> ~ mbads k l (r_state y)).
      { intros y Hy. apply (Hnb (w ++ [c]) []); [rewrite app_nil_r; reflexivity|intros E; apply app_eq_nil in E; destruct E; discriminate|].
        rewrite after_app. cbn [after]. exists r, r'. auto. }
      rewrite app_length. cbn [length]. rewrite Nat.add_1_r. eapply low_star; [exact Hv'|exact H0|exact Hn'| |exact Hs].
      eapply low_char; [apply Hvr| |exact Hc]. apply IH; [|assumption].
      intros u v y -> Hu. apply (Hnb u (v ++ [c])); [rewrite app_assoc; reflexivity|assumption].
  Qed.

  Lemma text_low (ho : HashOrder) fuel w rs r : sim_text fuel m w = Val rs -> In r rs -> low (length w) r.
  Proof.
    intros E Hr. pose proof (machine_wf _ _ _ Hm) as [_ Hwf]. apply after_low.
    - intros u v x -> Hu Hx Hb. destruct (sim_text_prefix m fuel u v rs E) as (rs' & E').
      apply (bad_infinite m k l Hm u x Hu Hx Hb rs'). intros y Hy. apply (sim_text_spec m fuel u rs' Hwf E'). exact Hy.
    - apply (sim_text_spec m fuel w rs Hwf E). exact Hr.
  Qed.

  Lemma text_counters (ho : HashOrder) fuel w rs r i : sim_text fuel m w = Val rs -> In r rs -> counters_get i (r_cnt r) <= S (length w).
  Proof. intros E Hr. exact (proj1 (text_low ho fuel w rs r E Hr) i). Qed.

  (** The counter of the state a run is at. *)
  Lemma text_counter (ho : HashOrder) fuel w rs r : sim_text fuel m w = Val rs -> In r rs -> counters_get (r_state r) (r_cnt r) <= length w.
  Proof. intros E Hr. exact (proj2 (text_low ho fuel w rs r E Hr) r (star_refl _ _)). Qed.

  Lemma sorted_get lo c i v : sorted_from lo c -> In (i, v) c -> counters_get i c = v.
  Proof.
    revert lo. induction c as [|[j u] c IH]; intros lo Hs Hin; [destruct Hin|]. destruct Hs as [Hlo Hs]. cbn [counters_get].
    destruct Hin as [[= <- <-]|Hin]; [rewrite Nat.eqb_refl; reflexivity|].
    destruct (Nat.eqb_spec i j) as [->|]; [|eapply IH; eassumption]. exfalso.
    assert (Hk : forall lo c k v, sorted_from lo c -> In (k, v) c -> lo <= k).
    { clear. intros lo c. revert lo. induction c as [|[j u] c IH]; intros lo k v Hs Hin; [destruct Hin|]. destruct Hs as [Hlo Hs].
      destruct Hin as [[= <- <-]|Hin]; [assumption|]. apply (IH _ _ _ Hs) in Hin. lia. }
    apply (Hk _ _ _ _ Hs) in Hin. lia.
  Qed.

  (** The number of different runs. *)
  Lemma text_runs (ho : HashOrder) fuel w rs : sim_text fuel m w = Val rs ->
    length (nodup run_eq_dec rs) <= nstates m * (length w + 3) ^ nstates m.
  Proof.
    intros H. pose proof (machine_wf _ _ _ Hm) as [_ Hwf]. destruct (sim_text_spec m fuel w rs Hwf H) as [_ Hin].
    destruct (after_small m k l Hm) as (K & HK).
    set (U := flat_map (fun s => map (fun c => {| r_state := s; r_cnt := c |}) (enum 0 (nstates m) (S (length w)))) (seq 0 (nstates m))).
    assert (HU : length U = nstates m * (length w + 3) ^ nstates m).
    { unfold U. rewrite (flat_map_const _ _ ((length w + 3) ^ nstates m)); [rewrite seq_length; reflexivity|].
      intros s _. rewrite map_length, enum_length. f_equal. lia. }
    rewrite <- HU. apply NoDup_incl_length; [apply NoDup_nodup|]. intros x Hx. apply nodup_In in Hx.
    pose proof (text_counters ho fuel w rs x) as Hc. specialize (fun i => Hc i H Hx). apply Hin in Hx.
    apply (HK w) in Hx.
    - destruct Hx as [(H1 & (st & Hst) & _) Hs]. apply in_flat_map. exists (r_state x). split.
      + assert (Hlt : r_state x < nstates m) by (eapply get_state_lt; [apply Hm|eassumption]). apply in_seq. lia.
      + apply in_map_iff. exists (r_cnt x). split; [destruct x; reflexivity|]. apply enum_complete; [exact H1|].
        intros i v Hi. split; [apply (Hs i v Hi)|]. specialize (Hc i). rewrite (sorted_get 0 _ i v H1 Hi) in Hc. exact Hc.
    - intros v c u y E Hy Hb. replace (c :: u) with ([c] ++ u) in E by reflexivity. rewrite app_assoc in E. rewrite E in H.
      destruct (sim_text_prefix m fuel _ _ _ H) as (rs' & H').
      apply (bad_infinite m k l Hm (v ++ [c]) y) with (L := rs'); [|exact Hy|exact Hb|].
      + intros E0. apply app_eq_nil in E0. destruct E0 as [_ E0]. discriminate.
      + intros z Hz. apply (sim_text_spec m fuel _ _ Hwf H'). exact Hz.
  Qed.
End Machine.

(** ** Positions *)

(** Positions rise from [lo] on, below [n]. *)
Fixpoint rising (n lo : nat) (u : list (nat * char)) : Prop :=
  match u with
  | [] => True
  | (p, _) :: r => lo <= p < n /\ rising n (S p) r
  end.

Lemma rising_down n u : forall lo lo', lo' <= lo -> rising n lo u -> rising n lo' u.
Proof. destruct u as [|[p c] u]; intros lo lo' Hl H; [exact I|]. destruct H as [H1 H2]. split; [lia|assumption]. Qed.

Lemma rising_app n u v : forall lo, rising n lo (u ++ v) -> rising n lo u /\ rising n (lo + length u) v.
Proof.
  induction u as [|[p c] u IH]; intros lo H; cbn [app length] in *; [split; [exact I|rewrite Nat.add_0_r; exact H]|].
  destruct H as [H1 H2]. apply IH in H2 as [H2 H3]. split; [split; assumption|]. eapply rising_down; [|exact H3]. lia.
Qed.

Lemma rising_end n u v : forall lo, u <> [] -> rising n lo (u ++ v) -> lo + length u <= end_of u <= n /\ rising n (end_of u) v.
Proof.
  unfold end_of. induction u as [|[p c] u IH]; intros lo Hu H; [congruence|]. destruct H as [H1 H2]. destruct u as [|b u].
  - cbn in *. split; [lia|exact H2].
  - destruct (IH (S p) ltac:(discriminate) H2) as [H3 H4]. change (last ((p, c) :: b :: u) (0, 0%N)) with (last (b :: u) (0, 0%N)).
    split; [|exact H4]. cbn [length] in *. lia.
Qed.

(** Leaving out a part in the middle. *)
Lemma rising_cut n u v w : forall lo, rising n lo (u ++ v ++ w) -> rising n lo (u ++ w).
Proof.
  induction u as [|[p c] u IH]; intros lo H; cbn [app] in *.
  - apply rising_app in H as [_ H]. eapply rising_down; [|exact H]. lia.
  - destruct H as [H1 H2]. split; [assumption|]. apply IH. assumption.
Qed.

Lemma rising_places w : rising (length w) 0 (places w).
Proof.
  unfold places. assert (H : forall lo, rising (lo + length w) lo (combine (seq lo (length w)) w)).
  { induction w as [|c w IH]; intros lo; [exact I|]. cbn [length seq combine]. split; [lia|].
    replace (lo + S (length w)) with (S lo + length w) by lia. apply IH. }
  apply (H 0).
Qed.

Section Positions.
  Context {env : Env} {K : Type}.
  Variables (L : expr -> list char -> Prop) (es : list expr) (gens : list (generator K)) (n : nat).

  Definition sound (s : held) : Prop := rising n (h_from s + length (h_junk s)) (ahead s).

  Lemma sound_token s u v c r : sound s -> ahead s = u ++ v ++ c :: r -> u <> [] ->
    h_from s + length (h_junk s ++ u) <= end_of u <= n /\
    sound {| h_from := end_of u; h_junk := []; h_back := v ++ [c]; h_rest := rest_after s (length (u ++ v ++ [c])) |}.
  Proof.
    unfold sound. intros Hs E Hu. rewrite E in Hs. apply rising_end in Hs as [H1 H2]; [|assumption].
    split; [rewrite app_length; lia|]. cbn [h_from h_junk length]. rewrite Nat.add_0_r. unfold ahead. cbn [h_back h_rest].
    replace (v ++ c :: r) with ((v ++ [c]) ++ r) in H2 by (rewrite <- app_assoc; reflexivity).
    (* what is left of the rest is what is left of all that is ahead, without the rest of what was handed back *)
    assert (Hr : exists d, r = d ++ rest_after s (length (u ++ v ++ [c]))).
    { exists (skipn (length (u ++ v ++ [c])) (h_back s)). unfold rest_after. rewrite <- skipn_app. fold (ahead s). rewrite E.
      replace (u ++ v ++ c :: r) with ((u ++ v ++ [c]) ++ r) by (rewrite <- !app_assoc; reflexivity).
      rewrite skipn_app, skipn_all, Nat.sub_diag. reflexivity. }
    destruct Hr as (d & Hr). rewrite Hr in H2. eapply rising_cut. exact H2.
  Qed.

  Lemma sound_vain s v c r : sound s -> ahead s = v ++ c :: r ->
    sound {| h_from := h_from s; h_junk := h_junk s ++ v ++ [c];
             h_back := back_after s (length (v ++ [c])); h_rest := rest_after s (length (v ++ [c])) |}.
  Proof.
    unfold sound. intros Hs E. unfold ahead at 1. cbn [h_from h_junk h_back h_rest]. unfold back_after, rest_after. rewrite <- skipn_app.
    fold (ahead s). rewrite E in *. replace (v ++ c :: r) with ((v ++ [c]) ++ r) in * by (rewrite <- app_assoc; reflexivity).
    rewrite skipn_app, skipn_all, Nat.sub_diag. cbn [skipn app]. apply rising_app in Hs as [_ Hs].
    rewrite app_length, Nat.add_assoc. exact Hs.
  Qed.

  Lemma calls_adjacent os : forall s, sound s -> calls L es gens s os -> adjacent n (h_from s) (somes os).
  Proof.
    induction os as [|o os IH]; intros s Hs H; [constructor|]. inversion H as [|s0 o0 s' os0 Hc Hr]; subst.
    destruct Hc as [u v c r i g E Hu _ _ _ _ _|v c r E _ _ _|i g Hne _ _|_ _]; cbn [somes].
    - destruct (sound_token s u v c r Hs E Hu) as [Hb Hs']. unfold token_of.
      assert (1 <= length u) by (destruct u; [congruence|cbn; lia]). rewrite app_length in Hb.
      apply adjacent_cons with (q := end_of u); [reflexivity|lia| |exact (IH _ Hs' Hr)].
      cbn [lt_source]. unfold letters. rewrite map_length, app_length. lia.
    - exact (IH _ (sound_vain s v c r Hs E) Hr).
    - unfold sound in Hs. rewrite <- (app_nil_r (ahead s)) in Hs. apply rising_end in Hs as [Hb _]; [|assumption]. unfold token_of.
      assert (1 <= length (ahead s)) by (destruct (ahead s); [congruence|cbn; lia]).
      apply adjacent_cons with (q := end_of (ahead s)); [reflexivity|lia| |].
      + cbn [lt_source]. unfold letters. rewrite map_length, app_length. lia.
      + apply (IH {| h_from := end_of (ahead s); h_junk := []; h_back := []; h_rest := [] |}); [exact I|exact Hr].
    - apply (IH {| h_from := h_from s; h_junk := []; h_back := []; h_rest := [] |}); [exact I|exact Hr].
  Qed.
End Positions.

Section Built.
  Context {env : Env} {K : Type}.

  Lemma lexer_positions (ts : list (list char * generator K)) input lx (ho : HashOrder) fuel n os lx' :
    build_lexer ts input = Val (inl lx) -> lex_calls fuel n lx = Val (os, lx') -> adjacent (length input) 0 (somes os).
  Proof.
    intros Hb H. destruct (CountProofs.built_parsed ts input lx Hb) as (es & Hp).
    destruct (lexer_calls ts input lx es ho fuel n os lx' impl_lang Hb Hp (or_introl eq_refl) H) as [_ Hc].
    apply (calls_adjacent impl_lang es (map snd ts) (length input) os (starting input)); [|exact Hc].
    unfold sound, starting, ahead. cbn. apply rising_places.
  Qed.

  Lemma lexer_counters (ts : list (list char * generator K)) input lx (ho : HashOrder) fuel w rs r :
    build_lexer ts input = Val (inl lx) -> sim_text fuel (lx_nfa lx) w = Val rs -> In r rs ->
    (forall i, counters_get i (r_cnt r) <= S (length w)) /\ counters_get (r_state r) (r_cnt r) <= length w.
  Proof.
    intros Hb H Hr. destruct (CountProofs.built_parsed ts input lx Hb) as (es & Hp).
    destruct (build_state_es ts input lx es Hb Hp) as [_ Hm _ _ _ _].
    split; [intros i; exact (text_counters _ _ _ Hm ho fuel w rs r i H Hr)|exact (text_counter _ _ _ Hm ho fuel w rs r H Hr)].
  Qed.

  Lemma lexer_runs (ts : list (list char * generator K)) input lx (ho : HashOrder) fuel w rs :
    build_lexer ts input = Val (inl lx) -> sim_text fuel (lx_nfa lx) w = Val rs ->
    length (nodup run_eq_dec rs) <= length (nfa_states (lx_nfa lx)) * (length w + 3) ^ length (nfa_states (lx_nfa lx)).
  Proof.
    intros Hb H. destruct (CountProofs.built_parsed ts input lx Hb) as (es & Hp).
    destruct (build_state_es ts input lx es Hb Hp) as [_ Hm _ _ _ _]. exact (text_runs _ _ _ Hm ho fuel w rs H).
  Qed.
End Built.
