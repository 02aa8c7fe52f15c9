(** [possible] and [endless] for the tables of grammars. *)
From Verif Require Import Base GrammarModel CfsmModel SlrModel SpecCfg SpecMachine GrammarProofs FollowProofs GrammarTotal
  CfsmProofs CfsmCorrect TableProofs SlrTable SlrNew SlrRun SlrMoves SlrFinal SlrMachine SpecPossible PossibleFacts PossibleMachine PossibleProofs.

Lemma slr_taking {V T} `{DecEq V} `{DecEq T} {ho : HashOrder} (teq : T -> T -> bool) (g : grammar V T) fuel p tb :
  lawful teq -> built g -> slr_new teq fuel p g = Val tb -> taking tb.
Proof.
  intros Ht Hb E. destruct (slr_new_parts teq Ht g Hb _ _ _ E) as (c & fs & _ & Hc & Hf & Htb). intros v n Hin.
  unfold all_actions in Hin. apply in_map_iff in Hin. destruct Hin as ([k a] & Ea & Hin). cbn [snd] in Ea. subst a.
  apply in_concat in Hin. destruct Hin as (row & Hr & Hin). apply (In_nth _ _ []) in Hr. destruct Hr as (i & Hi & <-).
  destruct (proj1 (to_len _ _ _ _ _ Htb i) Hi) as (st & Hst & Hle & _).
  assert (Hid : In (cs_id st) (map cs_id (cf_states c))) by (apply in_map; exact Hst). rewrite (ok_ids _ _ Hc) in Hid. apply in_seq in Hid.
  assert (Hi' : In i (map cs_id (cf_states c))) by (rewrite (ok_ids _ _ Hc); apply in_seq; lia). apply in_map_iff in Hi'. destruct Hi' as (st' & <- & Hst').
  destruct (ok_reach _ _ Hc st' Hst') as (w & Hp).
  apply (row_action teq g c Hc fs Hf tb Htb _ _ _ _ Hp) in Hin. destruct k as [t|]; [|destruct Hin].
  destruct Hin as (bd & Hl & <- & _). apply (body_nonempty g (built_good g Hb)) in Hl. destruct bd; [congruence|discriminate].
Qed.

Section Parser.
  Context {V T : Type} {dv : DecEq V} {dt : DecEq T} {ho : HashOrder} (teq : T -> T -> bool) (g : grammar V T) (fuel : nat) (p : list nat) (tb : table V T).
  Hypothesis Ht : lawful teq.
  Hypothesis Hb : built g.
  Hypothesis Hnew : slr_new teq fuel p g = Val tb.

  Lemma possible_from ks :
    ((exists ts, incl ts ks /\ exists fuel' n, parse teq fuel' tb ts = Val (Some n)) <-> possible teq tb ks Tree = true) /\
    ((exists ts, incl ts ks /\ exists fuel', parse teq fuel' tb ts = Val None) <-> possible teq tb ks Fails = true) /\
    ((exists ts, incl ts ks /\ exists fuel', parse teq fuel' tb ts = Panic) <-> possible teq tb ks Panics = true) /\
    ((exists ts, incl ts ks /\ forall fuel', parse teq fuel' tb ts = Diverge) <-> endless teq tb ks = true).
  Proof.
    apply (some_outcomes teq tb ks (fun ts => incl ts ks)); [exact (slr_taking teq g fuel p tb Ht Hb Hnew)|auto|].
    intros ts. apply incl_covered.
  Qed.
  Lemma possible_any ks : covering teq tb ks ->
    ((exists ts fuel' n, parse teq fuel' tb ts = Val (Some n)) <-> possible teq tb ks Tree = true) /\
    ((exists ts fuel', parse teq fuel' tb ts = Val None) <-> possible teq tb ks Fails = true) /\
    ((exists ts fuel', parse teq fuel' tb ts = Panic) <-> possible teq tb ks Panics = true) /\
    ((exists ts, forall fuel', parse teq fuel' tb ts = Diverge) <-> endless teq tb ks = true).
  Proof.
    intros Hk. destruct (some_outcomes teq tb ks (fun ts => True) (slr_taking teq g fuel p tb Ht Hb Hnew)) as (H1 & H2 & H3 & H4); [auto| |].
    - intros ts _ t _. destruct (Hk t) as (k & Hin & Ha). exists k. split; [exact Hin|apply alike_sim, Ha].
    - rewrite <- H1, <- H2, <- H3, <- H4. repeat split; try (intros (ts & H); exists ts; tauto).
  Qed.
  Lemma possible_safe ks : covering teq tb ks ->
    negb (possible teq tb ks Panics) && negb (endless teq tb ks) = true <-> forall ts, exists fuel' r, parse teq fuel' tb ts = Val r.
  Proof.
    intros Hk. destruct (possible_any ks Hk) as (_ & _ & H3 & H4). rewrite andb_true_iff, !negb_true_iff. split.
    - intros (E3 & E4) ts. destruct (parse_cases teq tb ts) as (P1 & P2 & P3 & P4).
      destruct (all_settle teq tb (slr_taking teq g fuel p tb Ht Hb Hnew) ts) as [(o & E)|(n & k & v & q & st & ts' & M & Hs)].
      + destruct o; [apply P1 in E; destruct E as (f & nd & E); eauto|apply P2 in E; destruct E as (f & E); eauto|].
        apply P3 in E. rewrite (proj1 H3 (ex_intro _ ts E)) in E3. discriminate.
      + exfalso. assert (L : lasts teq tb (Begin, [], ts)) by (eapply moves_lasts; [exact M|apply spins_lasts, spins_all, Hs]).
        rewrite (proj1 H4 (ex_intro _ ts (proj2 P4 L))) in E4. discriminate.
    - intros H. split.
      + destruct (possible teq tb ks Panics); [|reflexivity]. destruct (proj2 H3 eq_refl) as (ts & f & E). destruct (H ts) as (f' & r & E').
        exfalso. destruct (parse_cases teq tb ts) as (P1 & P2 & P3 & _). pose proof (proj1 P3 (ex_intro _ f E)) as X.
        destruct r as [nd|]; [pose proof (proj1 P1 (ex_intro _ f' (ex_intro _ nd E'))) as Y|pose proof (proj1 P2 (ex_intro _ f' E')) as Y];
          discriminate (ends_one _ _ _ _ _ X Y).
      + destruct (endless teq tb ks); [|reflexivity]. destruct (proj2 H4 eq_refl) as (ts & E). destruct (H ts) as (f' & r & E'). rewrite E in E'. discriminate.
  Qed.
End Parser.

(** The tokens of a table, and one that is none of them if there is one. *)
Lemma covering_keys {V T} (teq : T -> T -> bool) (tb : table V T) ks : lawful teq ->
  incl (table_keys tb) ks ->
  (exists k, In k ks /\ forall x, In x (table_keys tb) -> teq k x = false) \/ (forall t, exists x, In x (table_keys tb) /\ teq t x = true) ->
  covering teq tb ks.
Proof.
  intros (H1 & H2 & H3) Hi Hk t.
  assert (Hkey : forall row k a, In row (tb_action tb) -> In (Some k, a) row -> In k (table_keys tb)).
  { intros row k a Hr Ha. unfold table_keys. apply in_flat_map. exists (Some k, a). split; [|left; reflexivity]. apply in_concat. eauto. }
  destruct (existsb (teq t) (table_keys tb)) eqn:E.
  - apply existsb_exists in E. destruct E as (x & Hx & E). exists x. split; [apply Hi, Hx|]. intros row y a Hr Ha.
    destruct (teq x y) eqn:Exy; [eapply H3; eauto|]. destruct (teq t y) eqn:Ety; [|reflexivity]. rewrite <- Exy. symmetry. eapply H3; eauto.
  - destruct Hk as [(k & Hk & Hn)|Hall].
    + exists k. split; [exact Hk|]. intros row y a Hr Ha. specialize (Hkey _ _ _ Hr Ha). rewrite (Hn y Hkey).
      destruct (teq t y) eqn:Ety; [|reflexivity]. rewrite <- E. symmetry. apply existsb_exists. eauto.
    + exfalso. destruct (Hall t) as (x & Hx & Ex). assert (existsb (teq t) (table_keys tb) = true) by (apply existsb_exists; eauto). congruence.
Qed.
