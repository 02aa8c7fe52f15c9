(** [exactb] is right. *)
From Verif Require Import Base GrammarModel CfsmModel SlrModel SpecCfg SpecLoose SpecOutcome GrammarProofs FirstProofs GrammarTotal SlrTable SlrNew SlrRun SlrMoves SlrSim SlrTerm SlrAll
  SlrPrefix SlrFinal EntryProofs LooseProofs WholeProofs OutcomeProofs UselessProofs SpecPossible PossibleFacts PossibleParser SpecExactness.

(** What is computed by adding all that follows is the least set that is closed. *)
Lemma saturated {A} {da : DecEq A} (step : list A -> list A) (U l0 : list A) k : NoDup l0 -> incl l0 U -> (forall l, incl l U -> incl (step l) U) ->
  length U < 2 ^ k -> let l := more_all step k l0 in incl l0 l /\ incl (step l) l /\
  (forall P : A -> Prop, (forall x, In x l0 -> P x) -> (forall l1, (forall x, In x l1 -> P x) -> forall x, In x (step l1) -> P x) -> forall x, In x l -> P x).
Proof.
  intros Hn Hi Hs Hk l. destruct (more_all_spec step k l0 Hn) as (H1 & H2 & H3 & H4). fold l in H1, H2, H3, H4. split; [exact H2|]. split; [|exact H4].
  destruct H3 as [H3|H3]; [exact H3|exfalso]. assert (Hu : incl l U) by (intros y Hy; revert y Hy; apply (H4 (fun x => In x U)); [exact Hi|intros l1 Hl1 y Hy; exact (Hs l1 Hl1 y Hy)]).
  pose proof (NoDup_incl_length H1 Hu). lia.
Qed.

Section Sets.
  Context {V T : Type} {dv : DecEq V} {dt : DecEq T}.
  Notation sym := (symbol V T).
  Variable g : grammar V T.

  Lemma eqb_lawful : lawful (fun x y : T => eqb x y).
  Proof.
    split; [intros x; apply (eqb_eq x x); reflexivity|]. split; [intros x y E; apply (eqb_eq x y) in E; subst; apply (eqb_eq y y); reflexivity|].
    intros x y z E E'. apply (eqb_eq x y) in E. apply (eqb_eq y z) in E'. subst. apply (eqb_eq z z). reflexivity.
  Qed.
  Lemma in_rules v bd : In (v, bd) (all_rules g) <-> rule g v bd.
  Proof.
    unfold all_rules, rule. rewrite in_flat_map. split.
    - intros ([v' bds] & H1 & H2). cbn [fst snd] in H2. apply in_map_iff in H2. destruct H2 as (bd' & [= -> ->] & H2). eauto.
    - intros (bds & H1 & H2). exists (v, bds). split; [exact H1|]. cbn [fst snd]. apply in_map. exact H2.
  Qed.
  Lemma in_vars u (bd : list sym) : In u (vars_of bd) <-> In (Var u) bd.
  Proof.
    unfold vars_of. rewrite in_flat_map. split.
    - intros ([t|u'|] & H1 & H2); try destruct H2 as [<-|[]]; try destruct H2. exact H1.
    - intros H. exists (Var u). split; [exact H|left; reflexivity].
  Qed.
  Lemma forallb_sym l (bd : list sym) : forallb (sym_in l) bd = true <-> forall u, In (Var u) bd -> In u l.
  Proof.
    rewrite forallb_forall. split.
    - intros H u Hu. apply H in Hu. cbn in Hu. apply memb_in. exact Hu.
    - intros H [t|u|] Hs; try reflexivity. cbn. apply memb_in. apply H, Hs.
  Qed.

  (** ** Texts *)
  Lemma text_of (bd : list sym) : all_productive g bd -> exists w, steps g bd (map Ter w).
  Proof.
    induction bd as [|s bd IH]; intros H; [exists []; constructor|]. destruct IH as (w & Hw); [intros v Hv; apply H; right; exact Hv|].
    pose proof (steps_in_context g [s] [] _ _ Hw) as C. rewrite !app_nil_r in C. cbn [app] in C. destruct s as [t|v|].
    - exists (t :: w). exact C.
    - destruct (H v (or_introl eq_refl)) as (u & Hu). exists (u ++ w). rewrite map_app. eapply steps_trans; [exact C|].
      exact (steps_in_context g [] (map Ter w) _ _ Hu).
    - exists w. eapply steps_next; [exact C|]. exact (step_eps g [] (map Ter w)).
  Qed.
  Lemma rule_productive v bd : rule g v bd -> all_productive g bd -> productive g v.
  Proof.
    intros Hr H. destruct (text_of bd H) as (w & Hw). exists w. eapply steps_trans; [|exact Hw].
    eapply steps_next; [constructor|]. pose proof (step_rule g [] v bd [] Hr) as S. cbn in S. rewrite app_nil_r in S. exact S.
  Qed.

  Lemma productives_ok v : In v (productives g) <-> productive g v.
  Proof.
    destruct (saturated (fun l => flat_map (fun x : V * body V T => if forallb (sym_in l) (snd x) then [fst x] else []) (all_rules g))
      (map fst (all_rules g)) [] (bits (length (all_rules g)))) as (_ & H2 & H3).
    - constructor.
    - intros x [].
    - intros l _ x Hx. apply in_flat_map in Hx. destruct Hx as (y & Hy & Hx). destruct (forallb _ _); [|destruct Hx]. destruct Hx as [<-|[]]. apply in_map. exact Hy.
    - rewrite map_length. apply bits_more.
    - fold (productives g) in H2, H3. split.
      + intros H. revert v H. apply H3; [intros x []|]. intros l Hl x Hx. apply in_flat_map in Hx. destruct Hx as ([v bd] & Hy & Hx). cbn [fst snd] in Hx.
        destruct (forallb (sym_in l) bd) eqn:E; [|destruct Hx]. destruct Hx as [<-|[]]. apply in_rules in Hy. apply (rule_productive _ _ Hy).
        intros u Hu. apply Hl. apply (proj1 (forallb_sym l bd) E). exact Hu.
      + intros Hp. destruct (productive_tree _ eqb_lawful g v Hp) as (x & Hd & Hs).
        clear Hp. revert v Hs. induction x as [t|v' cs IH] using tree_ind2; intros v Hs; [destruct Hs|]. cbn in Hs. subst v'.
        inversion Hd as [|? bd ? R1 R2 R3]; subst. apply H2. apply in_flat_map. exists (v, bd). split; [apply in_rules; exact R1|]. cbn [fst snd].
        replace (forallb (sym_in (productives g)) bd) with true; [left; reflexivity|]. symmetry. apply forallb_sym. intros u Hu.
        assert (Hf : In (Var u) (filter not_eps bd)) by (apply filter_In; auto). clear Hu R1 Hd. induction R2 as [|s y ss ys S1 S2 IH2]; [destruct Hf|].
        inversion IH as [|? ? I1 I2]; inversion R3 as [|? ? D1 D2]; subst. destruct Hf as [->|Hf]; [exact (I1 D1 u S1)|exact (IH2 I2 D2 Hf)].
  Qed.
  Lemma productiveb_ok v : productiveb g v = true <-> productive g v.
  Proof. unfold productiveb. rewrite memb_in. apply productives_ok. Qed.
  Lemma all_productive_ok (bd : list sym) : forallb (sym_in (productives g)) bd = true <-> all_productive g bd.
  Proof. rewrite forallb_sym. split; intros H u Hu; apply productives_ok, H, Hu. Qed.

  (** ** Sentential forms *)
  Lemma reachable_in v bd u : reachable g v -> rule g v bd -> In (Var u) bd -> reachable g u.
  Proof.
    intros (l & r & H) Hr Hu. apply in_split in Hu. destruct Hu as (a & b & ->). exists (l ++ a), (b ++ r).
    eapply steps_next; [exact H|]. pose proof (step_rule g l v _ r Hr) as S. rewrite <- !app_assoc in *. cbn [app] in *. exact S.
  Qed.
  Lemma in_body_vars v bd u : rule g v bd -> In (Var u) bd -> In u (body_vars g).
  Proof. intros Hr Hu. unfold body_vars. apply in_flat_map. exists (v, bd). split; [apply in_rules; exact Hr|apply in_vars; exact Hu]. Qed.
  Lemma reachables_ok v : In v (reachables g) <-> reachable g v.
  Proof.
    destruct (saturated (fun l => flat_map (fun x : V * body V T => if memb (fst x) l then vars_of (snd x) else []) (all_rules g))
      (g_start g :: body_vars g) [g_start g] (bits (S (length (body_vars g))))) as (H1 & H2 & H3).
    - repeat constructor. intros [].
    - intros x [<-|[]]. left. reflexivity.
    - intros l _ x Hx. apply in_flat_map in Hx. destruct Hx as ([v' bd] & Hy & Hx). cbn [fst snd] in Hx. destruct (memb v' l); [|destruct Hx].
      right. apply in_rules in Hy. apply in_vars in Hx. eapply in_body_vars; eauto.
    - cbn [length]. apply bits_more.
    - fold (reachables g) in H1, H2, H3. split.
      + intros H. revert v H. apply H3.
        * intros x [<-|[]]. exists [], []. constructor.
        * intros l Hl x Hx. apply in_flat_map in Hx. destruct Hx as ([v' bd] & Hy & Hx). cbn [fst snd] in Hx. destruct (memb v' l) eqn:E; [|destruct Hx].
          apply memb_in in E. apply in_rules in Hy. apply in_vars in Hx. eapply reachable_in; eauto.
      + intros (l & r & H). destruct (form_before g _ H l v r eq_refl) as (w & B & _). clear l r H.
        induction B as [|h w l v r _ IH Hr]; [apply H1; left; reflexivity|]. apply H2. apply in_flat_map. exists (h, l ++ Var v :: r).
        split; [apply in_rules; exact Hr|]. cbn [fst snd]. replace (memb h (reachables g)) with true by (symmetry; apply memb_in; exact IH).
        apply in_vars. apply in_or_app. right. left. reflexivity.
  Qed.
  Lemma freeb_ok : freeb g = true <-> epsilon_free g.
  Proof.
    unfold freeb. rewrite forallb_forall. split.
    - intros H v bd Hv Hr He. apply in_rules in Hr. apply H in Hr. cbn [fst snd] in Hr. apply orb_true_iff in Hr. rewrite !negb_true_iff in Hr. destruct Hr as [Hr|Hr].
      + apply reachables_ok, memb_in in Hv. congruence.
      + assert (existsb is_epsilon bd = true) by (apply existsb_exists; exists Eps; auto). congruence.
    - intros H [v bd] Hr. apply in_rules in Hr. cbn [fst snd]. apply orb_true_iff. rewrite !negb_true_iff. destruct (memb v (reachables g)) eqn:E; [right|left; reflexivity].
      apply memb_in, reachables_ok in E. destruct (existsb is_epsilon bd) eqn:E'; [exfalso|reflexivity]. apply existsb_exists in E'.
      destruct E' as ([t|u|] & Hs & E'); try discriminate. exact (H v bd E Hr Hs).
  Qed.
  Lemma trimb_ok : trimb g = true <-> forall v, reachable g v -> productive g v.
  Proof.
    unfold trimb. rewrite forallb_forall. split.
    - intros H v Hv. apply productiveb_ok, H, reachables_ok, Hv.
    - intros H v Hv. apply productiveb_ok, H, reachables_ok, Hv.
  Qed.

  (** ** What stands before *)
  Lemma in_places v c : forall bd b, In (v, c) (places g b bd) <-> exists l r, bd = l ++ Var v :: r /\ all_productive g l /\ c = match l with [] => b | _ => true end.
  Proof.
    induction bd as [|s bd IH]; intros b; cbn [places].
    - split; [intros []|]. intros ([|? ?] & r & E & _); discriminate.
    - rewrite in_app_iff. split.
      + intros [H|H].
        * destruct s as [t|u|]; [destruct H| |destruct H]. destruct H as [H|[]]. injection H as -> ->. exists [], bd. split; [reflexivity|]. split; [intros ? []|reflexivity].
        * destruct (sym_in (productives g) s) eqn:E; [|destruct H]. apply IH in H. destruct H as (l & r & -> & Hl & ->). exists (s :: l), r.
          split; [reflexivity|]. split; [|destruct l; reflexivity]. apply all_productive_ok. cbn [forallb]. rewrite E. apply all_productive_ok. exact Hl.
      + intros ([|s' l] & r & E & Hl & ->).
        * injection E as -> ->. left. left. reflexivity.
        * injection E as <- ->. right. apply all_productive_ok in Hl. cbn [forallb] in Hl. apply andb_true_iff in Hl. destruct Hl as (E & Hl). rewrite E.
          apply IH. exists l, r. split; [reflexivity|]. split; [apply all_productive_ok; exact Hl|destruct l; reflexivity].
  Qed.
  Definition some_before (w : list sym) : bool := match w with [] => false | _ => true end.
  Lemma fronts_ok v b : In (v, b) (fronts g) <-> exists w, before g v w /\ all_productive g w /\ b = some_before w.
  Proof.
    destruct (saturated (fun l => flat_map (fun y : V * bool => flat_map (fun x : V * body V T => if eqb (fst x) (fst y) then places g (snd y) (snd x) else []) (all_rules g)) l)
      (list_prod (g_start g :: body_vars g) [true; false]) [(g_start g, false)] (bits (2 * S (length (body_vars g))))) as (H1 & H2 & H3).
    - repeat constructor. intros [].
    - intros x [<-|[]]. apply in_prod; cbn; auto.
    - intros l _ [v' c] Hx. apply in_flat_map in Hx. destruct Hx as ([h b'] & Hy & Hx). apply in_flat_map in Hx. destruct Hx as ([h' bd] & Hz & Hx). cbn [fst snd] in Hx.
      destruct (eqb h' h) eqn:E; [|destruct Hx]. apply in_places in Hx. destruct Hx as (l' & r & -> & _). apply in_rules in Hz. apply in_prod; [|destruct c; cbn; auto].
      right. eapply in_body_vars; [exact Hz|]. apply in_or_app. right. left. reflexivity.
    - rewrite prod_length. cbn [length]. rewrite Nat.mul_comm. apply bits_more.
    - fold (fronts g) in H1, H2, H3. split.
      + intros H. cut (exists w, before g (fst (v, b)) w /\ all_productive g w /\ snd (v, b) = some_before w); [exact (fun h => h)|].
        revert H. generalize (v, b) as x. apply (H3 (fun x => exists w, before g (fst x) w /\ all_productive g w /\ snd x = some_before w)).
        * intros x [<-|[]]. exists []. split; [constructor|]. split; [intros ? []|reflexivity].
        * intros l Hl [v' c] Hx. apply in_flat_map in Hx. destruct Hx as ([h b'] & Hy & Hx). apply in_flat_map in Hx. destruct Hx as ([h' bd] & Hz & Hx). cbn [fst snd] in *.
          destruct (eqb h' h) eqn:E; [|destruct Hx]. apply (eqb_eq h' h) in E. subst h'. apply in_places in Hx. destruct Hx as (l' & r & -> & Hl' & ->). apply in_rules in Hz.
          destruct (Hl _ Hy) as (w & B & Hw & Eb). cbn [fst snd] in B, Eb. exists (w ++ l'). split; [econstructor; eauto|].
          split; [intros u Hu; apply in_app_or in Hu; destruct Hu; auto|]. subst b'. destruct l' as [|s l']; [rewrite app_nil_r; reflexivity|destruct w; reflexivity].
      + intros (w & B & Hw & ->). induction B as [|h w l v r _ IH Hr]; [apply H1; left; reflexivity|]. apply H2. apply in_flat_map.
        exists (h, some_before w). split; [apply IH; intros u Hu; apply Hw, in_or_app; left; exact Hu|]. apply in_flat_map. exists (h, l ++ Var v :: r). split; [apply in_rules; exact Hr|].
        cbn [fst snd]. rewrite (proj2 (eqb_eq h h) eq_refl). apply in_places. exists l, r. split; [reflexivity|].
        split; [intros u Hu; apply Hw, in_or_app; right; exact Hu|]. destruct l as [|s l]; [rewrite app_nil_r; reflexivity|destruct w; reflexivity].
  Qed.
  Lemma before_form v w : before g v w -> exists r, steps g [Var (g_start g)] (w ++ Var v :: r).
  Proof.
    induction 1 as [|h w l v r _ (r' & IH) Hr]; [exists []; constructor|]. exists (r ++ r'). eapply steps_next; [exact IH|].
    pose proof (step_rule g w h _ r' Hr) as S. rewrite <- !app_assoc in *. cbn [app] in *. exact S.
  Qed.
  Lemma endsb_ok : endsb g = true <-> ends g.
  Proof.
    unfold endsb, ends. rewrite forallb_forall. split.
    - intros H bd Hr Hp. apply in_rules in Hr. apply H in Hr. cbn [fst snd] in Hr. apply orb_true_iff in Hr. destruct Hr as [Hr|Hr].
      + apply orb_true_iff in Hr. rewrite !negb_true_iff in Hr. destruct Hr as [Hr|Hr]; [|apply all_productive_ok in Hp; congruence].
        rewrite (proj2 (eqb_eq (g_start g) (g_start g)) eq_refl) in Hr. discriminate.
      + destruct (rev bd) as [|[t|u|] l] eqn:E; try discriminate. exists (rev l), t. rewrite <- (rev_involutive bd), E. reflexivity.
    - intros H [v bd] Hr. apply in_rules in Hr. cbn [fst snd]. destruct (eqb v (g_start g)) eqn:E; [|reflexivity]. apply (eqb_eq v (g_start g)) in E. subst v.
      destruct (forallb (sym_in (productives g)) bd) eqn:E; [|reflexivity]. apply all_productive_ok in E. destruct (H bd Hr E) as (b & t & ->).
      rewrite rev_app_distr. reflexivity.
  Qed.
  Lemma frontb_ok : epsilon_free g -> frontb g = true <-> front g.
  Proof.
    intros Heps. unfold frontb, front. rewrite negb_true_iff. split.
    - intros H l r Hs Hl. destruct (form_before g _ Hs _ _ _ eq_refl) as (w & B & Sw).
      destruct (before_trees g _ eqb_lawful Heps _ _ B Sw Hl) as (xs & X1 & X2). pose proof (all_of g _ _ _ X1 X2) as Hw.
      destruct w as [|s w]; [exact (empty_steps g _ Sw)|exfalso]. assert (Hin : In (g_start g, true) (fronts g)) by (apply fronts_ok; eauto).
      apply memb_in in Hin. congruence.
    - intros H. destruct (memb (g_start g, true) (fronts g)) eqn:E; [exfalso|reflexivity]. apply memb_in, fronts_ok in E. destruct E as (w & B & Hw & E).
      destruct (before_form _ _ B) as (r & Hr). rewrite (H _ _ Hr Hw) in E. discriminate.
  Qed.
End Sets.

(** ** The decision *)
Section Decision.
  Context {V T : Type} {dv : DecEq V} {dt : DecEq T} {ho : HashOrder}.
  Variables (teq : T -> T -> bool) (g : grammar V T) (fuel : nat) (p : list nat) (tb : table V T) (ks : list T).
  Hypotheses (Ht : lawful teq) (Hb : built g) (Hnew : slr_new teq fuel p g = Val tb) (Hk : covering teq tb ks).

  Lemma exactb_free : epsilon_free g -> exact_parser g teq tb <-> exactb g teq tb ks = true.
  Proof.
    intros He. rewrite (useless_one g Hb teq Ht He fuel p tb Hnew). unfold exactb. rewrite (proj2 (freeb_ok g) He). cbn [andb].
    rewrite orb_true_iff, negb_true_iff, !andb_true_iff, (frontb_ok g He), endsb_ok. destruct (possible_any teq g fuel p tb Ht Hb Hnew ks Hk) as (P & _). rewrite <- P.
    destruct (productiveb g (g_start g)) eqn:E.
    - apply productiveb_ok in E. split.
      + intros H. right. destruct (H E) as (H1 & H2 & f & ts & n & H3). eauto 8.
      + intros [H|((H1 & H2) & ts & f & n & H3)] _; [discriminate|]. eauto 8.
    - split; [auto|]. intros _ H. apply productiveb_ok in H. congruence.
  Qed.
  Lemma exactb_decides : (epsilon_free g \/ forall v, reachable g v -> productive g v) -> exact_parser g teq tb <-> exactb g teq tb ks = true.
  Proof.
    intros [He|Hp]; [apply exactb_free, He|]. split.
    - intros H. apply exactb_free; [|exact H]. apply (proj1 (any_one_exact g Hb teq Ht Hp fuel p tb Hnew) H).
    - intros H. apply exactb_free; [|exact H]. apply freeb_ok. unfold exactb in H. apply andb_true_iff in H. apply H.
  Qed.
  (** The hypothesis is computed too. *)
  Lemma exactb_told : freeb g || trimb g = true -> exact_parser g teq tb <-> exactb g teq tb ks = true.
  Proof. rewrite orb_true_iff, freeb_ok, trimb_ok. apply exactb_decides. Qed.
  Lemma exactb_sound : exactb g teq tb ks = true -> exact_parser g teq tb.
  Proof. intros H. apply exactb_free; [|exact H]. apply freeb_ok. unfold exactb in H. apply andb_true_iff in H. apply H. Qed.
End Decision.
