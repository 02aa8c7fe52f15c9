(** What the answers say about patterns. *)
From Verif Require Import Base RegexModel SpecRegex RegexProofs NfaModel SpecNfa NfaLangProofs NfaProofs GrammarModel SpecKleene KleeneProofs
  LexerModel SpecLexer SpecLists SpecExact SpecHang HangProofs SpecQuery QueryProofs.
From Coq Require Import Lia.

Section Words.
  Context {env : Env}.

  Lemma cat_iff (A A' B B' : list char -> Prop) w : (forall u, A u <-> A' u) -> (forall u, B u <-> B' u) -> lang_cat A B w <-> lang_cat A' B' w.
  Proof.
    intros HA HB. split; intros (u & v & E & Hu & Hv); exists u, v; (split; [exact E|]); split; [apply HA|apply HB|apply HA|apply HB]; assumption.
  Qed.
  Lemma star_count r w : star (words r) w <-> exists n, lang_pow (words r) n w.
  Proof. rewrite star_words. split; intros (n & H); exists n; [apply H|auto]. Qed.

  Lemma r_begun_ok e : forall w, words (r_begun e) w <-> begun e w.
  Proof.
    induction e as [|e es IHe IHes| |l r IHl IHr|l q|e q IHe] using expr_cons_ind; intros w.
    - reflexivity.
    - change (words (Plus (r_begun e) (Times (r_lang e) (r_begun (EConcat es)))) w <-> begun e w \/ lang_cat (lang e) (begun (EConcat es)) w).
      cbn [words]. rewrite IHe. apply or_iff_compat_l. apply (cat_iff _ (lang e) _ (begun (EConcat es)) w (r_lang_ok e) IHes).
    - reflexivity.
    - cbn [r_begun begun words]. rewrite IHl, IHr. reflexivity.
    - destruct q as [q|]; cbn [r_begun begun words]; [|reflexivity]. apply (star_count (Sym l)).
    - destruct q as [q|]; cbn [r_begun begun]; [|apply IHe].
      change (words (Times (Star (r_lang e)) (r_begun e)) w) with (lang_cat (star (words (r_lang e))) (words (r_begun e)) w).
      split.
      + intros (u & v & E & Hu & Hv). apply star_count in Hu. destruct Hu as (n & Hn). exists n, u, v. split; [exact E|]. split; [|apply IHe; exact Hv].
        apply (pow_ext (words (r_lang e))); [intros x; apply r_lang_ok|exact Hn].
      + intros (n & u & v & E & Hu & Hv). exists u, v. split; [exact E|]. split; [|apply IHe; exact Hv]. apply star_count. exists n.
        apply (pow_ext (lang e)); [intros x; symmetry; apply r_lang_ok|exact Hu].
  Qed.
  Lemma front_ok e u : words (Plus (r_lit e) (r_rep e)) u <-> lit_first e u \/ rep_first e u.
  Proof. cbn [words]. rewrite r_lit_ok, r_rep_ok. reflexivity. Qed.

  Lemma r_impl_begun_ok e : forall w, words (r_impl_begun e) w <-> impl_begun e w.
  Proof.
    induction e as [|e es IHe IHes| |l r IHl IHr|l q|e q IHe] using expr_cons_ind; intros w.
    - reflexivity.
    - change (words (Plus (r_impl_begun e) (Plus (Times (Plus (r_lit e) (r_rep e)) (r_begun (EConcat es))) (if may_skip e then r_impl_begun (EConcat es) else Zero))) w <->
        impl_begun e w \/ lang_cat (fun u => lit_first e u \/ rep_first e u) (begun (EConcat es)) w \/ (skippable e /\ impl_begun (EConcat es) w)).
      change (words (r_impl_begun e) w \/ lang_cat (words (Plus (r_lit e) (r_rep e))) (words (r_begun (EConcat es))) w \/ words (if may_skip e then r_impl_begun (EConcat es) else Zero) w <->
        impl_begun e w \/ lang_cat (fun u => lit_first e u \/ rep_first e u) (begun (EConcat es)) w \/ (skippable e /\ impl_begun (EConcat es) w)).
      rewrite IHe, (cat_iff _ _ _ _ w (front_ok e) (r_begun_ok (EConcat es))), <- may_skip_skippable.
      destruct (may_skip e); [rewrite IHes; intuition|]. cbn [words]. intuition discriminate.
    - reflexivity.
    - cbn [r_impl_begun impl_begun words]. rewrite IHl, IHr. reflexivity.
    - apply (r_begun_ok (ELit l q)).
    - destruct q as [q|]; [|apply IHe].
      change (words (r_impl_begun e) w \/ lang_cat (words (Plus (r_lit e) (r_rep e))) (words (r_begun (EGroup e (Some q)))) w <->
        impl_begun e w \/ lang_cat (fun u => lit_first e u \/ rep_first e u) (begun (EGroup e (Some q))) w).
      rewrite IHe, (cat_iff _ _ _ _ w (front_ok e) (r_begun_ok (EGroup e (Some q)))). reflexivity.
  Qed.

  Lemma r_some_ok r : forall w, words (r_some r) w <-> words r w /\ w <> [].
  Proof.
    induction r as [| |l0|r IHr s IHs|r IHr s IHs|r IHr]; intros w; cbn [r_some words].
    - tauto.
    - split; [contradiction|]. intros [-> H]. congruence.
    - split; [|tauto]. intros (c & -> & Hc). split; [eauto|discriminate].
    - rewrite IHr, IHs. tauto.
    - split.
      + intros [(u & v & -> & Hu & Hv)|H].
        * apply IHr in Hu. destruct Hu as [Hu Hne]. split; [eauto|]. destruct u; [congruence|discriminate].
        * destruct (has_one r) eqn:E; [|destruct H]. apply IHs in H. destruct H as [H Hne]. split; [|exact Hne].
          exists [], w. split; [reflexivity|]. split; [apply has_one_ok; exact E|exact H].
      + intros [(u & v & -> & Hu & Hv) Hne]. destruct u as [|c u].
        * right. apply has_one_ok in Hu. rewrite Hu. apply IHs. split; assumption.
        * left. exists (c :: u), v. split; [reflexivity|]. split; [apply IHr; split; [exact Hu|discriminate]|exact Hv].
    - split.
      + intros (u & v & -> & Hu & Hv). apply IHr in Hu. destruct Hu as [Hu Hne]. split; [apply star_more; assumption|]. destruct u; [congruence|discriminate].
      + intros [H Hne]. destruct w as [|c w]; [congruence|]. apply star_first in H. destruct H as (u & v & -> & Hu & Hv).
        exists (c :: u), v. split; [reflexivity|]. split; [apply IHr; split; [exact Hu|discriminate]|exact Hv].
  Qed.
  Lemma r_char_ok w : words r_char w <-> exists c, w = [c].
  Proof. cbn. split; intros (c & H); [exists c; apply H|exists c; auto]. Qed.
  Lemma r_any_ok rs w : words (r_any rs) w <-> exists r, In r rs /\ words r w.
  Proof.
    induction rs as [|r rs IH]; cbn [r_any fold_right words].
    - split; [contradiction|intros (r & [] & _)].
    - fold (r_any rs). rewrite IH. split.
      + intros [H|(r' & H1 & H2)]; [exists r|exists r']; cbn; auto.
      + intros (r' & [<-|H1] & H2); [left; exact H2|right; eauto].
  Qed.
  Lemma r_matched_ok es w : words (r_matched es) w <-> matched impl_lang es w.
  Proof.
    unfold r_matched. rewrite r_any_ok. split.
    - intros (r & Hr & H). apply in_map_iff in Hr. destruct Hr as (e & <- & He). exists e. split; [exact He|]. apply r_impl_ok. exact H.
    - intros (e & He & H). exists (r_impl e). split; [apply in_map; exact He|]. apply r_impl_ok. exact H.
  Qed.
  Lemma r_feedable_ok es w : words (r_feedable es) w <-> feedable es w.
  Proof.
    unfold r_feedable, feedable. cbn [words]. rewrite r_any_ok. apply or_iff_compat_l. split.
    - intros (r & Hr & H). apply in_map_iff in Hr. destruct Hr as (e & <- & He). exists e. split; [exact He|]. apply r_impl_begun_ok. exact H.
    - intros (e & He & H). exists (r_impl_begun e). split; [apply in_map; exact He|]. apply r_impl_begun_ok. exact H.
  Qed.
  Lemma star_any w : star (words r_char) w.
  Proof. induction w as [|c w IH]; [constructor|]. apply (star_more _ [c] w); [apply r_char_ok; eauto|exact IH]. Qed.
End Words.

Section Questions.
  Context {env : Env} (bs : list N) (Hbs : changes bs is_alphabetic).
  Notation ok := (exists_text_ok bs Hbs).

  Lemma one_answer r : exists_text bs [r] (fun l => match l with [a] => a | _ => false end) = true <-> exists w, words r w.
  Proof.
    rewrite ok. split.
    - intros (w & l & H & E). inversion H as [|? a ? l1 Ha H1]; subst. inversion H1; subst. exists w. apply Ha. exact E.
    - intros (w & H). exists w, [true]. split; [|reflexivity]. constructor; [tauto|constructor].
  Qed.
  Lemma word_known r w : exists b, b = true <-> words r w.
  Proof. pose proof (answers_at [r] w) as H. unfold answers in H. inversion H; subst. eauto. Qed.
  Lemma two_answers r s phi : exists_text bs [r; s] (fun l => match l with [a; b] => phi a b | _ => false end) = true <->
    exists w a b, (a = true <-> words r w) /\ (b = true <-> words s w) /\ phi a b = true.
  Proof.
    rewrite ok. split.
    - intros (w & l & H & E). inversion H as [|? a ? l1 Ha H1]; subst. inversion H1 as [|? b ? l2 Hb H2]; subst. inversion H2; subst. exists w, a, b. auto.
    - intros (w & a & b & Ha & Hb & E). exists w, [a; b]. split; [|exact E]. repeat constructor; assumption || apply Ha || apply Hb.
  Qed.
  Lemma three_answers r s t phi : exists_text bs [r; s; t] (fun l => match l with [a; b; c] => phi a b c | _ => false end) = true <->
    exists w a b c, (a = true <-> words r w) /\ (b = true <-> words s w) /\ (c = true <-> words t w) /\ phi a b c = true.
  Proof.
    rewrite ok. split.
    - intros (w & l & H & E). inversion H as [|? a ? l1 Ha H1]; subst. inversion H1 as [|? b ? l2 Hb H2]; subst. inversion H2 as [|? c ? l3 Hc H3]; subst. inversion H3; subst.
      exists w, a, b, c. auto.
    - intros (w & a & b & c & Ha & Hb & Hc & E). exists w, [a; b; c]. split; [|exact E]. repeat constructor; apply Ha || apply Hb || apply Hc.
  Qed.

  Lemma differ_ok r s : exists_text bs [r; s] differ = false <-> forall w, words r w <-> words s w.
  Proof.
    rewrite <- Bool.not_true_iff_false. unfold differ. rewrite (two_answers r s xorb). split.
    - intros H w. destruct (word_known r w) as (a & Ha). destruct (word_known s w) as (b & Hb).
      rewrite <- Ha, <- Hb. destruct a, b; try tauto; exfalso; apply H; exists w; eexists _, _; (split; [exact Ha|split; [exact Hb|reflexivity]]).
    - intros H (w & a & b & Ha & Hb & E). rewrite (H w), <- Hb in Ha. destruct a, b; try discriminate; intuition discriminate.
  Qed.

  Lemma same_matches_ok e e' : same_matches bs e e' = true <-> forall w, impl_lang e w <-> impl_lang e' w.
  Proof.
    unfold same_matches. rewrite Bool.negb_true_iff, differ_ok. split; intros H w; specialize (H w); rewrite !r_impl_ok in *; exact H.
  Qed.
  Lemma as_written_ok e : as_written bs e = true <-> forall w, impl_lang e w <-> lang e w.
  Proof.
    unfold as_written. rewrite Bool.negb_true_iff, differ_ok. split; intros H w; specialize (H w); rewrite r_impl_ok, r_lang_ok in *; exact H.
  Qed.
  Lemma overlapping_ok e e' : overlapping bs e e' = true <-> overlap impl_lang e e'.
  Proof.
    unfold overlapping, both, overlap. rewrite (two_answers _ _ andb). split.
    - intros (w & a & b & Ha & Hb & E). apply andb_prop in E. destruct E as [-> ->]. exists w. rewrite r_some_ok, r_impl_ok in Ha. rewrite r_impl_ok in Hb. tauto.
    - intros (w & Hne & H1 & H2). exists w, true, true. rewrite r_some_ok, !r_impl_ok. tauto.
  Qed.
  Lemma hidden_ok before e : hidden bs before e = true <-> shadowed impl_lang before e.
  Proof.
    unfold hidden, one_only, shadowed. rewrite Bool.negb_true_iff, <- Bool.not_true_iff_false, (two_answers _ _ (fun a b => a && negb b)). split.
    - intros H x Hne Hx. destruct (word_known (r_matched before) x) as ([|] & Hb); [apply r_matched_ok, Hb; reflexivity|].
      exfalso. apply H. exists x, true, false. split; [rewrite r_some_ok, r_impl_ok; tauto|]. split; [exact Hb|reflexivity].
    - intros H (w & a & b & Ha & Hb & E). apply andb_prop in E. destruct E as [-> E]. destruct b; [discriminate|]. rewrite r_some_ok, r_impl_ok in Ha. rewrite r_matched_ok in Hb.
      destruct Ha as [Ha _]. destruct (Ha eq_refl) as [H1 H2]. destruct Hb as [_ Hb]. specialize (Hb (H w H2 H1)). discriminate.
  Qed.
  Lemma last_char (A : list char -> Prop) x : (exists u v, x = u ++ v /\ A u /\ exists c, v = [c]) <-> exists u c, x = u ++ [c] /\ A u.
  Proof. split; [intros (u & v & E & Hu & c & ->); eauto|intros (u & c & E & Hu); exists u, [c]; eauto]. Qed.

  Lemma munching_ok es : munching bs es = true <-> steady es.
  Proof.
    unfold munching, steady. rewrite Bool.negb_true_iff, <- Bool.not_true_iff_false, (three_answers _ _ _ (fun a b c => a && b && negb c)). split.
    - intros H u c Hne Hm Hf. destruct (word_known (r_matched es) (u ++ [c])) as ([|] & Hb); [apply r_matched_ok, Hb; reflexivity|].
      exfalso. apply H. exists (u ++ [c]), true, true, false. split; [split; [|reflexivity]; intros _|].
      { exists u, [c]. split; [reflexivity|]. rewrite r_some_ok, r_matched_ok. split; [tauto|apply r_char_ok; eauto]. }
      split; [rewrite r_feedable_ok; tauto|]. split; [exact Hb|reflexivity].
    - intros H (w & a & b & c & Ha & Hb & Hc & E). apply andb_prop in E. destruct E as [E Ec]. apply andb_prop in E. destruct E as [-> ->]. destruct c; [discriminate|].
      destruct Ha as [Ha _]. destruct (Ha eq_refl) as (u & v & -> & Hu & Hv). apply r_char_ok in Hv. destruct Hv as (d & ->). rewrite r_some_ok, r_matched_ok in Hu. rewrite r_matched_ok in Hc.
      rewrite r_feedable_ok in Hb. destruct Hc as [_ Hc]. assert (Hx : false = true); [|discriminate]. apply Hc. apply H; [apply Hu|apply Hu|apply Hb; reflexivity].
  Qed.

  Lemma stuck_ok es : stuck bs es = true <-> exists v c, dead_end impl_lang es v c.
  Proof.
    unfold stuck, dead_end. rewrite (three_answers _ _ _ (fun a b c => a && negb b && negb c)). split.
    - intros (w & a & b & c & Ha & Hb & Hc & E). apply andb_prop in E. destruct E as [E Ec]. apply andb_prop in E. destruct E as [-> Eb]. destruct b; [discriminate|]. destruct c; [discriminate|].
      destruct Ha as [Ha _]. destruct (Ha eq_refl) as (u & v & -> & Hu & Hv). apply r_char_ok in Hv. destruct Hv as (d & ->). exists u, d.
      split; [apply r_feedable_ok; exact Hu|]. split.
      + intros Hx. apply r_feedable_ok, Hb in Hx. discriminate.
      + intros v1 v2 E Hne Hm. assert (Hx : false = true); [|discriminate]. apply Hc. exists v1, (v2 ++ [d]). split; [rewrite E, <- app_assoc; reflexivity|].
        split; [apply r_some_ok; split; [apply r_matched_ok; exact Hm|exact Hne]|].
        destruct (v2 ++ [d]) as [|x y] eqn:Ex; [destruct v2; discriminate|]. exists [x], y. split; [reflexivity|]. split; [apply r_char_ok; eauto|apply star_any].
    - intros (v & c & Hf & Hn & Hp). exists (v ++ [c]), true, false, false. split; [split; [intros _|reflexivity]|].
      { exists v, [c]. split; [reflexivity|]. split; [apply r_feedable_ok; exact Hf|apply r_char_ok; eauto]. }
      split; [split; [discriminate|]; intros Hx; apply r_feedable_ok in Hx; contradiction|]. split; [|reflexivity]. split; [discriminate|].
      intros (u & t & E & Hu & (x & y & -> & Hx & _)). exfalso. apply r_some_ok in Hu. destruct Hu as [Hu Hne]. apply r_matched_ok in Hu. apply r_char_ok in Hx. destruct Hx as (d & ->).
      destruct y as [|z y] using rev_ind.
      + apply app_inj_tail in E. destruct E as [<- _]. apply (Hp v [] (eq_sym (app_nil_r v)) Hne Hu).
      + rewrite !app_assoc in E. apply app_inj_tail in E. destruct E as [E _]. rewrite <- app_assoc in E. exact (Hp u _ E Hne Hu).
  Qed.
  Lemma giving_ok es : giving bs es = true <-> exists u, u <> [] /\ matched impl_lang es u.
  Proof.
    unfold giving. rewrite one_answer. split; intros (u & H); exists u; [apply r_some_ok in H; rewrite r_matched_ok in H; tauto|].
    apply r_some_ok. rewrite r_matched_ok. tauto.
  Qed.
  Lemma ending_ok es : ending bs es = true <-> forall v c u, dead_end impl_lang es v c -> u <> [] -> ~ matched impl_lang es u.
  Proof.
    unfold ending. rewrite Bool.negb_true_iff, <- Bool.not_true_iff_false, Bool.andb_true_iff, stuck_ok, giving_ok. split.
    - intros H v c u Hd Hne Hm. apply H. split; eauto.
    - intros H [(v & c & Hd) (u & Hne & Hm)]. exact (H v c u Hd Hne Hm).
  Qed.

  (** The parameter of C117. *)
  Lemma fitting_ok l : fitting bs l = true <-> exists c, lit_set l c.
  Proof.
    unfold fitting. rewrite one_answer. split.
    - intros (w & c & _ & H). eauto.
    - intros (c & H). exists [c], c. auto.
  Qed.
  Lemma fitting_told e : told (fitting bs) e.
  Proof.
    induction e as [|e es IHe IHes| |l r IHl IHr|l q|e q IHe] using expr_cons_ind; cbn [told]; auto; apply fitting_ok.
  Qed.
End Questions.
