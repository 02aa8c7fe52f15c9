(** The parsers of the grammars of finite automata (C96). *)
From Verif Require Import Base GrammarModel CfsmModel SlrModel SpecCfg SpecWrap GrammarProofs WrapProofs SlrMoves SpecRegular RegularProofs SlrNew.

(** ** The left linear grammar *)

Section Exact.
  Context {Q T : Type} {dq : DecEq Q} {dt : DecEq T}.
  Variable teq : T -> T -> bool.
  Hypothesis Hteq : lawful teq.

  Lemma rules_count (d : machine Q T) e o w : build (do_calls (wrapped (left_linear d) Whole Goal e o)) = Val w ->
    length (g_rules w) <= length (d_edges d) + 2.
  Proof.
    intros H. destruct (build_contents _ _ H) as (_ & Hr & Hn & Hb).
    replace (length (d_edges d) + 2) with (length (Goal :: Whole :: map (fun x => At (snd x)) (d_edges d))) by (cbn; rewrite map_length; lia).
    rewrite <- (map_length fst (g_rules w)). apply NoDup_incl_length; auto. intros v Hv.
    apply in_map_iff in Hv. destruct Hv as ([v' bds] & E & Hi). cbn in E. subst v'.
    destruct (Hb _ _ Hi) as [_ Nb]. destruct bds as [|bd bds]; [congruence|].
    assert (Ha : rule w v bd) by (exists (bd :: bds); split; auto; left; reflexivity).
    apply Hr, added_wrapped in Ha. destruct Ha as [Ha|[-> _]]; [|left; reflexivity].
    apply added_left in Ha. assert (Hat : forall q a p, In (q, a, p) (d_edges d) -> In (At p) (map (fun x => At (snd x)) (d_edges d))).
    { intros q a p He. apply in_map_iff. exists (q, a, p). auto. }
    destruct Ha; cbn; eauto.
  Qed.

  Lemma left_exact (d : machine Q T) e o : deterministic teq d -> trim teq d -> d_edges d <> [] ->
    unlabelled teq d e -> unlabelled teq d o -> teq o e = false ->
    exists w, build (do_calls (wrapped (left_linear d) Whole Goal e o)) = Val w /\
      forall (ho : HashOrder) p, exists n tb, (forall fuel, n <= fuel -> slr_new teq fuel p w = Val tb) /\
        forall us, (forall t, In t us -> teq o t = false) -> exists r,
          (forall fuel, (2 * length us + 1) * (length (d_edges d) + 3) + 1 <= fuel -> parse teq fuel tb us = Val r) /\
          (r <> None <-> exists ts e', us = ts ++ [e'] /\ teq e e' = true /\ ts <> [] /\ takes teq d ts).
  Proof.
    intros Hd Ht Hs He Ho Heo. destruct (left_builds teq d Ht Hs) as (g & Hg).
    pose proof (left_start d g Hg) as Eg.
    destruct (wrapped_builds _ _ Goal e o Hg) as (w & Hw). rewrite Eg in Hw. exists w. split; [exact Hw|]. intros ho p.
    assert (Hw' : build (do_calls (wrapped (left_linear d) (g_start g) Goal e o)) = Val w) by (rewrite Eg; exact Hw).
    assert (Hz : fresh_variable g Goal).
    { intros v bd Hr. apply (left_rule d g Hg) in Hr. destruct Hr; (split; [discriminate|cbn; intuition discriminate]). }
    assert (Hf : forall x, unlabelled teq d x -> fresh_terminal teq g x).
    { intros x Hx v bd t Hr Hi. apply (left_rule d g Hg) in Hr.
      destruct Hr as [a q H|q a q' H E|f H E]; cbn in Hi; repeat (destruct Hi as [Hi|Hi]; [try discriminate; injection Hi as <-; eauto|]); destruct Hi. }
    destruct (wrapped_new teq Hteq _ g w Goal e o p Hg Hw' Hz (Hf e He) (Hf o Ho) Heo) as (n & r & Hn & [[_ Hc]|(tb & -> & _)]).
    { destruct (left_no_clash teq Hteq d Hd g Hg Hc). }
    exists n, tb. split; auto. intros us Hu.
    pose proof (wrapped_parse_any teq Hteq _ g w Goal e o n p tb us Hg Hw' Hz (left_clean teq Hteq d Ht g Hg) (Hn n (le_n n)) Hu) as H.
    cbv zeta in H. pose proof (rules_count d e o w Hw) as Hlen.
    assert (Hle : (2 * length us + 1) * (length (g_rules w) + 1) + 1 <= (2 * length us + 1) * (length (d_edges d) + 3) + 1) by nia.
    destruct H as [(ts & e' & x & E & Ee & Hx & Hp)|(Hx & Hp)].
    - eexists. split; [intros fuel Hfuel; apply Hp; lia|]. split; [|discriminate]. intros _. exists ts, e'. split; auto. split; auto.
      apply (left_words teq d g Hg). eauto.
    - exists None. split; [intros fuel Hfuel; apply Hp; lia|]. split; [congruence|]. intros (ts & e' & E & Ee & Ht').
      apply (left_words teq d g Hg) in Ht'. destruct Ht' as (x & Ht'). destruct (Hx _ _ _ E Ee Ht').
  Qed.
End Exact.

(** ** Removing useless edges *)

Section Close.
  Context {Q : Type} {dq : DecEq Q}.
  Variable es : list (Q * Q).

  Inductive way : Q -> Q -> Prop :=
  | way_none : forall q, way q q
  | way_more : forall q p p', way q p -> In (p, p') es -> way q p'.

  Lemma way_then q p p' : In (q, p) es -> way p p' -> way q p'.
  Proof. intros H W. induction W as [p|p p1 p2 W IH Hi]; [apply (way_more q q p); auto; constructor|]. eapply way_more; eauto. Qed.

  Definition out (R : list Q) : nat := length (filter (fun x => negb (memb (snd x) R)) es).

  Lemma filter_le {A} (f h : A -> bool) l : (forall x, f x = true -> h x = true) -> length (filter f l) <= length (filter h l).
  Proof. intros H. induction l as [|x l IH]; cbn; [lia|]. specialize (H x). destruct (f x), (h x); cbn; try lia; discriminate (H eq_refl). Qed.

  Lemma filter_lt {A} (f h : A -> bool) l x : (forall x, f x = true -> h x = true) -> In x l -> f x = false -> h x = true ->
    length (filter f l) < length (filter h l).
  Proof.
    intros H Hi E1 E2. induction l as [|y l IH]; [destruct Hi|]. cbn. destruct Hi as [->|Hi].
    - rewrite E1, E2. cbn. apply Nat.lt_succ_r. apply filter_le. auto.
    - specialize (IH Hi). pose proof (H y). destruct (f y), (h y); cbn; try lia; discriminate (H0 eq_refl).
  Qed.

  Lemma close n : forall R, out R <= n -> exists R', incl R R' /\ (forall x, In x R' -> exists s, In s R /\ way s x) /\
    forall p p', In p R' -> In (p, p') es -> In p' R'.
  Proof.
    induction n as [|n IH]; intros R Hn;
      (destruct (find (fun x => memb (fst x) R && negb (memb (snd x) R)) es) as [[p p']|] eqn:E;
       [apply find_some in E; destruct E as [Hi E]; apply andb_prop in E; destruct E as [E1 E2]; cbn in E1, E2|
        exists R; split; [intros x Hx; exact Hx|]; split; [intros x Hx; exists x; split; auto; constructor|];
        intros p p' Hp Hi; pose proof (find_none _ _ E _ Hi) as Hf; cbn in Hf; apply memb_in in Hp; rewrite Hp in Hf; cbn in Hf;
        apply memb_in; destruct (memb p' R); [reflexivity|discriminate]]).
    - exfalso. assert (out R <> 0); [|lia]. unfold out. intros E0. apply length_zero_iff_nil in E0.
      assert (Hf : In (p, p') (filter (fun x => negb (memb (snd x) R)) es)) by (apply filter_In; auto). rewrite E0 in Hf. destruct Hf.
    - destruct (IH (p' :: R)) as (R' & H1 & H2 & H3).
      + assert (out (p' :: R) < out R); [|lia]. apply (filter_lt _ _ _ (p, p')); auto.
        * intros [x y]. cbn [snd]. unfold memb. cbn [existsb]. destruct (eqb y p'); cbn; [discriminate|auto].
        * cbn [snd]. unfold memb. cbn [existsb]. rewrite eqb_refl. reflexivity.
      + exists R'. split; [intros x Hx; apply H1; right; auto|]. split; auto. intros x Hx.
        destruct (H2 _ Hx) as (s & [<-|Hs] & Hw); [|eauto]. exists p. split; [apply memb_in; auto|].
        eapply way_then; eauto.
  Qed.

  Lemma close_all R : exists R', incl R R' /\ (forall x, In x R' -> exists s, In s R /\ way s x) /\
    forall p p', In p R' -> In (p, p') es -> In p' R'.
  Proof. apply (close (out R)). lia. Qed.
End Close.

Section Trim.
  Context {Q T : Type} {dq : DecEq Q} {dt : DecEq T}.
  Variable teq : T -> T -> bool.
  Hypothesis Hteq : lawful teq.
  Variable d : machine Q T.

  Lemma way_leads q p : way (map (fun x => (fst (fst x), snd x)) (d_edges d)) q p -> exists w, leads teq d q w p.
  Proof.
    intros H. induction H as [q|q p p' H IH Hi]; [exists []; constructor|]. destruct IH as (w & Hw).
    apply in_map_iff in Hi. destruct Hi as ([[x a] y] & [= <- <-] & Hi). exists (w ++ [a]). eapply leads_more; eauto. apply (proj1 Hteq).
  Qed.

  Lemma way_back q p : way (map (fun x => (snd x, fst (fst x))) (d_edges d)) q p -> exists w, leads teq d p w q.
  Proof.
    intros H. induction H as [q|q p p' H IH Hi]; [exists []; constructor|]. destruct IH as (w & Hw).
    apply in_map_iff in Hi. destruct Hi as ([[x a] y] & [= <- <-] & Hi). exists (a :: w). eapply leads_cons; eauto. apply (proj1 Hteq).
  Qed.

  Lemma trimmed : exists d' : machine Q T, d_start d' = d_start d /\ incl (d_edges d') (d_edges d) /\ trim teq d' /\
    forall w, takes teq d' w <-> takes teq d w.
  Proof.
    destruct (close_all (map (fun x => (fst (fst x), snd x)) (d_edges d)) [d_start d]) as (F & F1 & F2 & F3).
    destruct (close_all (map (fun x => (snd x, fst (fst x))) (d_edges d)) (d_final d)) as (B & B1 & B2 & B3).
    set (d' := {| d_start := d_start d; d_edges := filter (fun x => memb (fst (fst x)) F && memb (snd x) B) (d_edges d); d_final := d_final d |}).
    assert (Hin : forall q a p, In (q, a, p) (d_edges d') <-> In (q, a, p) (d_edges d) /\ In q F /\ In p B).
    { intros q a p. cbn. rewrite filter_In, andb_true_iff, !memb_in. cbn. tauto. }
    assert (HF : forall q a p, In (q, a, p) (d_edges d) -> In q F -> In p F).
    { intros q a p Hi Hq. apply (F3 q p Hq). apply in_map_iff. exists (q, a, p). auto. }
    assert (HB : forall q a p, In (q, a, p) (d_edges d) -> In p B -> In q B).
    { intros q a p Hi Hq. apply (B3 p q Hq). apply in_map_iff. exists (q, a, p). auto. }
    assert (Hl : forall q w p, leads teq d q w p -> In q F -> In p F).
    { intros q w p H Hq. induction H; eauto. }
    assert (Hkeep : forall q w p, leads teq d q w p -> In q F -> In p B -> leads teq d' q w p).
    { intros q w p H Hq. induction H as [|w p a t p' H IH Hi Ht]; intros Hp; [constructor|].
      eapply leads_more; [apply IH; eauto| |eauto]. apply Hin. split; [|split]; eauto. }
    assert (Hdrop : forall q w p, leads teq d' q w p -> leads teq d q w p).
    { intros q w p H. induction H as [|w p a t p' H IH Hi Ht]; [constructor|]. apply Hin in Hi. eapply leads_more; eauto. tauto. }
    assert (Hs : In (d_start d) F) by (apply F1; left; reflexivity).
    exists d'. split; [reflexivity|]. split; [intros [[q a] p] Hi; apply Hin in Hi; tauto|]. split.
    - intros q a p Hi. apply Hin in Hi. destruct Hi as (Hi & Hq & Hp). split.
      + destruct (F2 _ Hq) as (s & [<-|[]] & Hw). destruct (way_leads _ _ Hw) as (w & Hw'). exists w. apply Hkeep; eauto.
      + destruct (B2 _ Hp) as (f & Hf & Hw). destruct (way_back _ _ Hw) as (w & Hw'). exists w, f. split; auto. apply Hkeep; eauto.
    - intros w. split; intros (f & Hf & Hw); exists f; split; auto.
  Qed.
End Trim.

(** ** Subsets *)

Section Subsets.
  Context {Q T : Type} {dq : DecEq Q} {dt : DecEq T}.
  Variable teq : T -> T -> bool.
  Hypothesis Hteq : lawful teq.

  Fixpoint subs {A} (l : list A) : list (list A) :=
    match l with [] => [[]] | x :: r => subs r ++ map (cons x) (subs r) end.

  Lemma filter_subs {A} (f : A -> bool) l : In (filter f l) (subs l).
  Proof.
    induction l as [|x l IH]; cbn; [auto|]. apply in_app_iff. destruct (f x); [right; apply in_map|left]; exact IH.
  Qed.

  Lemma chosen (l : list T) : exists c, incl c l /\ (forall t, In t l -> exists a, In a c /\ teq a t = true) /\
    forall a a', In a c -> In a' c -> teq a a' = true -> a = a'.
  Proof.
    destruct Hteq as (Hr & Hsym & Htr). induction l as [|t l (c & H1 & H2 & H3)].
    - exists []. split; [intros x []|]. split; [intros ? []|intros ? ? []].
    - destruct (existsb (fun a => teq a t) c) eqn:E.
      + apply existsb_exists in E. destruct E as (a & Ha & Et). exists c. split; [intros x Hx; right; auto|]. split; auto.
        intros t' [<-|Ht']; eauto.
      + assert (N : forall a, In a c -> teq a t <> true).
        { intros a Ha Et. enough (existsb (fun a => teq a t) c = true) by congruence. apply existsb_exists. eauto. }
        exists (t :: c). split; [intros x [<-|Hx]; [left|right]; auto|]. split.
        * intros t' [<-|Ht']; [exists t; split; [left|]; auto|]. destruct (H2 _ Ht') as (a & Ha & Et). exists a. split; [right|]; auto.
        * intros a a' [<-|Ha] [<-|Ha'] Et; auto; [destruct (N a'); auto|destruct (N a); auto].
  Qed.

  Variable d : machine Q T.

  Lemma determined : exists d' : machine (list Q) T, deterministic teq d' /\
    (forall S a P, In (S, a, P) (d_edges d') -> exists q p, In (q, a, p) (d_edges d)) /\ forall w, takes teq d' w <-> takes teq d w.
  Proof.
    destruct (chosen (map (fun x => snd (fst x)) (d_edges d))) as (c & C1 & C2 & C3).
    set (all := map snd (d_edges d)).
    set (next := fun (R : list Q) a => filter (fun p => existsb (fun x => memb (fst (fst x)) R && teq a (snd (fst x)) && eqb (snd x) p) (d_edges d)) all).
    set (states := [d_start d] :: subs all).
    set (d' := {| d_start := [d_start d]; d_edges := flat_map (fun R => map (fun a => (R, a, next R a)) c) states;
                  d_final := filter (existsb (fun q => memb q (d_final d))) states |}).
    assert (Hedge : forall R a P, In (R, a, P) (d_edges d') <-> In R states /\ In a c /\ P = next R a).
    { intros R a P. unfold d'. cbn [d_edges]. rewrite in_flat_map. split.
      - intros (R' & HR & Hi). apply in_map_iff in Hi. destruct Hi as (a' & [= <- <- <-] & Ha). auto.
      - intros (HR & Ha & ->). exists R. split; auto. apply in_map_iff. eauto. }
    assert (Hnext : forall R a p, In p (next R a) <-> exists q b, In (q, b, p) (d_edges d) /\ In q R /\ teq a b = true).
    { intros R a p. unfold next. rewrite filter_In, existsb_exists. split.
      - intros (_ & [[q b] p'] & Hi & E). cbn in E. rewrite !andb_true_iff, memb_in, eqb_eq in E. destruct E as [[E1 E2] ->]. eauto.
      - intros (q & b & Hi & Hq & Et). split; [apply in_map_iff; exists (q, b, p); auto|]. exists (q, b, p). split; auto.
        cbn. rewrite !andb_true_iff, memb_in, eqb_eq. auto. }
    assert (Hst : forall R a, In (next R a) states) by (intros R a; right; apply filter_subs).
    destruct Hteq as (Hr & Hsym & Htr).
    assert (Hset : forall R0 w R, leads teq d' R0 w R -> R0 = [d_start d] -> In R states /\ forall p, In p R <-> leads teq d (d_start d) w p).
    { intros R0 w R H E. induction H as [|w R a t R' H IH Hi Ht].
      - subst. split; [left; reflexivity|]. intros p. split.
        + intros [<-|[]]. constructor.
        + intros H. inversion H as [|w0 p0 a0 t0 p1 H1 H2 H3 E1 E2]; subst; [left; reflexivity|]. destruct w0; discriminate.
      - destruct IH as (HR & Hp). apply Hedge in Hi. destruct Hi as (_ & Ha & ->). split; auto. intros p. rewrite Hnext. split.
        + intros (q & b & Hi & Hq & Et). apply (leads_more teq d _ w q b); auto; [apply Hp; auto|]. eapply Htr; eauto.
        + intros Hl. inversion Hl as [E1 E2|w0 p0 a0 t0 p1 H1 H2 H3 E1 E2]; subst; [destruct w; discriminate|].
          apply app_inj_tail in E1. destruct E1 as [-> ->]. exists p0, a0. split; auto. split; [apply Hp; auto|]. eapply Htr; eauto. }
    assert (Hgo : forall q w p, leads teq d q w p -> q = d_start d -> exists R, leads teq d' [d_start d] w R).
    { intros q w p H E. induction H as [|w p a t p' H IH Hi Ht]; [exists [d_start d]; constructor|].
      destruct IH as (R & HR). destruct (Hset _ _ _ HR eq_refl) as (HS & _).
      destruct (C2 a) as (b & Hb & Et); [apply in_map_iff; exists (p, a, p'); auto|].
      exists (next R b). apply (leads_more teq d' _ w R b); auto. 2: eapply Htr; eauto. apply Hedge. auto. }
    exists d'. split; [|split].
    - intros R a P R' a' P' H H' Et. apply Hedge in H, H'. destruct H as (_ & Ha & ->), H' as (_ & Ha' & ->).
      assert (a = a') by auto. subst. split; auto. intros ->. reflexivity.
    - intros R a P H. apply Hedge in H. destruct H as (_ & Ha & _). apply C1 in Ha. apply in_map_iff in Ha.
      destruct Ha as ([[q b] p] & E & Hi). cbn in E. subst. eauto.
    - intros w. split.
      + intros (R & Hf & Hl). destruct (Hset _ _ _ Hl eq_refl) as (_ & Hp). unfold d' in Hf. cbn [d_final] in Hf. apply filter_In in Hf. destruct Hf as (_ & E).
        apply existsb_exists in E. destruct E as (f & Hi & Hm). apply memb_in in Hm. exists f. split; auto. apply Hp; auto.
      + intros (f & Hf & Hl). destruct (Hgo _ _ _ Hl eq_refl) as (R & HR). destruct (Hset _ _ _ HR eq_refl) as (HS & Hp).
        exists R. split; auto. unfold d'. cbn [d_final]. apply filter_In. split; auto. apply existsb_exists. exists f. split; [apply Hp; auto|apply memb_in; auto].
  Qed.
End Subsets.

Section Every.
  Context {Q T : Type} {dq : DecEq Q} {dt : DecEq T}.
  Variable teq : T -> T -> bool.
  Hypothesis Hteq : lawful teq.

  Lemma every_machine (d : machine Q T) e o : (exists w, w <> [] /\ takes teq d w) ->
    unlabelled teq d e -> unlabelled teq d o -> teq o e = false ->
    exists (cs : list (call (place (list Q)) T)) w, build (do_calls cs) = Val w /\
      forall (ho : HashOrder) p, exists n tb, (forall fuel, n <= fuel -> slr_new teq fuel p w = Val tb) /\
        forall us, (forall t, In t us -> teq o t = false) -> exists N r, (forall fuel, N <= fuel -> parse teq fuel tb us = Val r) /\
          (r <> None <-> exists ts e', us = ts ++ [e'] /\ teq e e' = true /\ ts <> [] /\ takes teq d ts).
  Proof.
    intros (w0 & Hw0 & Ht0) He Ho Heo. destruct (determined teq Hteq d) as (d1 & Hdet & Hlab & Htake).
    destruct (trimmed teq Hteq d1) as (d2 & Es & Hinc & Htrim & Htake2).
    assert (Hu : forall x, unlabelled teq d x -> unlabelled teq d2 x).
    { intros x Hx q a p Hi. apply Hinc, Hlab in Hi. destruct Hi as (q' & p' & Hi). eauto. }
    destruct (left_exact teq Hteq d2 e o) as (w & Hw & H); auto.
    - intros q a p q' a' p' H H'. apply Hdet; auto.
    - apply Htake, Htake2 in Ht0. destruct Ht0 as (f & _ & Hl). destruct Hl as [|w p a t p' Hl Hi _]; [congruence|]. destruct (d_edges d2); [destruct Hi|discriminate].
    - exists (wrapped (left_linear d2) Whole Goal e o), w. split; auto. intros ho p. destruct (H ho p) as (n & tb & Hn & Hp). exists n, tb. split; auto.
      intros us Hus. destruct (Hp us Hus) as (r & Hr & Hrr). eexists _, r. split; [exact Hr|]. rewrite Hrr.
      split; intros (ts & e' & E1 & E2 & E3 & E4); exists ts, e'; repeat (split; auto); [apply Htake, Htake2|apply Htake2, Htake]; auto.
  Qed.
End Every.

(** ** The right linear grammar *)

Section Right.
  Context {Q T : Type} {dq : DecEq Q} {dt : DecEq T}.
  Variable teq : T -> T -> bool.
  Hypothesis Hteq : lawful teq.
  Variable d : machine Q T.
  Hypothesis Htrim : trim teq d.

  Definition leaves_it (q : Q) : Prop := exists a p, In (q, a, p) (d_edges d).

  Inductive r_rule : place Q -> body (place Q) T -> Prop :=
  | r_last : forall q a p, In (q, a, p) (d_edges d) -> In p (d_final d) -> r_rule (At q) [Ter a]
  | r_next : forall q a p, In (q, a, p) (d_edges d) -> leaves_it p -> r_rule (At q) [Ter a; Var (At p)].

  Lemma leaves_ok p : existsb (fun x => eqb (fst (fst x)) p) (d_edges d) = true <-> leaves_it p.
  Proof.
    rewrite existsb_exists. split.
    - intros ([[q a] p'] & Hi & E). cbn in E. apply eqb_eq in E. subst. exists a, p'. auto.
    - intros (a & p' & Hi). exists (p, a, p'). split; auto. cbn. apply eqb_refl.
  Qed.

  Lemma added_right v bd : added (right_linear d) v bd <-> r_rule v bd.
  Proof.
    unfold added, right_linear. split.
    - intros (bd' & Hi & ->). apply in_app_iff in Hi. destruct Hi as [Hi|[Hi|[]]]; [|discriminate].
      apply in_flat_map in Hi. destruct Hi as ([[q a] p] & He & Hi). apply in_app_iff in Hi. destruct Hi as [Hi|Hi].
      + change (existsb (eqb p) (d_final d)) with (memb p (d_final d)) in Hi.
        destruct (memb p (d_final d)) eqn:E; [|destruct Hi]. apply memb_in in E.
        destruct Hi as [[= <- <-]|[]]. econstructor; eauto.
      + destruct (existsb _ (d_edges d)) eqn:E; [|destruct Hi]. apply leaves_ok in E. destruct Hi as [[= <- <-]|[]]. constructor; auto.
    - intros H. exists bd. split; [|destruct H; reflexivity]. apply in_app_iff. left. apply in_flat_map. destruct H as [q a p H Hf|q a p H Hp].
      + exists (q, a, p). split; auto. apply memb_in in Hf. unfold memb in Hf. rewrite Hf. left. reflexivity.
      + exists (q, a, p). split; auto. apply leaves_ok in Hp. rewrite Hp. apply in_app_iff. right. left. reflexivity.
  Qed.

  Lemma leads_on q w p : leads teq d q w p -> q = p \/ leaves_it q.
  Proof. intros H. induction H as [|w p a t p' H IH Hi Ht]; auto. right. destruct IH as [->|]; auto. exists a, p'. auto. Qed.

  Lemma leaves_rule q : leaves_it q -> has_rule (right_linear d) (At q).
  Proof.
    intros (a & p & Hi). destruct (Htrim _ _ _ Hi) as (_ & w & f & Hf & Hl). destruct (leads_on _ _ _ Hl) as [->|Hp].
    - exists [Ter a]. apply added_right. econstructor; eauto.
    - exists [Ter a; Var (At p)]. apply added_right. constructor; auto.
  Qed.

  Lemma right_builds : d_edges d <> [] -> exists g, build (do_calls (right_linear d)) = Val g.
  Proof.
    intros Hs. apply build_ok. exists (At (d_start d)). split; [|split].
    - unfold right_linear. rewrite last_start_app. reflexivity.
    - apply leaves_rule. destruct (d_edges d) as [|[[q a] p] l] eqn:E; [congruence|].
      assert (Hi : In (q, a, p) (d_edges d)) by (rewrite E; left; reflexivity).
      destruct (Htrim _ _ _ Hi) as ((w & Hl) & _). destruct (leads_on _ _ _ Hl) as [->|H]; auto. exists a, p. auto.
    - intros v bd x Ha Hi. apply added_right in Ha. destruct Ha as [q a p H Hf|q a p H Hp]; cbn in Hi.
      + destruct Hi as [Hi|[]]. discriminate.
      + destruct Hi as [Hi|[Hi|[]]]; [discriminate|]. injection Hi as <-. apply leaves_rule. auto.
  Qed.

  Variable g : grammar (place Q) T.
  Hypothesis Hg : build (do_calls (right_linear d)) = Val g.

  Lemma right_rule v bd : rule g v bd <-> r_rule v bd.
  Proof. destruct (build_rules _ _ Hg) as [_ H]. rewrite H. apply added_right. Qed.

  Lemma right_start : g_start g = At (d_start d).
  Proof. destruct (build_rules _ _ Hg) as [H _]. unfold right_linear in H. rewrite last_start_app in H. cbn in H. congruence. Qed.

  Lemma right_items q w p : leads teq d q w p -> q = d_start d -> leaves_it p ->
    exists u, forall bd, rule g (At p) bd -> lr0 g u (At p, [], bd).
  Proof.
    intros H E. induction H as [|w p a t p' H IH Hi Ht]; intros Hp.
    - subst. exists []. intros bd Hr. rewrite <- right_start in *. apply (lr0_start g bd); auto. constructor.
      apply right_rule in Hr. destruct Hr; discriminate.
    - destruct (IH) as (u & Hu); [exists a, p'; auto|]. exists (u ++ [Ter a]). intros bd Hr.
      apply (lr0_close g _ (At p) [Ter a] (At p') [] bd); auto.
      + apply (lr0_goto g u (At p) [] (Ter a) [Var (At p')]); [|constructor; discriminate]. apply Hu. apply right_rule. constructor; auto.
      + constructor. apply right_rule in Hr. destruct Hr; discriminate.
  Qed.

  Lemma right_two q a p : In (q, a, p) (d_edges d) -> In p (d_final d) -> leaves_it p ->
    exists u, lr0 g u (At q, [], [Ter a]) /\ lr0 g u (At q, [], [Ter a; Var (At p)]).
  Proof.
    intros Hi Hf Hp. destruct (Htrim _ _ _ Hi) as ((w & Hl) & _).
    destruct (right_items _ _ _ Hl eq_refl) as (u & Hu); [exists a, p; auto|]. exists u.
    split; apply Hu; apply right_rule; econstructor; eauto.
  Qed.
End Right.

Section Rejected.
  Context {Q T : Type} {dq : DecEq Q} {dt : DecEq T}.
  Variable teq : T -> T -> bool.
  Hypothesis Hteq : lawful teq.

  Lemma right_rejected (d : machine Q T) q a p b p' : trim teq d ->
    In (q, a, p) (d_edges d) -> In p (d_final d) -> In (p, b, p') (d_edges d) ->
    exists g, build (do_calls (right_linear d)) = Val g /\
      forall (ho : HashOrder) at_, exists n, forall fuel, n <= fuel -> slr_new teq fuel at_ g = Panic.
  Proof.
    intros Ht Hi Hf Hi'. destruct (right_builds teq d Ht) as (g & Hg); [destruct (d_edges d); [destruct Hi|discriminate]|].
    exists g. split; auto. intros ho at_. destruct (right_two teq d Ht g Hg q a p Hi Hf) as (u & H1 & H2); [exists b, p'; auto|].
    destruct (slr_new_total teq Hteq g (ex_intro _ _ Hg) at_) as (n & r & H & [(E & _)|(tb & _ & Hc)]).
    - exists n. intros fuel Hle. rewrite H; auto.
    - exfalso. apply Hc. exists u, (At q, [], [Ter a]), (Some a), (At q, [], [Ter a; Var (At p)]), (Some a).
      split; [split; auto; reflexivity|]. split; [split; auto; reflexivity|]. split; [discriminate|]. cbn. apply (proj1 Hteq).
  Qed.

  Lemma right_rejected_end (d : machine Q T) q a p b p' e o : trim teq d ->
    In (q, a, p) (d_edges d) -> In p (d_final d) -> In (p, b, p') (d_edges d) ->
    unlabelled teq d e -> unlabelled teq d o -> teq o e = false ->
    exists g, build (do_calls (wrapped (right_linear d) (At (d_start d)) Goal e o)) = Val g /\
      forall (ho : HashOrder) at_, exists n, forall fuel, n <= fuel -> slr_new teq fuel at_ g = Panic.
  Proof.
    intros Ht Hi Hf Hi' He Ho Heo. destruct (right_builds teq d Ht) as (g & Hg); [destruct (d_edges d); [destruct Hi|discriminate]|].
    pose proof (right_start d g Hg) as Eg.
    destruct (wrapped_builds _ _ Goal e o Hg) as (w & Hw). pose proof Hw as Hw'. rewrite Eg in Hw'. exists w. split; [exact Hw'|]. intros ho at_.
    assert (Hz : fresh_variable g Goal).
    { intros v bd Hr. apply (right_rule d g Hg) in Hr. destruct Hr; (split; [discriminate|cbn; intuition discriminate]). }
    assert (Hu : forall x, unlabelled teq d x -> fresh_terminal teq g x).
    { intros x Hx v bd t Hr Hin. apply (right_rule d g Hg) in Hr.
      destruct Hr as [q1 a1 p1 H H'|q1 a1 p1 H H']; cbn in Hin; (destruct Hin as [Hin|Hin]; [injection Hin as <-; eauto|]).
      - destruct Hin.
      - destruct Hin as [Hin|[]]. discriminate. }
    destruct (right_two teq d Ht g Hg q a p Hi Hf) as (u & H1 & H2); [exists b, p'; auto|].
    destruct (wrapped_new teq Hteq _ g w Goal e o at_ Hg Hw Hz (Hu e He) (Hu o Ho) Heo) as (n & r & H & [(E & _)|(tb & _ & Hc)]).
    - exists n. intros fuel Hle. rewrite H; auto.
    - exfalso. apply Hc. left. exists u, (At q, [], [Ter a]), (Some a), (At q, [], [Ter a; Var (At p)]), (Some a).
      split; [split; auto; reflexivity|]. split; [split; auto; reflexivity|]. split; [discriminate|]. cbn. apply (proj1 Hteq).
  Qed.
End Rejected.
