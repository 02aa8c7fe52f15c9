(** Proofs for C74. *)
From Verif Require Import Base GrammarModel CfsmModel SlrModel SpecCfg SpecWrap GrammarProofs FirstProofs GrammarTotal SlrRun SlrMoves SlrTerm SlrNew SlrFinal SlrLinear.
From Coq Require Import Lia.

Section Contents.
  Context {V T : Type} {dv : DecEq V} {dt : DecEq T}.

  Lemma last_start_app (cs cs' : list (call V T)) :
    last_start (cs ++ cs') = match last_start cs' with Some v => Some v | None => last_start cs end.
  Proof. induction cs as [|[v|v bd] cs IH]; cbn; [destruct (last_start cs'); auto| |exact IH]. rewrite IH. destruct (last_start cs'); auto. Qed.

  Lemma added_wrapped (cs : list (call V T)) s z e o v bd :
    added (wrapped cs s z e o) v bd <-> added cs v bd \/ (v = z /\ (bd = [Var s; Ter e] \/ bd = [Var z; Ter o])).
  Proof.
    unfold added, wrapped. split.
    - intros (bd' & Hi & ->). apply in_app_iff in Hi. destruct Hi as [Hi|[E|[E|[E|[]]]]]; [left; eauto| | |discriminate];
        injection E as <- <-; right; auto.
    - intros [(bd' & Hi & ->)|(-> & [->| ->])].
      + exists bd'. split; auto. apply in_app_iff. auto.
      + exists [Var s; Ter e]. split; auto. apply in_app_iff. cbn. auto.
      + exists [Var z; Ter o]. split; auto. apply in_app_iff. cbn. auto.
  Qed.

  Lemma build_wrapped cs (g : grammar V T) z e o : build (do_calls cs) = Val g ->
    exists w, build (do_calls (wrapped cs (g_start g) z e o)) = Val w /\ g_start w = z /\
      forall v bd, rule w v bd <-> rule g v bd \/ (v = z /\ (bd = [Var (g_start g); Ter e] \/ bd = [Var z; Ter o])).
  Proof.
    intros H. assert (Hcl : closed_calls cs) by (apply build_ok; eauto). destruct (build_contents _ _ H) as (Hs & Hr & _).
    destruct Hcl as (s & Es & Hh & Hc). rewrite Hs in Es. injection Es as <-.
    assert (Hcl : closed_calls (wrapped cs (g_start g) z e o)).
    { assert (Hup : forall v, has_rule cs v -> has_rule (wrapped cs (g_start g) z e o) v).
      { intros v (bd & Hb). exists bd. apply added_wrapped. auto. }
      assert (Hz : has_rule (wrapped cs (g_start g) z e o) z).
      { exists [Var z; Ter o]. apply added_wrapped. auto. }
      exists z. split; [unfold wrapped; rewrite last_start_app; reflexivity|]. split; auto.
      intros v bd x Ha Hi. apply added_wrapped in Ha. destruct Ha as [Ha|(-> & [->| ->])].
      - eauto.
      - destruct Hi as [[= <-]|[|[]]]; [auto|discriminate].
      - destruct Hi as [[= <-]|[|[]]]; [auto|discriminate]. }
    apply build_ok in Hcl. destruct Hcl as (w & E). exists w. split; auto.
    destruct (build_contents _ _ E) as (Hs' & Hr' & _). split.
    - unfold wrapped in Hs'. rewrite last_start_app in Hs'. cbn in Hs'. congruence.
    - intros v bd. rewrite Hr', Hr. apply added_wrapped.
  Qed.
End Contents.

Section Wrapped.
  Context {V T : Type} {dv : DecEq V} {dt : DecEq T}.
  Variable teq : T -> T -> bool.
  Hypothesis Hteq : lawful teq.
  Variables (g w : grammar V T) (e o : T).
  Hypothesis Hbg : built g.
  Hypothesis Hbw : built w.
  Notation z := (g_start w).
  Notation s := (g_start g).
  Hypothesis Hrule : forall v bd, rule w v bd <-> rule g v bd \/ (v = z /\ (bd = [Var s; Ter e] \/ bd = [Var z; Ter o])).
  Hypothesis Hz : fresh_variable g z.
  Hypothesis He : fresh_terminal teq g e.
  Hypothesis Ho : fresh_terminal teq g o.
  Hypothesis Heo : teq o e = false.

  Lemma rule_up v bd : rule g v bd -> rule w v bd.
  Proof. intros H. apply Hrule. auto. Qed.

  Lemma rule_down v bd : v <> z -> rule w v bd -> rule g v bd.
  Proof. intros N H. apply Hrule in H. destruct H as [H|(E & _)]; [auto|contradiction]. Qed.

  Lemma rule_end : rule w z [Var s; Ter e].
  Proof. apply Hrule. auto. Qed.

  Lemma rule_more : rule w z [Var z; Ter o].
  Proof. apply Hrule. auto. Qed.

  Lemma start_has : exists bd, rule g s bd.
  Proof. exact (good_start _ (built_good g Hbg)). Qed.

  Lemma s_not_z : s <> z.
  Proof. destruct start_has as (bd & H). apply (Hz _ _ H). Qed.

  Lemma rule_no_z v bd : rule g v bd -> ~ In (Var z) bd.
  Proof. intros H. apply (Hz _ _ H). Qed.

  Lemma teq_refl t : teq t t = true.
  Proof. exact (proj1 Hteq t). Qed.

  (** ** Derivations *)

  Lemma step_up x y : step g x y -> step w x y.
  Proof. intros [l v bd r H|l r]; constructor. apply rule_up; auto. Qed.

  Lemma steps_up x y : steps g x y -> steps w x y.
  Proof. induction 1; [constructor|]. econstructor; eauto. apply step_up; auto. Qed.

  Lemma step_context (gg : grammar V T) (a b : list (symbol V T)) x y : step gg x y -> step gg (a ++ x ++ b) (a ++ y ++ b).
  Proof.
    intros [l v bd r H|l r].
    - replace (a ++ (l ++ Var v :: r) ++ b) with ((a ++ l) ++ Var v :: (r ++ b)) by (rewrite <- !app_assoc; reflexivity).
      replace (a ++ (l ++ bd ++ r) ++ b) with ((a ++ l) ++ bd ++ (r ++ b)) by (rewrite <- !app_assoc; reflexivity).
      constructor; auto.
    - replace (a ++ (l ++ Eps :: r) ++ b) with ((a ++ l) ++ Eps :: (r ++ b)) by (rewrite <- !app_assoc; reflexivity).
      replace (a ++ (l ++ r) ++ b) with ((a ++ l) ++ (r ++ b)) by (rewrite <- !app_assoc; reflexivity).
      constructor.
  Qed.

  Lemma steps_context (gg : grammar V T) (a b : list (symbol V T)) x y : steps gg x y -> steps gg (a ++ x ++ b) (a ++ y ++ b).
  Proof. induction 1; [constructor|]. econstructor; eauto. apply step_context; auto. Qed.

  Lemma steps_then (gg : grammar V T) (x y u : list (symbol V T)) : steps gg x y -> steps gg y u -> steps gg x u.
  Proof. intros H H'. revert H. induction H' as [|a b c H1 IH H2]; auto. intros Hx. exact (steps_next gg _ _ _ (IH Hx) H2). Qed.

  Lemma step_from (gg : grammar V T) (v : V) bd : rule gg v bd -> step gg [Var v] bd.
  Proof. intros H. pose proof (step_rule gg [] v bd [] H) as Hs. cbn in Hs. rewrite app_nil_r in Hs. exact Hs. Qed.

  Lemma steps_from (gg : grammar V T) (v : V) bd : rule gg v bd -> steps gg [Var v] bd.
  Proof. intros H. econstructor; [constructor|apply step_from; auto]. Qed.

  (** The start variable derives what [g] derives, and the end token. *)
  Lemma steps_end x : steps g [Var s] x -> steps w [Var z] (x ++ [Ter e]).
  Proof.
    intros H. eapply steps_then; [apply steps_from, rule_end|].
    exact (steps_context w [] [Ter e] _ _ (steps_up _ _ H)).
  Qed.

  (** Without the new variable the steps are those of [g]. *)
  Lemma step_down x y : ~ In (Var z) x -> step w x y -> step g x y /\ ~ In (Var z) y.
  Proof.
    intros N Hst. revert N. destruct Hst as [l v bd r H|l r]; intros N.
    - assert (Nv : v <> z) by (intros ->; apply N; apply in_app_iff; cbn; auto).
      apply (rule_down v bd Nv) in H. split; [constructor; auto|].
      intros Hi. apply in_app_iff in Hi. destruct Hi as [Hi|Hi]; [apply N; apply in_app_iff; auto|].
      apply in_app_iff in Hi. destruct Hi as [Hi|Hi]; [exact (rule_no_z _ _ H Hi)|]. apply N. apply in_app_iff. cbn. auto.
    - split; [constructor|]. intros Hi. apply N. apply in_app_iff in Hi. apply in_app_iff. cbn. tauto.
  Qed.

  Lemma steps_down x y : ~ In (Var z) x -> steps w x y -> steps g x y /\ ~ In (Var z) y.
  Proof.
    intros N. induction 1 as [|x y u H IH Hs]; [split; [constructor|auto]|].
    destruct (IH N) as [H1 H2]. destruct (step_down _ _ H2 Hs) as [H3 H4]. split; auto. econstructor; eauto.
  Qed.

  (** A step does not touch a tail of terminals. *)
  Lemma step_tail (gg : grammar V T) (x : list (symbol V T)) (t : T) os y :
    step (gg : grammar V T) (x ++ Ter t :: map Ter os) y -> exists x', y = x' ++ Ter t :: map Ter os /\ step gg x x'.
  Proof.
    intros H. remember (x ++ Ter t :: map Ter os) as a eqn:E. destruct H as [l v bd r H|l r].
    - assert (Hx : exists r', x = l ++ Var v :: r' /\ r = r' ++ Ter t :: map Ter os).
      { clear H. revert l E. induction x as [|c x IH]; intros [|d l] E; cbn in E.
        - discriminate.
        - injection E as -> E. exfalso.
          assert (Hi : In (Var v) (map (@Ter V T) os)) by (rewrite <- E; apply in_app_iff; cbn; auto).
          apply in_map_iff in Hi. destruct Hi as (? & ? & _). discriminate.
        - injection E as <- ->. exists x. auto.
        - injection E as <- E. destruct (IH _ E) as (r' & -> & ->). exists r'. auto. }
      destruct Hx as (r' & -> & ->). exists (l ++ bd ++ r'). rewrite <- !app_assoc. split; auto. constructor; auto.
    - assert (Hx : exists r', x = l ++ Eps :: r' /\ r = r' ++ Ter t :: map Ter os).
      { revert l E. induction x as [|c x IH]; intros [|d l] E; cbn in E.
        - discriminate.
        - injection E as -> E. exfalso.
          assert (Hi : In Eps (map (@Ter V T) os)) by (rewrite <- E; apply in_app_iff; cbn; auto).
          apply in_map_iff in Hi. destruct Hi as (? & ? & _). discriminate.
        - injection E as <- ->. exists x. auto.
        - injection E as <- E. destruct (IH _ E) as (r' & -> & ->). exists r'. auto. }
      destruct Hx as (r' & -> & ->). exists (l ++ r'). rewrite <- !app_assoc. split; auto. constructor.
  Qed.

  (** The sentential forms of the new start variable. *)
  Definition form (x : list (symbol V T)) : Prop :=
    (exists n, x = Var z :: map Ter (repeat o n)) \/
    (exists a n, x = a ++ Ter e :: map Ter (repeat o n) /\ steps g [Var s] a).

  Lemma steps_no_z a : steps g [Var s] a -> ~ In (Var z) a.
  Proof.
    intros H. apply steps_up in H. eapply steps_down; eauto. intros [E|[]]. injection E as E. exact (s_not_z E).
  Qed.

  Lemma steps_form x : steps w [Var z] x -> form x.
  Proof.
    intros H. remember [Var z] as a eqn:E. induction H as [|x y u H IH Hs].
    - left. exists 0. auto.
    - destruct (IH E) as [(n & ->)|(b & n & -> & Hb)].
      + clear IH. remember (Var z :: map Ter (repeat o n)) as c eqn:Ec. destruct Hs as [l v bd r Hr|l r].
        * destruct l as [|d l]; cbn in Ec.
          -- injection Ec as -> ->. apply Hrule in Hr. destruct Hr as [Hr|(_ & [->| ->])].
             ++ destruct (Hz _ _ Hr) as [N _]. contradiction.
             ++ right. exists [Var s], n. split; [reflexivity|constructor].
             ++ left. exists (S n). reflexivity.
          -- injection Ec as -> Ec. exfalso.
             assert (Hi : In (Var v) (map (@Ter V T) (repeat o n))) by (rewrite <- Ec; apply in_app_iff; cbn; auto).
             apply in_map_iff in Hi. destruct Hi as (? & ? & _). discriminate.
        * exfalso. destruct l as [|d l]; cbn in Ec; [discriminate|]. injection Ec as -> Ec.
          assert (Hi : In Eps (map (@Ter V T) (repeat o n))) by (rewrite <- Ec; apply in_app_iff; cbn; auto).
          apply in_map_iff in Hi. destruct Hi as (? & ? & _). discriminate.
      + destruct (step_tail _ _ _ _ _ Hs) as (b' & -> & Hs'). right. exists b', n. split; auto.
        destruct (step_down _ _ (steps_no_z _ Hb) Hs') as [Hd _]. econstructor; eauto.
  Qed.

  Lemma front : start_at_front w.
  Proof.
    intros l r H. destruct (steps_form _ H) as [(n & E)|(a & n & E & Ha)].
    - destruct l as [|c l]; auto. cbn in E. injection E as -> E. exfalso.
      assert (Hi : In (Var z) (map (@Ter V T) (repeat o n))) by (rewrite <- E; apply in_app_iff; cbn; auto).
      apply in_map_iff in Hi. destruct Hi as (? & ? & _). discriminate.
    - exfalso. assert (Hi : In (Var z) (a ++ Ter e :: map Ter (repeat o n))) by (rewrite <- E; apply in_app_iff; cbn; auto).
      apply in_app_iff in Hi. destruct Hi as [Hi|[Hi|Hi]]; [exact (steps_no_z _ Ha Hi)|discriminate|].
      apply in_map_iff in Hi. destruct Hi as (? & ? & _). discriminate.
  Qed.

  (** ** The wrapped grammar is as good as [g] *)

  Lemma entry : entry_sure w z.
  Proof. left. exists z, [], [Ter o]. split; [exact rule_more|discriminate]. Qed.

  Lemma reachable_up v : reachable g v -> reachable w v.
  Proof.
    intros (l & r & H). exists l, (r ++ [Ter e]). apply steps_end in H. rewrite <- app_assoc in H. exact H.
  Qed.

  Lemma all_reachable_up : all_reachable g -> all_reachable w.
  Proof.
    intros H v bd Hr. apply Hrule in Hr. destruct Hr as [Hr|(-> & _)].
    - apply reachable_up. eauto.
    - exists [], []. constructor.
  Qed.

  Lemma epsilon_free_up : all_reachable g -> epsilon_free g -> epsilon_free w.
  Proof.
    intros Ha Hf v bd _ Hr. apply Hrule in Hr. destruct Hr as [Hr|(-> & [->| ->])].
    - eapply Hf; eauto.
    - intros [|[|[]]]; discriminate.
    - intros [|[|[]]]; discriminate.
  Qed.

  Lemma productive_up : (forall v bd, rule g v bd -> productive g v) -> forall v bd, rule w v bd -> productive w v.
  Proof.
    intros H v bd Hr. apply Hrule in Hr. destruct Hr as [Hr|(-> & _)].
    - destruct (H _ _ Hr) as (ts & Hs). exists ts. apply steps_up; auto.
    - destruct start_has as (b & Hb). destruct (H _ _ Hb) as (ts & Hs). exists (ts ++ [e]). rewrite map_app. apply steps_end; auto.
  Qed.

  (** ** FOLLOW *)

  Lemma followed_end v : (exists l, steps g [Var s] (l ++ [Var v])) -> followed_by w v e.
  Proof.
    intros (l & H). exists z, l, []. split; [exists [Var s; Ter e]; exact rule_end|].
    apply steps_end in H. rewrite <- app_assoc in H. exact H.
  Qed.

  Lemma followed_up v t : followed_by g v t -> followed_by w v t.
  Proof.
    intros (x & l & r & (bd & Hr) & H). exists x, l, r. split; [exists bd; apply rule_up; auto|apply steps_up; auto].
  Qed.

  Lemma step_terminals x y t : step g x y -> In (Ter t) y -> In (Ter t) x \/ exists v bd, rule g v bd /\ In (Ter t) bd.
  Proof.
    intros [l v bd r H|l r] Hi.
    - apply in_app_iff in Hi. destruct Hi as [Hi|Hi]; [left; apply in_app_iff; auto|].
      apply in_app_iff in Hi. destruct Hi as [Hi|Hi]; [right; eauto|left; apply in_app_iff; cbn; auto].
    - left. apply in_app_iff in Hi. apply in_app_iff. cbn. tauto.
  Qed.

  Lemma steps_terminals x y t : steps g x y -> In (Ter t) y -> In (Ter t) x \/ exists v bd, rule g v bd /\ In (Ter t) bd.
  Proof.
    induction 1 as [|x y u H IH Hs]; auto. intros Hi. destruct (step_terminals _ _ _ Hs Hi) as [Hi'|Hr]; auto.
  Qed.

  Lemma followed_old v t : followed_by g v t -> exists h bd, rule g h bd /\ In (Ter t) bd.
  Proof.
    intros (x & l & r & _ & H). destruct (steps_terminals _ _ t H) as [[E|[]]|Hr]; [apply in_app_iff; cbn; auto|discriminate|auto].
  Qed.

  (** What follows a variable of [g]. *)
  Lemma split_tail l v (r : list (symbol V T)) t a n :
    l ++ Var v :: Ter t :: r = a ++ Ter e :: map Ter (repeat o n) ->
    (exists r', a = l ++ Var v :: Ter t :: r') \/ (a = l ++ [Var v] /\ t = e).
  Proof.
    revert a. induction l as [|c l IH]; intros [|d a] E; cbn in E.
    - discriminate.
    - injection E as <- E. destruct a as [|d a]; cbn in E; injection E as <- E.
      + right. auto.
      + left. exists a. reflexivity.
    - injection E as -> E. exfalso.
      assert (Hi : In (Var v) (map (@Ter V T) (repeat o n))) by (rewrite <- E; apply in_app_iff; cbn; auto).
      apply in_map_iff in Hi. destruct Hi as (? & ? & _). discriminate.
    - injection E as <- E. destruct (IH _ E) as [(r' & ->)|(-> & ->)]; [left; exists r'; reflexivity|right; auto].
  Qed.

  Lemma followed_down v t : v <> z -> followed_by w v t -> followed_by g v t \/ (t = e /\ exists l, steps g [Var s] (l ++ [Var v])).
  Proof.
    intros N (x & l & r & (bd & Hr) & H). destruct (proj1 (Hrule _ _) Hr) as [Hr'|(-> & _)].
    - left. exists x, l, r. split; [eauto|]. eapply steps_down; eauto. intros [E|[]]. injection E as ->. destruct (Hz _ _ Hr'). auto.
    - destruct (steps_form _ H) as [(n & E)|(a & n & E & Ha)].
      + exfalso. destruct l as [|c l]; cbn in E; injection E as -> E; [contradiction|].
        assert (Hi : In (Var v) (map (@Ter V T) (repeat o n))) by (rewrite <- E; apply in_app_iff; cbn; auto).
        apply in_map_iff in Hi. destruct Hi as (? & ? & _). discriminate.
      + destruct (split_tail _ _ _ _ _ _ E) as [(r' & ->)|(-> & ->)]; [left|right; eauto].
        exists s, l, r'. split; [exact start_has|auto].
  Qed.

  Lemma forms_fine : clean g -> forall x, steps g [Var s] x -> ~ In Eps x /\ forall u, In (Var u) x -> exists bu, rule g u bu.
  Proof.
    intros (Hf & Ha & _) x H. remember [Var s] as a eqn:E. induction H as [|x y u H IH Hs].
    - subst. split; [intros [|[]]; discriminate|]. intros u [[= <-]|[]]. exact start_has.
    - destruct (IH E) as [IH1 IH2]. clear IH. destruct Hs as [l v bd r Hr|l r].
      + split.
        * intros Hi. apply in_app_iff in Hi. destruct Hi as [Hi|Hi]; [apply IH1; apply in_app_iff; auto|].
          apply in_app_iff in Hi. destruct Hi as [Hi|Hi]; [exact (Hf _ _ (Ha _ _ Hr) Hr Hi)|]. apply IH1. apply in_app_iff. cbn. auto.
        * intros u Hi. apply in_app_iff in Hi. destruct Hi as [Hi|Hi]; [apply IH2; apply in_app_iff; auto|].
          apply in_app_iff in Hi. destruct Hi as [Hi|Hi]; [exact (good_closed _ (built_good g Hbg) _ _ _ Hr Hi)|].
          apply IH2. apply in_app_iff. cbn. auto.
      + destruct IH1. apply in_app_iff. cbn. auto.
  Qed.

  Lemma followed_some : clean g -> forall v bd, rule w v bd -> v = z \/ exists t, followed_by w v t.
  Proof.
    intros Hclean v bd Hr. pose proof Hclean as (Hf & Ha & Hp). apply Hrule in Hr. destruct Hr as [Hr|(-> & _)]; auto. right.
    pose proof (built_good g Hbg) as Hg.
    destruct (Ha _ _ Hr) as (l & r & H). destruct r as [|c r].
    - exists e. apply followed_end. eauto.
    - destruct (forms_fine Hclean _ H) as [H1 H2].
      assert (Hst : exists t, followed_by g v t).
      { destruct c as [t|u|].
        - exists t, s, l, r. split; [exact start_has|exact H].
        - destruct (H2 u) as (bu & Hu); [apply in_app_iff; cbn; auto|]. destruct (Hp _ _ Hu) as ([|t ts] & Hs).
          + exfalso. assert (Hn : nullb g [Var u]) by (apply null_steps; exact Hs).
            apply (null_empty g Hg Hf) in Hn; [discriminate|intros [?|[]]; discriminate|].
            intros y [[= <-]|[]]. eapply Ha; eauto.
          + exists t, s, l, (map Ter ts ++ r). split; [exact start_has|]. eapply steps_then; [exact H|].
            pose proof (steps_context g (l ++ [Var v]) r _ _ Hs) as Hc. rewrite <- !app_assoc in Hc. exact Hc.
        - exfalso. apply H1. apply in_app_iff. cbn. auto. }
      destruct Hst as (t & Ht). exists t. apply followed_up; auto.
  Qed.

  (** ** Trees *)

  Lemma derivation_up x : derivation g teq x -> derivation w teq x.
  Proof.
    induction x as [t|v cs IH] using tree_ind2; intros H; [constructor|]. inversion H as [|v' bd cs' Hr Hs Hd]; subst.
    econstructor; [apply rule_up; exact Hr|exact Hs|]. clear H Hs. induction IH; [constructor|]. inversion Hd; subst. constructor; auto.
  Qed.

  Definition old_root (x : tree V T) : Prop := match x with Leaf _ => True | Branch v _ => v <> z end.

  Lemma derivation_down x : old_root x -> derivation w teq x -> derivation g teq x.
  Proof.
    induction x as [t|v cs IH] using tree_ind2; intros N H; [constructor|]. inversion H as [|v' bd cs' Hr Hs Hd]; subst.
    apply (rule_down _ _ N) in Hr. econstructor; [exact Hr|exact Hs|].
    assert (Hb : ~ In (Var z) (filter not_eps bd)).
    { intros Hi. apply filter_In in Hi. exact (rule_no_z _ _ Hr (proj1 Hi)). }
    clear H Hr. revert Hd Hb. generalize dependent (filter not_eps bd). intros b Hs. revert IH.
    induction Hs as [|c x b cs Hc Hs IHs]; intros IH Hd Hb; [constructor|]. inversion IH; inversion Hd; subst. constructor.
    - match goal with F : old_root x -> _ |- _ => apply F; auto end. destruct x as [t|u ys]; [exact I|]. cbn.
      intros ->. destruct c as [t|v'|]; cbn in Hc; [contradiction| |contradiction]. subst. apply Hb. left; auto.
    - apply IHs; auto. intros Hi. apply Hb. right; auto.
  Qed.

  Lemma parses_end ts y : parses w teq (ts ++ [e]) y <-> exists x, parses g teq ts x /\ y = Branch z [x; Leaf e].
  Proof.
    split.
    - intros (Hd & Hl & cs & ->). inversion Hd as [|v bd cs' Hr Hs Hc]; subst. apply Hrule in Hr.
      destruct Hr as [Hr|(_ & [->| ->])]; [destruct (Hz _ _ Hr); contradiction| |]; cbn in Hs;
        inversion Hs as [|? x ? cs1 Hx Hs1]; subst; inversion Hs1 as [|? x' ? cs2 Hx' Hs2]; subst; inversion Hs2; subst;
        destruct x as [|v ys]; cbn in Hx; try contradiction; destruct x' as [t|]; cbn in Hx'; try contradiction;
        cbn [leaves flat_map] in Hl; rewrite app_nil_r in Hl; apply app_inj_tail in Hl; destruct Hl as [Hl ->].
      + exists (Branch v ys). subst v. split; auto. split; [|split; [exact Hl|eauto]].
        apply derivation_down; [exact s_not_z|]. inversion Hc; auto.
      + congruence.
    - intros (x & (Hd & Hl & cs & ->) & ->). split; [|split; [|eauto]].
      + econstructor; [exact rule_end| |].
        * cbn. constructor; [reflexivity|]. constructor; [apply teq_refl|constructor].
        * constructor; [apply derivation_up; auto|]. constructor; constructor.
      + cbn [leaves flat_map]. rewrite app_nil_r. cbn [leaves] in Hl. rewrite Hl. reflexivity.
  Qed.

  (** Every tree of the wrapped grammar ends with a token. *)
  Lemma wrapped_ends ts y : parses w teq ts y -> ends_in_leaf y.
  Proof.
    intros (Hd & _ & cs & ->). inversion Hd as [|v bd cs' Hr Hs Hc]; subst. apply Hrule in Hr.
    destruct Hr as [Hr|(_ & [->| ->])]; [destruct (Hz _ _ Hr); contradiction| |]; cbn in Hs;
      inversion Hs as [|? x ? cs1 Hx Hs1]; subst; inversion Hs1 as [|? x' ? cs2 Hx' Hs2]; subst; inversion Hs2; subst;
      destruct x' as [t|]; cbn in Hx'; try contradiction; exists z, [x], t; reflexivity.
  Qed.

  Lemma parses_unsent ts y : (forall t, In t ts -> teq o t = false) -> parses w teq ts y <->
    exists ks e' x, ts = ks ++ [e'] /\ teq e e' = true /\ parses g teq ks x /\ y = Branch z [x; Leaf e'].
  Proof.
    intros Hts. split.
    - intros (Hd & Hl & cs & ->). inversion Hd as [|v bd cs' Hr Hs Hc]; subst v cs'. apply Hrule in Hr.
      destruct Hr as [Hr|(_ & [->| ->])]; [destruct (Hz _ _ Hr); contradiction| |]; cbn in Hs;
        inversion Hs as [|? x ? cs1 Hx Hs1]; subst cs; inversion Hs1 as [|? x' ? cs2 Hx' Hs2]; subst; inversion Hs2; subst;
        destruct x as [|v ys]; cbn in Hx; try contradiction; destruct x' as [t|]; cbn in Hx'; try contradiction;
        cbn [leaves flat_map] in *; rewrite ?app_nil_r in *.
      + subst v. exists (flat_map leaves ys), t, (Branch s ys). split; auto. split; auto. split; auto. split; [|split; [reflexivity|eauto]].
        apply derivation_down; [exact s_not_z|]. inversion Hc; auto.
      + rewrite (Hts t) in Hx'; [discriminate|]. apply in_app_iff. cbn. auto.
    - intros (ks & e' & x & -> & He' & (Hd & Hl & cs & ->) & ->). split; [|split; [|eauto]].
      + econstructor; [exact rule_end| |].
        * cbn. constructor; [reflexivity|]. constructor; [exact He'|constructor].
        * constructor; [apply derivation_up; auto|]. constructor; constructor.
      + cbn [leaves flat_map]. rewrite app_nil_r. cbn [leaves] in Hl. rewrite Hl. reflexivity.
  Qed.

  (** ** Items *)

  Definition new_item (u : list (symbol V T)) (d : dotted V T) : Prop :=
    exists b, d = (z, u, b) /\ (u ++ b = [Var s; Ter e] \/ u ++ b = [Var z; Ter o]).

  Lemma skip_same (a b a' b' : list (symbol V T)) : ~ In Eps b -> skip_eps (a, b) (a', b') -> a' = a /\ b' = b.
  Proof. intros N H. inversion H; subst; auto. destruct N. left; auto. Qed.

  Lemma skip_refl (a b : list (symbol V T)) : ~ In Eps b -> skip_eps (a, b) (a, b).
  Proof. intros N. constructor. intros b' ->. apply N. left; auto. Qed.

  Lemma new_noeps u b : (u ++ b = [Var s; Ter e] \/ u ++ b = [Var z; Ter o]) -> ~ In Eps b.
  Proof.
    intros H Hi. assert (Hu : In Eps (u ++ b)) by (apply in_app_iff; auto).
    destruct H as [H|H]; rewrite H in Hu; destruct Hu as [|[|[]]]; discriminate.
  Qed.

  Lemma new_start u d : lr0 g u d -> fst (fst d) <> z.
  Proof. intros H. destruct d as [[h a] b]. apply lr0_rule in H. cbn. apply (Hz _ _ H). Qed.

  Lemma items_down u d : lr0 w u d -> lr0 g u d \/ new_item u d.
  Proof.
    assert (Hbodies : forall bd, rule w z bd -> bd = [Var s; Ter e] \/ bd = [Var z; Ter o]).
    { intros bd H. apply Hrule in H. destruct H as [H|(_ & H)]; auto. destruct (Hz _ _ H). contradiction. }
    assert (Hfirst : forall bd a b, rule w z bd -> skip_eps ([], bd) (a, b) -> new_item [] (z, a, b)).
    { intros bd a b Hr Hs. apply Hbodies in Hr. apply skip_same in Hs; [|eapply (new_noeps []); exact Hr].
      destruct Hs as [-> ->]. exists bd. split; auto. }
    induction 1 as [bd a b Hr Hs|u h a v r bd a' b' H IH Hr Hs|u h a c r a' b' H IH Hs].
    - right. eauto.
    - destruct IH as [IH|(b & E & Hb)].
      + left. assert (N : v <> z).
        { intros ->. apply lr0_rule in IH. apply (rule_no_z _ _ IH). apply in_app_iff. cbn. auto. }
        eapply lr0_close; eauto. apply rule_down; auto.
      + injection E as -> -> <-. destruct u as [|c u].
        * destruct Hb as [[= -> ->]|[= -> ->]]; [left|right; eauto].
          eapply lr0_start; eauto. apply rule_down; auto. exact s_not_z.
        * exfalso. destruct Hb as [Hb|Hb]; cbn in Hb; injection Hb as -> Hb; destruct u as [|d u]; cbn in Hb; try discriminate;
            injection Hb as -> Hb; destruct u; discriminate.
    - destruct IH as [IH|(b & E & Hb)].
      + left. eapply lr0_goto; eauto.
      + right. injection E as -> -> <-. change (c :: r) with ([c] ++ r) in Hb. rewrite app_assoc in Hb.
        apply skip_same in Hs; [|eapply new_noeps; exact Hb]. destruct Hs as [-> ->]. exists r. auto.
  Qed.

  Lemma items_up u d : lr0 g u d -> lr0 w u d.
  Proof.
    induction 1 as [bd a b Hr Hs|u h a v r bd a' b' H IH Hr Hs|u h a c r a' b' H IH Hs].
    - eapply (lr0_close w [] z [] s [Ter e]); [|apply rule_up; exact Hr|exact Hs].
      eapply lr0_start; [exact rule_end|]. apply skip_refl. intros [|[|[]]]; discriminate.
    - eapply lr0_close; eauto. apply rule_up; auto.
    - eapply lr0_goto; eauto.
  Qed.

  Lemma new_items u b : (u ++ b = [Var s; Ter e] \/ u ++ b = [Var z; Ter o]) -> lr0 w u (z, u, b).
  Proof.
    revert b. induction u as [|c u IH] using rev_ind; intros b H.
    - eapply lr0_start; [|apply skip_refl; eapply (new_noeps []); exact H]. apply Hrule. right. auto.
    - eapply lr0_goto; [apply IH|apply skip_refl; eapply new_noeps; exact H]. rewrite <- app_assoc in H. exact H.
  Qed.

  (** ** Clashes *)

  Definition key_up (k : option T) : option T := match k with Some t => Some t | None => Some e end.

  Lemma asks_up u d k P : asks g u d k -> wants w P u d (key_up k).
  Proof.
    intros (H & Hk). split; [apply items_up; auto|]. destruct d as [[h a] [|[t|v|] b]]; destruct k as [t'|]; cbn in *; auto.
    - apply followed_up; auto.
    - apply followed_end; auto.
    - contradiction.
  Qed.

  Lemma asks_old u d t : asks g u d (Some t) -> exists h bd, rule g h bd /\ In (Ter t) bd.
  Proof.
    intros (H & Hk). destruct d as [[h a] [|[t'|v|] b]]; try contradiction.
    - eapply followed_old; eauto.
    - subst t'. apply lr0_rule in H. exists h, (a ++ Ter t :: b). split; auto. apply in_app_iff. cbn. auto.
  Qed.

  Lemma asks_not_end u d t : asks g u d (Some t) -> teq t e = false.
  Proof. intros H. destruct (asks_old _ _ _ H) as (h & bd & Hr & Hi). eapply He; eauto. Qed.

  Lemma asks_not_other u d t : asks g u d (Some t) -> teq t o = false.
  Proof. intros H. destruct (asks_old _ _ _ H) as (h & bd & Hr & Hi). eapply Ho; eauto. Qed.

  (** A request of the wrapped grammar comes from an item of [g] or is one of four. *)
  Lemma wants_down P u d k : wants w P u d k ->
    (exists k', asks g u d k' /\ k = key_up k') \/
    (u = [Var s] /\ d = (z, [Var s], [Ter e]) /\ k = Some e) \/
    (u = [Var z] /\ d = (z, [Var z], [Ter o]) /\ k = Some o) \/
    ((u = [Var s; Ter e] \/ u = [Var z; Ter o]) /\ d = (z, u, []) /\ (k = None \/ k = Some o)).
  Proof.
    intros (H & Hk). destruct (items_down _ _ H) as [Hd|(b & -> & Hb)].
    - left. pose proof (new_start _ _ Hd) as N. destruct d as [[h a] [|[t|v|] b]]; cbn in N; destruct k as [t'|]; try contradiction.
      + apply (followed_down _ _ N) in Hk. destruct Hk as [Hk|[-> Hk]]; [exists (Some t')|exists None]; split; auto; split; auto.
      + destruct Hk. contradiction.
      + exists (Some t'). split; auto. split; auto.
    - right. destruct u as [|c u].
      { cbn in Hb. destruct Hb as [Hb|Hb]; subst b; destruct k; contradiction. }
      destruct u as [|c' u].
      { cbn in Hb. destruct Hb as [Hb|Hb]; injection Hb as -> ->; destruct k as [t|]; cbn in Hk; try contradiction; subst t; auto. }
      assert (E : u = [] /\ b = []).
      { destruct Hb as [Hb|Hb]; cbn in Hb; injection Hb as _ _ Hb; apply app_eq_nil in Hb; auto. }
      destruct E as [-> ->]. right. right. rewrite app_nil_r in Hb. split; auto. split; auto.
      destruct k as [t|]; auto. right. f_equal. cbn in Hk.
      destruct Hk as (x & l & r & (bd & Hr) & Hst). destruct (proj1 (Hrule _ _) Hr) as [Hr'|(-> & _)].
      + exfalso. apply steps_down in Hst.
        * apply (proj2 Hst). apply in_app_iff. cbn. auto.
        * intros [E|[]]. injection E as ->. destruct (Hz _ _ Hr'). auto.
      + pose proof (front _ _ Hst) as ->. destruct (steps_form _ Hst) as [(n & E)|(a & n & E & Ha)].
        * cbn in E. injection E as E. destruct n; [discriminate|]. cbn in E. injection E as -> _. reflexivity.
        * exfalso. apply (steps_no_z _ Ha). destruct a as [|c0 a]; [discriminate|]. cbn in E. injection E as <- _. left; auto.
  Qed.

  Lemma same_key_up k k' : same_key teq k k' -> same_key teq (key_up k) (key_up k').
  Proof. destruct k, k'; cbn; auto; try contradiction. intros _. apply teq_refl. Qed.

  Lemma teq_sym t t' : teq t t' = true -> teq t' t = true.
  Proof. exact (proj1 (proj2 Hteq) t t'). Qed.

  Lemma same_key_down u d k u' d' k' : asks g u d k -> asks g u' d' k' -> same_key teq (key_up k) (key_up k') -> same_key teq k k'.
  Proof.
    intros H H'. destruct k as [t|], k' as [t'|]; cbn; auto.
    - intros E. rewrite (asks_not_end _ _ _ H) in E. discriminate.
    - intros E. apply teq_sym in E. rewrite (asks_not_end _ _ _ H') in E. discriminate.
  Qed.

  Lemma clash_wrapped P : clash w teq P <-> textbook_clash g teq.
  Proof.
    split.
    - intros (u & d & k & d' & k' & H & H' & N & Hk).
      assert (Hmix : forall k1 k2 d1 d2, wants w P u d1 k1 -> same_key teq k1 k2 ->
                (exists k0, asks g u d2 k0 /\ k2 = key_up k0) -> ~ (exists k0, asks g u d1 k0 /\ k1 = key_up k0) -> textbook_clash g teq).
      { clear H H' N Hk. intros k1 k2 d1 d2 H Hk (k0 & Ha & ->) Hn. destruct (wants_down _ _ _ _ H) as [Hd|[(-> & -> & ->)|[(-> & -> & ->)|(Hu & -> & Hk1)]]].
        - contradiction.
        - destruct k0 as [t|]; cbn in Hk.
          + apply teq_sym in Hk. rewrite (asks_not_end _ _ _ Ha) in Hk. discriminate.
          + right. exists d2. split; auto. destruct Ha as [Hl Hx]. destruct d2 as [[h a] [|[]]]; try contradiction. reflexivity.
        - exfalso. destruct k0 as [t|]; cbn in Hk; [|congruence].
          apply teq_sym in Hk. rewrite (asks_not_other _ _ _ Ha) in Hk. discriminate.
        - exfalso. destruct Hk1 as [->| ->]; [destruct k0; contradiction|]. destruct k0 as [t|]; cbn in Hk; [|congruence].
          apply teq_sym in Hk. rewrite (asks_not_other _ _ _ Ha) in Hk. discriminate. }
      pose proof (wants_down _ _ _ _ H) as D. pose proof (wants_down _ _ _ _ H') as D'.
      assert (Hk2 : same_key teq k' k) by (destruct k, k'; cbn in *; auto; apply teq_sym; auto).
      destruct D as [D|D].
      + destruct D' as [D'|D'].
        * destruct D as (k0 & Ha & ->), D' as (k0' & Ha' & ->). left. exists u, d, k0, d', k0'. split; auto. split; auto.
          split; [intros E; apply N; congruence|]. eapply same_key_down; eauto.
        * destruct (Hmix _ _ _ _ H' Hk2 D); [|left; auto|right; auto].
          intros (k0 & (Hl & _) & _). pose proof (new_start _ _ Hl) as Nz.
          destruct D' as [(_ & -> & _)|[(_ & -> & _)|(_ & -> & _)]]; apply Nz; reflexivity.
      + assert (Nd : ~ (exists k0, asks g u d k0 /\ k = key_up k0)).
        { intros (k0 & (Hl & _) & _). pose proof (new_start _ _ Hl) as Nz.
          destruct D as [(_ & -> & _)|[(_ & -> & _)|(_ & -> & _)]]; apply Nz; reflexivity. }
        destruct D' as [D'|D']; [exact (Hmix _ _ _ _ H Hk D' Nd)|]. exfalso.
        pose proof s_not_z as Ns.
        destruct D as [(U & E1 & E2)|[(U & E1 & E2)|(U & E1 & E2)]], D' as [(U' & E1' & E2')|[(U' & E1' & E2')|(U' & E1' & E2')]];
          subst; try (destruct U; discriminate); try (destruct U'; discriminate); try congruence.
        destruct E2 as [->| ->], E2' as [->| ->]; cbn in Hk; try contradiction; congruence.
    - intros [(u & d & k & d' & k' & H & H' & N & Hk)|(d & E & H)].
      + exists u, d, (key_up k), d', (key_up k'). split; [apply asks_up; auto|]. split; [apply asks_up; auto|].
        split; [|apply same_key_up; auto]. intros E. apply N. injection E as -> E. f_equal.
        destruct k as [t|], k' as [t'|]; cbn in *; try contradiction; congruence.
      + pose proof (asks_up _ _ _ P H) as Hw. exists [Var s], d, (Some e), (z, [Var s], [Ter e]), (Some e). split; [exact Hw|].
        split; [split; [apply new_items; auto|reflexivity]|]. split; [|apply teq_refl]. intros E'. injection E' as E'. subst d. discriminate.
  Qed.

  Section Order.
    Context {ho : HashOrder}.

    Lemma new_wrapped p : exists n r, (forall fuel, n <= fuel -> slr_new teq fuel p w = r) /\
      ((r = Panic /\ textbook_clash g teq) \/ (exists tb, r = Val tb /\ ~ textbook_clash g teq)).
    Proof.
      destruct (slr_new_total teq Hteq w Hbw p) as (n & r & H & [(E & Hc)|(tb & E & Hc)]); exists n, r; split; auto.
      - left. split; auto. eapply clash_wrapped; eauto.
      - right. exists tb. split; auto. intros Ht. apply Hc. apply clash_wrapped. exact Ht.
    Qed.

    Lemma parse_any fuel p tb ts : clean g -> slr_new teq fuel p w = Val tb ->
      let turns := (2 * length ts + 1) * (length (g_rules w) + 1) + 1 in
      (exists y, parses w teq ts y /\ forall fuel', turns <= fuel' -> parse teq fuel' tb ts = Val (Some (to_node y))) \/
      ((forall y, ~ parses w teq ts y) /\ forall fuel', turns <= fuel' -> parse teq fuel' tb ts = Val None).
    Proof.
      intros Hclean H turns. pose proof Hclean as (Hf & Ha & Hp).
      pose proof (epsilon_free_up Ha Hf) as Hf'. pose proof (all_reachable_up Ha) as Ha'.
      assert (Hlin : forall fuel', turns <= fuel' -> parse teq fuel' tb ts = parse teq turns tb ts).
      { intros fuel' Hle. apply (parse_linear teq Hteq w Hbw fuel p tb ts fuel' H). exact Hle. }
      destruct (parse_terminates teq Hteq w Hbw fuel p tb ts Hf' (or_introl Ha') H) as (n & r & Nr & Hr).
      assert (Er : parse teq turns tb ts = r).
      { rewrite <- (Hlin (Nat.max n turns)) by lia. apply Hr. lia. }
      destruct r as [[nd|]| |]; [left|right| |contradiction].
      - destruct (parse_derivation teq Hteq w Hbw _ _ _ _ _ _ Hf' front H Er) as (y & Hy & ->).
        exists y. split; auto. intros fuel' Hle. rewrite (Hlin _ Hle), Er. reflexivity.
      - split; [|intros fuel' Hle; rewrite (Hlin _ Hle); exact Er]. intros y Hy.
        destruct (parse_complete teq Hteq w Hbw _ _ _ _ _ Hf' H entry Hy (wrapped_ends _ _ Hy)) as (m & Hm).
        rewrite <- (Hlin (Nat.max m turns)) in Er by lia. rewrite Hm in Er by lia. discriminate.
      - exfalso. revert Er. eapply parse_no_panic; eauto.
        + apply productive_up; auto.
        + apply followed_some; auto.
        + exact entry.
    Qed.

    Lemma parse_wrapped fuel p tb ts : clean g -> slr_new teq fuel p w = Val tb ->
      let turns := (2 * S (length ts) + 1) * (length (g_rules w) + 1) + 1 in
      (exists x, parses g teq ts x /\
         forall fuel', turns <= fuel' -> parse teq fuel' tb (ts ++ [e]) = Val (Some (Node (Var z) [Node (Ter e) []; to_node x]))) \/
      ((forall x, ~ parses g teq ts x) /\ forall fuel', turns <= fuel' -> parse teq fuel' tb (ts ++ [e]) = Val None).
    Proof.
      intros Hc H. pose proof (parse_any fuel p tb (ts ++ [e]) Hc H) as Hany. rewrite app_length in Hany. cbn [length] in Hany.
      replace (length ts + 1) with (S (length ts)) in Hany by lia. cbv zeta in *.
      destruct Hany as [(y & Hy & Hr)|(Hn & Hr)]; [left|right; split; auto].
      - apply parses_end in Hy. destruct Hy as (x & Hx & ->). exists x. auto.
      - intros x Hx. apply (Hn (Branch z [x; Leaf e])). apply parses_end. eauto.
    Qed.

    Lemma parse_unsent fuel p tb ts : clean g -> slr_new teq fuel p w = Val tb -> (forall t, In t ts -> teq o t = false) ->
      let turns := (2 * length ts + 1) * (length (g_rules w) + 1) + 1 in
      (exists ks e' x, ts = ks ++ [e'] /\ teq e e' = true /\ parses g teq ks x /\
         forall fuel', turns <= fuel' -> parse teq fuel' tb ts = Val (Some (Node (Var z) [Node (Ter e') []; to_node x]))) \/
      ((forall ks e' x, ts = ks ++ [e'] -> teq e e' = true -> ~ parses g teq ks x) /\
       forall fuel', turns <= fuel' -> parse teq fuel' tb ts = Val None).
    Proof.
      intros Hc H Hts. destruct (parse_any fuel p tb ts Hc H) as [(y & Hy & Hr)|(Hn & Hr)]; [left|right; split; auto].
      - apply (parses_unsent _ _ Hts) in Hy. destruct Hy as (ks & e' & x & E & Ee & Hx & ->). exists ks, e', x. auto.
      - intros ks e' x E Ee Hx. apply (Hn (Branch z [x; Leaf e'])). apply (parses_unsent _ _ Hts). exists ks, e', x. auto.
    Qed.
  End Order.
End Wrapped.

(** The condition in the words of C35. *)
Lemma no_textbook_clash {V T} (teq : T -> T -> bool) (g : grammar V T) : (forall t t', teq t t' = true -> t = t') -> ~ slr_conflict g ->
  (forall u h a r h' a' r' t, lr0 g u (h, a, Ter t :: r) -> lr0 g u (h', a', Ter t :: r') -> (h, a, r) = (h', a', r')) ->
  (forall h a, lr0 g [Var (g_start g)] (h, a, []) -> ~ lookahead g h None) -> ~ textbook_clash g teq.
Proof.
  intros Heq Hc Hs Ha [(u & d & k & d' & k' & [H1 H2] & [H1' H2'] & N & Hk)|(d & E & [H1 H2])].
  - assert (k' = k) by (destruct k, k'; cbn in Hk; try contradiction; auto; f_equal; symmetry; auto). subst k'.
    destruct d as [[h a] [|[t|v|] b]], d' as [[h' a'] [|[t'|v'|] b']]; try (destruct k; contradiction).
    + apply Hc. exists u. right. exists h, a, h', a', k. repeat split; auto. congruence.
    + destruct k as [t|]; [|contradiction]. subst t'. apply Hc. exists u. left. exists h', a', t, b', h, a. auto.
    + destruct k as [t'|]; [|contradiction]. subst t'. apply Hc. exists u. left. exists h, a, t, b, h', a'. auto.
    + destruct k as [x|]; [|contradiction]. subst t t'. apply N. specialize (Hs _ _ _ _ _ _ _ _ H1 H1'). congruence.
  - destruct d as [[h a] b]. cbn in E. subst b. eapply Ha; eauto.
Qed.

Section Final.
  Context {V T : Type} {dv : DecEq V} {dt : DecEq T}.

  Lemma wrapped_builds cs (g : grammar V T) z e o : build (do_calls cs) = Val g ->
    exists w, build (do_calls (wrapped cs (g_start g) z e o)) = Val w.
  Proof. intros H. destruct (build_wrapped cs g z e o H) as (w & E & _). eauto. Qed.

  Lemma wrapped_rules cs (g w : grammar V T) z e o : build (do_calls cs) = Val g ->
    build (do_calls (wrapped cs (g_start g) z e o)) = Val w -> g_start w = z /\
    forall v bd, rule w v bd <-> rule g v bd \/ (v = g_start w /\ (bd = [Var (g_start g); Ter e] \/ bd = [Var (g_start w); Ter o])).
  Proof.
    intros H H'. destruct (build_wrapped cs g z e o H) as (w' & E & Es & Hr). rewrite E in H'. injection H' as ->. split; auto.
    intros v bd. rewrite Hr, Es. reflexivity.
  Qed.

  Context {ho : HashOrder}.
  Variable teq : T -> T -> bool.
  Hypothesis Hteq : lawful teq.

  Lemma wrapped_new cs (g w : grammar V T) z e o p : build (do_calls cs) = Val g ->
    build (do_calls (wrapped cs (g_start g) z e o)) = Val w ->
    fresh_variable g z -> fresh_terminal teq g e -> fresh_terminal teq g o -> teq o e = false ->
    exists n r, (forall fuel, n <= fuel -> slr_new teq fuel p w = r) /\
      ((r = Panic /\ textbook_clash g teq) \/ (exists tb, r = Val tb /\ ~ textbook_clash g teq)).
  Proof.
    intros H H' Hz He Ho Heo. destruct (wrapped_rules _ _ _ _ _ _ H H') as [E Hr]. subst z.
    apply (new_wrapped teq Hteq g w e o (ex_intro _ _ H) (ex_intro _ _ H') Hr Hz He Ho Heo).
  Qed.

  Lemma wrapped_parse cs (g w : grammar V T) z e o fuel p tb ts : build (do_calls cs) = Val g ->
    build (do_calls (wrapped cs (g_start g) z e o)) = Val w ->
    fresh_variable g z -> teq o e = false -> clean g -> slr_new teq fuel p w = Val tb ->
    let turns := (2 * S (length ts) + 1) * (length (g_rules w) + 1) + 1 in
    (exists x, parses g teq ts x /\
       forall fuel', turns <= fuel' -> parse teq fuel' tb (ts ++ [e]) = Val (Some (Node (Var z) [Node (Ter e) []; to_node x]))) \/
    ((forall x, ~ parses g teq ts x) /\ forall fuel', turns <= fuel' -> parse teq fuel' tb (ts ++ [e]) = Val None).
  Proof.
    intros H H' Hz Heo Hc Hn. destruct (wrapped_rules _ _ _ _ _ _ H H') as [E Hr]. subst z.
    eapply (parse_wrapped teq Hteq g w e o); eauto; eexists; eauto.
  Qed.

  Lemma wrapped_parse_any cs (g w : grammar V T) z e o fuel p tb ts : build (do_calls cs) = Val g ->
    build (do_calls (wrapped cs (g_start g) z e o)) = Val w ->
    fresh_variable g z -> clean g -> slr_new teq fuel p w = Val tb -> (forall t, In t ts -> teq o t = false) ->
    let turns := (2 * length ts + 1) * (length (g_rules w) + 1) + 1 in
    (exists ks e' x, ts = ks ++ [e'] /\ teq e e' = true /\ parses g teq ks x /\
       forall fuel', turns <= fuel' -> parse teq fuel' tb ts = Val (Some (Node (Var z) [Node (Ter e') []; to_node x]))) \/
    ((forall ks e' x, ts = ks ++ [e'] -> teq e e' = true -> ~ parses g teq ks x) /\
     forall fuel', turns <= fuel' -> parse teq fuel' tb ts = Val None).
  Proof.
    intros H H' Hz Hc Hn Hts. destruct (wrapped_rules _ _ _ _ _ _ H H') as [E Hr]. subst z.
    eapply (parse_unsent teq Hteq g w e o); eauto; eexists; eauto.
  Qed.

  Lemma wrapped_unique cs (g w : grammar V T) z e o fuel p tb ts x x' : build (do_calls cs) = Val g ->
    build (do_calls (wrapped cs (g_start g) z e o)) = Val w -> fresh_variable g z -> teq o e = false -> clean g ->
    slr_new teq fuel p w = Val tb -> parses g teq ts x -> parses g teq ts x' -> x = x'.
  Proof.
    intros H H' Hz Heo Hc Hn Hx Hx'. destruct (wrapped_rules _ _ _ _ _ _ H H') as [E Hr]. subst z.
    assert (Hup : forall y, parses g teq ts y -> parses w teq (ts ++ [e]) (Branch (g_start w) [y; Leaf e])).
    { intros y Hy. apply (parses_end teq Hteq g w e o (ex_intro _ _ H) Hr Hz Heo). eauto. }
    pose proof (ended_sentences_unique teq Hteq w (ex_intro _ _ H') fuel p tb (ts ++ [e]) _ _
      (epsilon_free_up g w e o Hr (proj1 (proj2 Hc)) (proj1 Hc)) Hn (Hup _ Hx) (Hup _ Hx')) as Hu.
    assert (Branch (g_start w) [x; Leaf e] = Branch (g_start w) [x'; Leaf e]) as [= ->]; [|reflexivity].
    apply Hu; eexists _, [_], _; reflexivity.
  Qed.
End Final.

(** ** Sums: [0 -> 0 + 1 | 1], [1 -> x | ( 0 )] with [x = 1], [+ = 2], [( = 3], [) = 4], wrapped with
    the variable 2, the end 5 and the unused token 6. *)
From Verif Require Import SlrWitness.
Definition sums_calls : list (call nat nat) := calls [(0, [var 0; ter 2; var 1]); (0, [var 1]); (1, [ter 1]); (1, [ter 3; var 0; ter 4])].
Definition sums : grammar nat nat := gram [(0, [var 0; ter 2; var 1]); (0, [var 1]); (1, [ter 1]); (1, [ter 3; var 0; ter 4])].
Definition sums_wrapped : grammar nat nat := match build (do_calls (wrapped sums_calls 0 2 5 6)) with Val w => w | _ => sums end.
Definition sums_table : table nat nat := new_of id_order Nat.eqb sums_wrapped.
Definition sums_bare : table nat nat := new_of id_order Nat.eqb sums.
Definition sums_tree : tree nat nat :=
  Branch 0 [Branch 0 [Branch 1 [Leaf 1]]; Leaf 2; Branch 1 [Leaf 3; Branch 0 [Branch 1 [Leaf 1]]; Leaf 4]].

Lemma sums_clean : clean sums.
Proof.
  assert (Hv : forall v bd, rule sums v bd -> v = 0 \/ v = 1) by (intros v bd H; each_rule H; auto).
  split; [|split].
  - intros v bd _ H. each_rule H; cbn; intuition discriminate.
  - intros v bd H. destruct (Hv _ _ H) as [-> | ->].
    + exists [], []. constructor.
    + exists [], []. apply (step_at sums _ [] 0 [var 1] []); [constructor|a_rule].
  - intros v bd H. destruct (Hv _ _ H) as [-> | ->].
    + exists [1]. apply (step_at sums _ [] 1 [ter 1] []); [|a_rule]. apply (step_at sums _ [] 0 [var 1] []); [constructor|a_rule].
    + exists [1]. apply (step_at sums _ [] 1 [ter 1] []); [constructor|a_rule].
Qed.

Lemma sums_fresh : fresh_variable sums 2 /\ fresh_terminal Nat.eqb sums 5 /\ fresh_terminal Nat.eqb sums 6.
Proof.
  split; [|split].
  - intros v bd H. each_rule H; (split; [discriminate|]); cbn; intuition discriminate.
  - intros v bd t H Hi. each_rule H; cbn in Hi;
      repeat (destruct Hi as [Hi|Hi]; [first [discriminate|injection Hi as <-; reflexivity]|]); contradiction.
  - intros v bd t H Hi. each_rule H; cbn in Hi;
      repeat (destruct Hi as [Hi|Hi]; [first [discriminate|injection Hi as <-; reflexivity]|]); contradiction.
Qed.

Lemma sums_parses : parses sums Nat.eqb [1; 2; 3; 1; 4] sums_tree.
Proof.
  split; [|split; [reflexivity|eexists; reflexivity]]. unfold sums_tree.
  assert (H0 : derivation sums Nat.eqb (Branch 0 [Branch 1 [Leaf 1]])).
  { apply (branch sums Nat.eqb 0 [var 1]); [vm_compute; tauto|repeat constructor|]. constructor; [|constructor].
    apply (branch sums Nat.eqb 1 [ter 1]); [vm_compute; tauto|repeat constructor|repeat constructor]. }
  apply (branch sums Nat.eqb 0 [var 0; ter 2; var 1]); [vm_compute; tauto|repeat constructor|].
  constructor; [exact H0|]. constructor; [constructor|]. constructor; [|constructor].
  apply (branch sums Nat.eqb 1 [ter 3; var 0; ter 4]); [vm_compute; tauto|repeat constructor|].
  constructor; [constructor|]. constructor; [exact H0|]. repeat constructor.
Qed.

Lemma stmts_no_accept h a : ~ lr0 stmts [var 0] (h, a, []).
Proof.
  intros H. pose proof (lr0_rule _ _ _ _ _ H) as Hr. rewrite app_nil_r in Hr.
  destruct (lr0_sentential stmts stmts_free _ _ _ _ H) as (u & r & E & _).
  apply (f_equal (@length _)) in E. rewrite app_length in E. cbn in E.
  each_rule Hr; cbn in E; try lia. destruct u; cbn in E; [|lia].
  destruct (lr0_sentential stmts stmts_free _ _ _ _ H) as (u & r' & E' & _). destruct u as [|c u]; [discriminate|destruct u; discriminate].
Qed.
