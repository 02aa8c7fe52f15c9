(** Proofs for C102. *)
From Verif Require Import Base GrammarModel CfsmModel SlrModel SpecCfg SpecMachine SpecRight GrammarProofs FirstProofs CfsmProofs CfsmCorrect SlrRun SlrMachine SlrWitness.
From Coq Require Import Lia.

Section Right.
  Context {V T : Type} {dv : DecEq V} {dt : DecEq T}.
  Notation sym := (symbol V T).
  Variable g : grammar V T.

  Lemma rsteps_app n m x y z : rsteps g n x y -> rsteps g m y z -> rsteps g (n + m) x z.
  Proof. intros H H'. induction H; [exact H'|]. cbn. econstructor; eauto. Qed.

  Lemma rstep_context (l x y : list sym) w : rstep g x y -> rstep g (l ++ x ++ map Ter w) (l ++ y ++ map Ter w).
  Proof.
    intros [l' v bd w' H]. pose proof (rstep_rule g (l ++ l') v bd (w' ++ w) H) as S. rewrite map_app in S.
    rewrite <- !app_assoc in *. cbn [app] in *. rewrite <- ?app_assoc in S. exact S.
  Qed.

  Lemma rsteps_context n (l x y : list sym) w : rsteps g n x y -> rsteps g n (l ++ x ++ map Ter w) (l ++ y ++ map Ter w).
  Proof. intros H. induction H as [|n x y z Hs H IH]; [constructor|]. econstructor; [apply rstep_context; exact Hs|exact IH]. Qed.

  Lemma rsteps_steps n x y : rsteps g n x y -> steps g x y.
  Proof.
    intros H. assert (Ht : forall a b c, steps g a b -> steps g b c -> steps g a c).
    { intros a b c Hab Hbc. induction Hbc as [|b b1 b2 Hbc IH H1]; [exact Hab|]. eapply steps_next; [apply IH; exact Hab|exact H1]. }
    induction H as [|n x y z Hs H IH]; [constructor|]. apply (Ht _ y); [|exact IH].
    destruct Hs as [l v bd w Hr]. eapply steps_next; [constructor|]. constructor. exact Hr.
  Qed.

  (** ** Derivations of texts can be made from the right *)

  Lemma ter_split (a b : list sym) w : a ++ b = map Ter w -> exists w1 w2, w = w1 ++ w2 /\ a = map Ter w1 /\ b = map Ter w2.
  Proof.
    revert w. induction a as [|s a IH]; intros w E; [exists [], w; auto|]. destruct w as [|t w]; [discriminate|].
    injection E as -> E. destruct (IH _ E) as (w1 & w2 & -> & -> & ->). exists (t :: w1), w2. auto.
  Qed.

  Lemma rsteps_split n z (p q : list sym) w : rsteps g n z (map Ter w) -> z = p ++ q ->
    exists n1 n2 w1 w2, w = w1 ++ w2 /\ rsteps g n1 p (map Ter w1) /\ rsteps g n2 q (map Ter w2).
  Proof.
    intros H. remember (map Ter w) as y eqn:Ey. revert p q. induction H as [x|n x y z Hs H IH]; intros p q ->.
    - subst. destruct (ter_split _ _ _ Ey) as (w1 & w2 & -> & -> & ->). exists 0, 0, w1, w2. repeat constructor.
    - specialize (IH Ey). inversion Hs as [l v bd u Hr E1 E2]. subst y.
      destruct (Nat.le_gt_cases (length p) (length l)) as [Hle|Hlt].
      + assert (exists l', l = p ++ l' /\ q = l' ++ Var v :: map Ter u) as (l' & -> & ->).
        { exists (skipn (length p) l). pose proof (firstn_skipn (length p) l) as F.
          assert (Ep : firstn (length p) l = p).
          { apply (f_equal (firstn (length p))) in E1. rewrite firstn_app in E1. replace (length p - length l) with 0 in E1 by lia.
            cbn in E1. rewrite app_nil_r in E1. rewrite E1, firstn_app, Nat.sub_diag, firstn_all. cbn. apply app_nil_r. }
          rewrite Ep in F. split; [auto|]. rewrite <- F in E1. rewrite <- app_assoc in E1. apply app_inv_head in E1. auto. }
        destruct (IH p (l' ++ bd ++ map Ter u)) as (n1 & n2 & w1 & w2 & -> & H1 & H2); [rewrite <- app_assoc; reflexivity|].
        exists n1, (S n2), w1, w2. split; auto. split; auto. econstructor; [constructor; exact Hr|exact H2].
      + assert (exists u1, p = l ++ Var v :: map Ter u1 /\ exists u2, u = u1 ++ u2 /\ q = map Ter u2) as (u1 & -> & u2 & -> & ->).
        { assert (Ep : exists r, p = l ++ Var v :: r /\ r ++ q = map Ter u).
          { clear -E1 Hlt. revert l E1 Hlt. induction p as [|s p IH]; intros l E1 Hlt; [cbn in Hlt; lia|]. destruct l as [|s' l].
            - injection E1 as -> E1. exists p. auto.
            - injection E1 as -> E1. cbn in Hlt. destruct (IH l E1) as (r & -> & Er); [lia|]. exists r. auto. }
          destruct Ep as (r & -> & Er). destruct (ter_split _ _ _ Er) as (u1 & u2 & -> & -> & ->). eauto. }
        destruct (IH (l ++ bd ++ map Ter u1) (map Ter u2)) as (n1 & n2 & w1 & w2 & -> & H1 & H2); [rewrite map_app, <- !app_assoc; reflexivity|].
        exists (S n1), n2, w1, w2. split; auto. split; auto. econstructor; [constructor; exact Hr|exact H1].
  Qed.

  Definition noeps (x : list sym) : Prop := ~ In Eps x.

  Lemma steps_front (P : list sym -> Prop) z : P z -> (forall x m, step g x m -> steps g m z -> P m -> P x) -> forall x, steps g x z -> P x.
  Proof.
    intros Hz Hs x H. revert P Hz Hs. induction H as [x|x y z H IH H1]; intros P Hz Hs; [exact Hz|]. apply IH.
    - apply (Hs y z); auto. constructor.
    - intros x0 m H2 H3. apply Hs; auto. eapply steps_next; eauto.
  Qed.

  Lemma steps_after x m y : step g x m -> steps g m y -> steps g x y.
  Proof. intros H H'. induction H'; [eapply steps_next; [constructor|exact H]|eapply steps_next; eauto]. Qed.

  Lemma steps_rsteps x w : steps g x (map Ter w) -> (forall y, steps g x y -> noeps y) -> exists n, rsteps g n x (map Ter w).
  Proof.
    revert x. apply (steps_front (fun x => (forall y, steps g x y -> noeps y) -> exists n, rsteps g n x (map Ter w))).
    - intros _. exists 0. constructor.
    - intros x m Hm _ IH Hn. destruct IH as (n & Hr).
      { intros y Hy. apply Hn. eapply steps_after; eauto. }
      destruct Hm as [l v bd r Hru|l r].
      + destruct (rsteps_split _ _ l (bd ++ r) w Hr eq_refl) as (n1 & n2 & w1 & w2 & -> & H1 & H2).
        destruct (rsteps_split _ _ bd r w2 H2 eq_refl) as (n3 & n4 & w3 & w4 & -> & H3 & H4).
        exists (n4 + (1 + (n3 + n1))).
        eapply rsteps_app.
        { pose proof (rsteps_context n4 (l ++ [Var v]) r (map Ter w4) [] H4) as H5. cbn [map] in H5. rewrite !app_nil_r, <- !app_assoc in H5. exact H5. }
        cbn [app]. econstructor; [constructor; exact Hru|]. eapply rsteps_app.
        { exact (rsteps_context n3 l bd (map Ter w3) w4 H3). }
        pose proof (rsteps_context n1 [] l (map Ter w1) (w3 ++ w4) H1) as H5. cbn [app] in H5. rewrite !map_app in *. exact H5.
      + exfalso. apply (Hn _ (steps_refl _ _)). apply in_app_iff. right. left. reflexivity.
  Qed.

  (** ** Valid items *)

  Hypothesis Heps : epsilon_free g.

  (** Wherever a variable stands in a form, its rules begin. *)
  Lemma form_begins n x : rsteps g n [Var (g_start g)] x -> forall l h r bd, x = l ++ Var h :: r -> rule g h bd -> lr0 g l (h, [], bd).
  Proof.
    intros H. remember [Var (g_start g)] as s eqn:Es.
    assert (Hs : forall l h r bd, s = l ++ Var h :: r -> rule g h bd -> lr0 g l (h, [], bd)).
    { intros l h r bd E Hr. rewrite Es in E. destruct l as [|? [|]]; try discriminate. injection E as <- <-. apply lr0_begin; auto. }
    clear Es. induction H as [|n x y z Hst H IH]; [exact Hs|]. apply IH. clear IH H n z.
    destruct Hst as [l v bd w Hr]. intros l1 h r bd1 E Hr1.
    destruct (Nat.le_gt_cases (length l) (length l1)) as [Hle|Hlt].
    - assert (exists l', l1 = l ++ l') as (l' & ->).
      { exists (skipn (length l) l1). rewrite <- (firstn_skipn (length l) l1) at 1. f_equal.
        apply (f_equal (firstn (length l))) in E. rewrite !firstn_app, Nat.sub_diag, firstn_all in E. cbn in E. rewrite app_nil_r in E.
        replace (length l - length l1) with 0 in E by lia. cbn in E. rewrite app_nil_r in E. auto. }
      rewrite <- app_assoc in E. apply app_inv_head in E.
      destruct (Nat.le_gt_cases (length bd) (length l')) as [Hle'|Hlt'].
      + exfalso. assert (Hi : In (Var h) (map Ter w : list sym)).
        { apply (f_equal (skipn (length bd))) in E. rewrite !skipn_app, Nat.sub_diag, skipn_all in E. cbn in E.
          replace (length bd - length l') with 0 in E by lia. rewrite E. apply in_app_iff. right. left. reflexivity. }
        apply in_map_iff in Hi. destruct Hi as (? & ? & _). discriminate.
      + assert (exists b2, bd = l' ++ Var h :: b2) as (b2 & ->).
        { clear -E Hlt'. revert bd E Hlt'. induction l' as [|s l' IH]; intros bd E Hlt'; destruct bd as [|s' bd]; cbn in *; try lia.
          - injection E as -> E. eauto.
          - injection E as -> E. destruct (IH bd E) as (b2 & ->); [lia|]. eauto. }
        pose proof (Hs l v _ _ eq_refl Hr) as H0. apply (lr0_adv_all g Heps l') in H0. eapply lr0_clo; eauto.
    - assert (exists r', l = l1 ++ Var h :: r') as (r' & ->).
      { clear -E Hlt. revert l E Hlt. induction l1 as [|s l1 IH]; intros l E Hlt; destruct l as [|s' l]; cbn in *; try lia.
        - injection E as -> E. eauto.
        - injection E as -> E. destruct (IH l E) as (r' & ->); [lia|]. eauto. }
      eapply (Hs l1 h); [|exact Hr1]. rewrite <- app_assoc. reflexivity.
  Qed.

  Lemma valid_lr0 u d : valid g u d -> lr0 g u d.
  Proof.
    destruct d as [[h a] b]. intros (Hr & l & n & w & -> & H). pose proof (form_begins n _ H l h _ _ eq_refl Hr) as H0.
    exact (lr0_adv_all g Heps a l h [] b H0).
  Qed.

  Hypothesis Hprod : forall v, reachable g v -> productive g v.

  Lemma reach_noeps x y : (forall v, In (Var v) x -> reachable g v) -> noeps x -> steps g x y -> (forall v, In (Var v) y -> reachable g v) /\ noeps y.
  Proof.
    intros Hv Hn H. induction H as [|x y z H IH Hs]; [auto|]. destruct (IH Hv Hn) as [Hv' Hn']. clear IH. destruct Hs as [l v bd r Hr|l r].
    - assert (Hrv : reachable g v) by (apply Hv'; apply in_app_iff; right; left; reflexivity). split.
      + intros x0 Hi. rewrite !in_app_iff in Hi. destruct Hi as [Hi|[Hi|Hi]].
        * apply Hv'. apply in_app_iff. auto.
        * destruct Hrv as (l1 & r1 & Hst). apply in_split in Hi. destruct Hi as (b1 & b2 & ->). exists (l1 ++ b1), (b2 ++ r1).
          eapply steps_next; [exact Hst|]. pose proof (step_rule g l1 v _ r1 Hr) as S. rewrite <- !app_assoc in *. exact S.
        * apply Hv'. apply in_app_iff. right. right. exact Hi.
      + unfold noeps in *. rewrite !in_app_iff. intros [Hi|[Hi|Hi]].
        * apply Hn'. apply in_app_iff. auto.
        * exact (Heps v bd Hrv Hr Hi).
        * apply Hn'. apply in_app_iff. right. right. exact Hi.
    - exfalso. apply Hn'. apply in_app_iff. right. left. reflexivity.
  Qed.

  (** What stands behind a variable derives a text, from the right. *)
  Lemma rest_text r : (forall v, In (Var v) r -> reachable g v) -> noeps r -> exists n w, rsteps g n r (map Ter w).
  Proof.
    induction r as [|s r IH]; intros Hv Hn; [exists 0, []; constructor|].
    destruct IH as (n & w & H); [intros v Hi; apply Hv; right; exact Hi|intros Hi; apply Hn; right; exact Hi|].
    destruct s as [t|v|]; [| |exfalso; apply Hn; left; reflexivity].
    - exists n, (t :: w). pose proof (rsteps_context n [Ter t] r (map Ter w) [] H) as H1. cbn [map] in H1. rewrite !app_nil_r in H1. exact H1.
    - assert (Hrv : reachable g v) by (apply Hv; left; reflexivity). destruct (Hprod v Hrv) as (w0 & Hw0).
      destruct (steps_rsteps [Var v] w0 Hw0) as (n0 & H0).
      { intros y Hy. eapply (reach_noeps [Var v]); eauto; [|intros [|[]]; discriminate]. intros u [[= <-]|[]]. exact Hrv. }
      exists (n + n0), (w0 ++ w). eapply rsteps_app.
      { pose proof (rsteps_context n [Var v] r (map Ter w) [] H) as H1. cbn [map] in H1. rewrite !app_nil_r in H1. exact H1. }
      rewrite map_app. exact (rsteps_context n0 [] [Var v] (map Ter w0) w H0).
  Qed.

  Lemma lr0_valid u d : lr0 g u d -> valid g u d.
  Proof.
    intros H. destruct d as [[h a] b]. split; [eapply lr0_rule; eauto|]. remember (h, a, b) as d eqn:Ed. revert h a b Ed.
    induction H as [bd a b H1 H2|u h a v r bd a' b' H IH H1 H2|u h a s' r a' b' H IH H2]; intros h0 a0 b0 [= <- <- <-].
    - apply skip_eps_id in H2; [|apply (start_noeps g Heps); auto]. injection H2 as -> ->. exists [], 0, []. split; auto. constructor.
    - apply skip_eps_id in H2; [|eapply (rule_reach_noeps g Heps); eauto]. injection H2 as -> ->.
      destruct (IH _ _ _ eq_refl) as (l & n & w & -> & Hs). pose proof (lr0_rule g _ _ _ _ H) as Hru.
      destruct (rest_text r) as (n1 & w1 & Hw1).
      { intros x Hx. apply in_split in Hx. destruct Hx as (r1 & r2 & ->). apply rsteps_steps in Hs.
        exists (l ++ a ++ Var v :: r1), (r2 ++ map Ter w). eapply steps_next; [exact Hs|].
        pose proof (step_rule g l h _ (map Ter w) Hru) as S. rewrite <- !app_assoc in *. cbn [app] in *. rewrite <- !app_assoc in *. exact S. }
      { intros Hi. apply (lr0_noeps g Heps _ _ _ _ H). apply in_app_iff. right. right. exact Hi. }
      exists (l ++ a), (n + (1 + n1)), (w1 ++ w). rewrite app_nil_r. split; auto.
      eapply rsteps_app; [exact Hs|]. cbn [Nat.add].
      econstructor; [constructor; exact Hru|].
      pose proof (rsteps_context n1 (l ++ a ++ [Var v]) r (map Ter w1) w Hw1) as H3. rewrite <- map_app in H3.
      rewrite <- !app_assoc in *. cbn [app] in *. exact H3.
    - apply skip_eps_id in H2.
      2:{ intros Hin. apply (lr0_noeps g Heps _ _ _ _ H). apply in_app_iff. right. right. auto. }
      injection H2 as -> ->. destruct (IH _ _ _ eq_refl) as (l & n & w & -> & Hs). exists l, n, w. rewrite <- app_assoc. auto.
  Qed.
End Right.

(** ** The runs of the parser *)

Section Runs.
  Context {V T : Type} {dv : DecEq V} {dt : DecEq T}.
  Notation sym := (symbol V T).
  Variable teq : T -> T -> bool.
  Variable g : grammar V T.
  Hypothesis Heps : epsilon_free g.

  Lemma runs_back k m1 m2 : mmoves teq g k m1 m2 ->
    exists read read' j, snd m1 = read ++ snd m2 /\ Forall2 (fun t t' => teq t t' = true) read read' /\ k = j + length read /\
      rsteps g j (word (fst m2)) (word (fst m1) ++ map Ter read').
  Proof.
    intros H. induction H as [m|k m m1 m2 Hm H IH].
    - exists [], [], 0. repeat split; auto. cbn [map]. rewrite app_nil_r. constructor.
    - destruct IH as (read & read' & j & E & Hf & -> & Hr).
      destruct Hm as [st t ts t' h a r Hl Ht|popped st t ts t' h bd h' a r Hl Hfo Ht Hlen Hl']; cbn [fst snd] in *.
      + exists (t :: read), (t' :: read'), j. rewrite E. repeat split; [constructor; auto|cbn [length]; lia|].
        unfold word in *. cbn [map rev fst] in Hr. rewrite <- app_assoc in Hr. exact Hr.
      + exists read, read', (S j). repeat split; [exact E|exact Hf|].
        destruct (lr0_back g Heps _ _ _ _ Hl) as (w' & Ew & _).
        assert (word popped = bd /\ word st = w') as [<- <-].
        { unfold word in *. rewrite map_app, rev_app_distr in Ew.
          assert (Hlb : length (rev (map fst popped)) = length bd) by (rewrite rev_length, map_length; exact Hlen).
          clear -Ew Hlb. revert w' Ew. set (p := rev (map fst popped)) in *. set (q := rev (map fst st)). clearbody p q.
          induction q as [|s q IH]; intros w' E.
          - apply (f_equal (@length _)) in E as El. rewrite !app_length in El. cbn in El. destruct w'; [cbn in E; auto|cbn in El; lia].
          - destruct w' as [|s' w']; [exfalso; apply (f_equal (@length _)) in E; cbn in E; rewrite app_length in E; lia|].
            injection E as -> E. destruct (IH _ E) as [-> ->]. auto. }
        replace (S j) with (j + 1) by lia. eapply rsteps_app; [exact Hr|].
        assert (Hru : rule g h (word popped)) by (rewrite <- (app_nil_r (word popped)); eapply lr0_rule; exact Hl).
        econstructor; [|constructor]. pose proof (rstep_rule g (word st) h (word popped) read' Hru) as S.
        unfold word in *. cbn [map rev fst]. rewrite map_app, rev_app_distr, <- !app_assoc. exact S.
  Qed.

  Context {ho : HashOrder}.
  Hypothesis Hteq : lawful teq.
  Hypothesis Hb : built g.

  Lemma mmoves_app k1 k2 m1 m2 m3 : mmoves teq g k1 m1 m2 -> mmoves teq g k2 m2 m3 -> mmoves teq g (k1 + k2) m1 m3.
  Proof. intros H H'. induction H; [exact H'|]. cbn. econstructor; eauto. Qed.

  (** Every configuration of a run that ends lies before its end. *)
  Lemma runs_on fuel p tb ts : slr_new teq fuel p g = Val tb -> forall k1 m1 k st,
    mmoves teq g k1 (initial ts) m1 -> mmoves teq g k (initial ts) (st, []) -> exists k2, k = k1 + k2 /\ mmoves teq g k2 m1 (st, []).
  Proof.
    intros Htb. 
    assert (G : forall k1 a m1 k0 k st, mmoves teq g k0 (initial ts) a -> mmoves teq g k1 a m1 -> mmoves teq g k a (st, []) ->
      exists k2, k = k1 + k2 /\ mmoves teq g k2 m1 (st, [])).
    { intros k1 a m1 k0 k st H0 H1. revert k0 k st H0. induction H1 as [m|k1 m m' m1 Hm H1 IH]; intros k0 k st H0 H2; [exists k; auto|].
      inversion H2 as [m0 E1 E2|k' m0 m2 m3 Hm2 H3 E1 E2]; subst; [exfalso; inversion Hm; fail|].
      assert (m2 = m') as -> by exact (machine_one teq Hteq g Hb fuel p tb ts k0 m m2 m' Htb H0 Hm2 Hm).
      destruct (IH (k0 + 1) k' st) as (k2 & -> & H4); auto; [|exists k2; auto].
      eapply mmoves_app; [exact H0|]. econstructor; [exact Hm|constructor]. }
    intros k1 m1 k st H1 H2. eapply (G k1 (initial ts) m1 0); eauto. constructor.
  Qed.

  Lemma accepts_right fuel p tb fuel' ts n : start_at_front g -> slr_new teq fuel p g = Val tb -> parse teq fuel' tb ts = Val (Some n) ->
    exists k st, mmoves teq g k (initial ts) (st, []) /\ rule g (g_start g) (word st) /\ n = Node (Var (g_start g)) (map snd st) /\
    forall k1 st1 rest, mmoves teq g k1 (initial ts) (st1, rest) ->
      exists read read' rest' i j, ts = read ++ rest /\ Forall2 (fun t t' => teq t t' = true) read read' /\
        Forall2 (fun t t' => teq t t' = true) rest rest' /\ k1 = j + length read /\ S k = i + j + length ts /\
        rsteps g i [Var (g_start g)] (word st1 ++ map Ter rest') /\ rsteps g j (word st1 ++ map Ter rest') (map Ter (read' ++ rest')).
  Proof.
    intros Hfr Htb Hp. destruct (parser_machine teq Hteq g Hb fuel p tb Htb) as (e & _ & _ & Hm). destruct (Hm ts) as (Ha & _).
    destruct (proj1 (Ha n) (ex_intro _ fuel' Hp)) as (k & [st rest] & Hk & -> & _ & bd & Hl & Hle & En).
    destruct (lr0_sentential g Heps _ _ _ _ Hl) as (w' & r & Ew & Hs). apply Hfr in Hs. subst w'. cbn [app] in Ew.
    exists k, st. split; [exact Hk|]. split; [rewrite Ew, <- (app_nil_r bd); eapply lr0_rule; exact Hl|]. split.
    { rewrite En. f_equal. assert (El : length bd = length (map snd st)) by (rewrite <- Ew; unfold word; rewrite rev_length, !map_length; reflexivity).
      rewrite El, firstn_app, Nat.sub_diag, firstn_all. apply app_nil_r. }
    intros k1 st1 rest H1. destruct (runs_on fuel p tb ts Htb _ _ _ _ H1 Hk) as (k2 & -> & H2).
    destruct (runs_back _ _ _ H1) as (read & read' & j & E1 & F1 & -> & R1). cbn [fst snd initial word map rev app] in *.
    destruct (runs_back _ _ _ H2) as (read2 & rest' & i & E2 & F2 & -> & R2). cbn [fst snd] in *. rewrite app_nil_r in E2. subst read2.
    exists read, read', rest', (S i), j. split; [exact E1|]. split; [exact F1|]. split; [exact F2|]. split; [reflexivity|].
    split; [rewrite E1, app_length; lia|]. split.
    - econstructor; [|exact R2]. pose proof (rstep_rule g [] (g_start g) (word st) []) as S. cbn [map app] in S. rewrite app_nil_r in S. apply S.
      rewrite Ew, <- (app_nil_r bd). eapply lr0_rule; exact Hl.
    - rewrite map_app. exact (rsteps_context g j [] _ _ rest' R1).
  Qed.
End Runs.

Section States.
  Context {V T : Type} {dv : DecEq V} {dt : DecEq T} {ho : HashOrder}.
  Variable g : grammar V T.

  Lemma states_valid fuel p c : built g -> epsilon_free g -> (forall v, reachable g v -> productive g v) -> from_grammar fuel p g = Val c ->
    (forall u k, path c (cf_start c) u k ->
       exists st, In st (cf_states c) /\ cs_id st = k /\ forall d, (exists it, In it (cs_items st) /\ dotted_of it = d) <-> valid g u d) /\
    (forall u, (exists k, path c (cf_start c) u k) <-> viable g u).
  Proof.
    intros Hb Heps Hprod Hc. destruct (automaton_lr0 g Hb fuel p c Hc) as (H1 & H2 & _).
    assert (Hiff : forall u d, lr0 g u d <-> valid g u d) by (split; [apply lr0_valid; auto|apply valid_lr0; auto]).
    split.
    - intros u k Hp. destruct (H1 u k Hp) as (st & Hi & Hk & Hd). exists st. split; [exact Hi|]. split; [exact Hk|].
      intros d. rewrite Hd. apply Hiff.
    - intros u. rewrite H2. split; intros (d & Hd); exists d; apply Hiff; exact Hd.
  Qed.
End States.

(** ** Witnesses *)

Lemma rstep_at (g : grammar nat nat) n l v bd w y : In (v, bd) (rule_list g) -> rsteps g n (l ++ bd ++ map Ter w) y ->
  rsteps g (S n) (l ++ Var v :: map Ter w) y.
Proof. intros H. apply rule_in in H. econstructor; [constructor; exact H|assumption]. Qed.

(** The derivation of the text of SlrWitness.v. *)
Lemma stmts_right : rsteps stmts 5 [var 0] (map Ter stmts_text).
Proof.
  apply (rstep_at stmts 4 [] 0 [var 0; var 1; ter 3] []); [vm_compute; tauto|].
  apply (rstep_at stmts 3 [var 0] 1 [ter 1] [3]); [vm_compute; tauto|].
  apply (rstep_at stmts 2 [] 0 [var 1; ter 3] [1; 3]); [vm_compute; tauto|].
  apply (rstep_at stmts 1 [] 1 [var 1; ter 2; ter 1] [3; 1; 3]); [vm_compute; tauto|].
  apply (rstep_at stmts 0 [] 1 [ter 1] [2; 1; 3; 1; 3]); [vm_compute; tauto|].
  constructor.
Qed.

Lemma stmts_valid : valid stmts [var 0; var 1] (1, [var 1], [ter 2; ter 1]).
Proof.
  split; [a_rule|]. exists [var 0], 1, [3]. split; [reflexivity|].
  apply (rstep_at stmts 0 [] 0 [var 0; var 1; ter 3] []); [vm_compute; tauto|]. constructor.
Qed.

(** [0 -> 1 2], [1 -> x], [2 -> 2 y]: [2] derives no text. *)
Definition barren : grammar nat nat := gram [(0, [var 1; var 2]); (1, [ter 3]); (2, [var 2; ter 4])].
Lemma barren_built : built barren.
Proof. apply gram_built. reflexivity. Qed.
Lemma barren_free : epsilon_free barren.
Proof. intros v bd _ H. each_rule H; cbn; intuition discriminate. Qed.

Lemma barren_rules v bd : rule barren v bd -> v = 0 /\ bd = [var 1; var 2] \/ v = 1 /\ bd = [ter 3] \/ v = 2 /\ bd = [var 2; ter 4].
Proof. intros H. each_rule H; auto. Qed.

Lemma barren_item : lr0 barren [] (1, [], [ter 3]).
Proof.
  eapply (lr0_clo barren barren_free [] 0 [] 1 [var 2]); [|a_rule]. apply (lr0_begin barren barren_free). a_rule.
Qed.

Lemma barren_not_valid u d : valid barren u d -> fst (fst d) <> 1.
Proof.
  destruct d as [[h a] b]. intros (_ & l & n & w & _ & H) E. cbn in E. subst h.
  assert (G : forall n x y, rsteps barren n x y -> x = [var 0] \/ (exists w, x = var 1 :: var 2 :: map Ter w) ->
    y = [var 0] \/ exists w, y = var 1 :: var 2 :: map Ter w).
  { clear. intros n x y H. induction H as [x|n x y z Hs H IH]; [auto|]. intros Hx. apply IH. right. clear IH H z n.
    inversion Hs as [l v bd u Hr E1 E2]. subst y. destruct Hx as [->|(w & ->)].
    - destruct l as [|? [|]]; try discriminate. injection E1 as -> E1. destruct u; [|discriminate]. 
      destruct (barren_rules _ _ Hr) as [[_ ->]|[[[=] _]|[[=] _]]]. exists []. reflexivity.
    - destruct l as [|s l]; [destruct u; discriminate|]. injection E1 as -> E1. destruct l as [|s l].
      + injection E1 as -> E1. destruct (barren_rules _ _ Hr) as [[[=] _]|[[[=] _]|[_ ->]]]. exists (4 :: u). reflexivity.
      + injection E1 as -> E1. exfalso. assert (Hi : In (var v) (map Ter w : list (symbol nat nat))) by (rewrite <- E1; apply in_app_iff; right; left; reflexivity).
        apply in_map_iff in Hi. destruct Hi as (? & ? & _). discriminate. }
  destruct (G _ _ _ H) as [E|(w' & E)]; [auto| |].
  - destruct l as [|? [|]]; discriminate.
  - destruct l as [|s l]; [destruct w; discriminate|]. injection E as -> E. destruct l as [|s l]; [discriminate|]. injection E as -> E.
    assert (Hi : In (var 1) (map Ter w' : list (symbol nat nat))) by (rewrite <- E; apply in_app_iff; right; left; reflexivity).
    apply in_map_iff in Hi. destruct Hi as (? & ? & _). discriminate.
Qed.
