(** Proofs about grammars in which every terminal has a variable of its own (C97). *)
From Verif Require Import Base GrammarModel CfsmModel SlrModel SpecCfg SpecWrap GrammarProofs WrapProofs SlrMoves SlrNew SpecNamed SlrRun.

Section Calls.
  Context {V T : Type} {dv : DecEq V} {dt : DecEq T}.
  Variable cs : list (call V T).

  Lemma named_start : last_start (named_calls cs) = option_map inl (last_start cs).
  Proof.
    unfold named_calls. rewrite last_start_app.
    assert (E : forall l : list (call V T), last_start (flat_map (fun c => match c with
      | CallStart _ => []
      | CallRule _ bd => flat_map (fun s => match s with Ter t => [CallRule (inr t) [Ter t]] | _ => [] end) bd
      end) l) = @None (V + T)).
    { intros l. induction l as [|[v|v bd] l IH]; cbn; auto. rewrite last_start_app, IH. induction bd as [|[t|x|] bd IHb]; cbn; auto. }
    rewrite E. clear E. generalize cs. intros l. induction l as [|[v|v bd] l IH]; cbn; auto. rewrite IH. destruct (last_start l); auto.
  Qed.

  Lemma added_named v' bd' : added (named_calls cs) v' bd' <->
    (exists v bd, added cs v bd /\ v' = inl v /\ bd' = map name bd) \/
    (exists t v bd, added cs v bd /\ In (Ter t) bd /\ v' = inr t /\ bd' = [Ter t]).
  Proof.
    unfold added, named_calls. split.
    - intros (b & Hi & ->). apply in_app_iff in Hi. destruct Hi as [Hi|Hi].
      + apply in_map_iff in Hi. destruct Hi as ([v|v bd] & E & Hi); [discriminate|]. injection E as <- <-. left.
        eexists v, _. split; [exists bd; split; [exact Hi|reflexivity]|]. split; auto. destruct bd; reflexivity.
      + apply in_flat_map in Hi. destruct Hi as ([v|v bd] & Hi & Hs); [destruct Hs|]. apply in_flat_map in Hs.
        destruct Hs as ([t|x|] & Hb & Hs); [|destruct Hs|destruct Hs]. destruct Hs as [E|[]]. injection E as <- <-. right.
        exists t, v, bd. split; [exists bd; split; auto; destruct bd; [destruct Hb|reflexivity]|]. auto.
    - intros [(v & bd & (b & Hi & ->) & -> & ->)|(t & v & bd & (b & Hi & ->) & Ht & -> & ->)].
      + exists (map name b). split; [|destruct b; reflexivity]. apply in_app_iff. left. apply in_map_iff.
        exists (CallRule v b). auto.
      + exists [Ter t]. split; auto. apply in_app_iff. right. apply in_flat_map. exists (CallRule v b). split; auto.
        apply in_flat_map. exists (Ter t). split; [|left; reflexivity]. destruct b; [|auto]. destruct Ht as [E|[]]. discriminate.
  Qed.

  Lemma named_builds g : build (do_calls cs) = Val g -> exists g', build (do_calls (named_calls cs)) = Val g'.
  Proof.
    intros H. apply build_ok. assert (Hc : closed_calls cs) by (apply build_ok; eauto). destruct Hc as (s & Es & Hs & Hc).
    assert (Hup : forall v, has_rule cs v -> has_rule (named_calls cs) (inl v)).
    { intros v (bd & Hb). exists (map name bd). apply added_named. left. eauto. }
    exists (inl s). split; [rewrite named_start, Es; reflexivity|]. split; auto.
    intros v bd x Ha Hi. apply added_named in Ha. destruct Ha as [(v0 & bd0 & Ha & -> & ->)|(t & v0 & bd0 & Ha & Ht & -> & ->)].
    - apply in_map_iff in Hi. destruct Hi as ([t|y|] & E & Hi); [| |discriminate]; injection E as <-.
      + exists [Ter t]. apply added_named. right. exists t, v0, bd0. auto.
      + apply Hup. eauto.
    - destruct Hi as [E|[]]. discriminate.
  Qed.
End Calls.

Section Grammars.
  Context {V T : Type} {dv : DecEq V} {dt : DecEq T}.
  Variable teq : T -> T -> bool.
  Hypothesis Hteq : lawful teq.
  Variables (g : grammar V T) (g' : grammar (V + T) T).

  Definition used (t : T) : Prop := exists v bd, rule g v bd /\ In (Ter t) bd.

  Hypothesis Hrule : forall v' bd', rule g' v' bd' <->
    (exists v bd, rule g v bd /\ v' = inl v /\ bd' = map name bd) \/ (exists t, used t /\ v' = inr t /\ bd' = [Ter t]).
  Hypothesis Hstart : g_start g' = inl (g_start g).

  Definition unname (s : symbol (V + T) T) : symbol V T :=
    match s with Var (inl v) => Var v | Var (inr t) => Ter t | Ter t => Ter t | Eps => Eps end.

  Lemma unname_name (l : list (symbol V T)) : map unname (map name l) = l.
  Proof. rewrite map_map. rewrite <- (map_id l) at 2. apply map_ext. intros []; reflexivity. Qed.

  Lemma name_inj (l l' : list (symbol V T)) : map name l = map name l' -> l = l'.
  Proof. intros E. rewrite <- (unname_name l), <- (unname_name l'), E. reflexivity. Qed.

  (** ** Derivations *)

  Lemma step_un x y : step g' x y -> steps g (map unname x) (map unname y).
  Proof.
    intros H. destruct H as [l v bd r Hr|l r]; rewrite !map_app.
    - apply Hrule in Hr. destruct Hr as [(v0 & bd0 & Hr & -> & ->)|(t & _ & -> & ->)].
      + rewrite unname_name. apply (steps_next g _ _ _ (steps_refl g _)). apply (step_rule g _ v0 bd0 _ Hr).
      + constructor.
    - apply (steps_next g _ _ _ (steps_refl g _)). apply step_eps.
  Qed.

  Lemma steps_un x y : steps g' x y -> steps g (map unname x) (map unname y).
  Proof. intros H. induction H as [x|x y z H IH Hs]; [constructor|]. eapply steps_then; [exact IH|]. apply step_un. auto. Qed.

  Lemma steps_ter t y : steps g [Ter t] y -> y = [Ter t].
  Proof.
    intros H. remember [Ter t] as x eqn:E. induction H as [x|x y z H IH Hs]; auto. specialize (IH E). subst y.
    inversion Hs as [l v bd r Hr E1 E2|l r E1 E2]; destruct l as [|? [|]]; cbn in E1; subst; discriminate.
  Qed.

  Lemma followed_un v t : followed_by g' (inl v) t -> followed_by g v t.
  Proof.
    intros (x & l & r & (bd & Hr) & H). apply steps_un in H. rewrite map_app in H. cbn in H. apply Hrule in Hr.
    destruct Hr as [(x0 & bd0 & Hr & -> & _)|(t0 & _ & -> & _)].
    - exists x0, (map unname l), (map unname r). split; eauto.
    - cbn in H. apply steps_ter in H. destruct l as [|? [|]]; cbn in H; discriminate.
  Qed.

  Lemma lookahead_un v k : lookahead g' (inl v) k -> lookahead g v k.
  Proof.
    destruct k as [t|]; cbn; [apply followed_un|]. intros (l & H). apply steps_un in H. rewrite map_app, Hstart in H. cbn in H. eauto.
  Qed.

  Lemma step_used x y t : step g' x y -> In (Ter t) y -> In (Ter t) x \/ used t.
  Proof.
    intros H Hi. destruct H as [l v bd r Hr|l r].
    - apply in_app_iff in Hi. destruct Hi as [Hi|Hi]; [left; apply in_app_iff; auto|].
      apply in_app_iff in Hi. destruct Hi as [Hi|Hi]; [|left; apply in_app_iff; right; right; auto].
      apply Hrule in Hr. destruct Hr as [(v0 & bd0 & Hr & -> & ->)|(t0 & Ht & -> & ->)].
      + apply in_map_iff in Hi. destruct Hi as ([| |] & E & _); discriminate.
      + destruct Hi as [[= ->]|[]]. auto.
    - left. apply in_app_iff in Hi. apply in_app_iff. destruct Hi; auto. right. right. auto.
  Qed.

  Lemma follow_used v t : followed_by g' v t -> used t.
  Proof.
    intros (x & l & r & _ & H).
    assert (Hall : forall y, steps g' [Var x] y -> In (Ter t) y -> used t).
    { intros y Hy. remember [Var x] as x0 eqn:E0. induction Hy as [y|y y1 y2 Hy IH Hs]; intros Hi; subst.
      - destruct Hi as [E|[]]. discriminate.
      - destruct (step_used _ _ _ Hs Hi) as [Hi'|H']; auto. }
    apply (Hall _ H). apply in_app_iff. right. right. left. reflexivity.
  Qed.

  (** ** Items *)

  Lemma skip_un p q : skip_eps p q -> forall (a b : list (symbol V T)), p = (map name a, map name b) ->
    exists a1 b1, q = (map name a1, map name b1) /\ skip_eps (a, b) (a1, b1).
  Proof.
    intros H. induction H as [a' b' N|a' b' q H IH]; intros a b E.
    - injection E as -> ->. exists a, b. split; auto. constructor. intros b0 ->. apply (N (map name b0)). reflexivity.
    - injection E as -> E. destruct b as [|[| |] b]; try discriminate. cbn in E. injection E as ->.
      destruct (IH (a ++ [Eps]) b) as (a1 & b1 & -> & Hs); [rewrite map_app; reflexivity|]. exists a1, b1. split; auto. constructor. auto.
  Qed.

  Lemma items_un u' d' : lr0 g' u' d' ->
    (exists u h a b, u' = map name u /\ d' = (inl h, map name a, map name b) /\ lr0 g u (h, a, b)) \/
    (exists u t h a r, u' = map name u /\ d' = (inr t, [], [Ter t]) /\ lr0 g u (h, a, Ter t :: r)) \/
    (exists u t, u' = map name u ++ [Ter t] /\ d' = (inr t, [Ter t], [])).
  Proof.
    intros H. induction H as [bd' a' b' Hr Hs|u' h' a' v' r' bd' a1 b1 Hl IH Hr Hs|u' h' a' s' r' a1 b1 Hl IH Hs].
    - rewrite Hstart in *. apply Hrule in Hr. destruct Hr as [(v & bd & Hr & E & ->)|(t & _ & E & _)]; [|discriminate]. injection E as <-.
      destruct (skip_un _ _ Hs [] bd eq_refl) as (a & b & E & Hs'). injection E as -> ->. left.
      exists [], (g_start g), a, b. split; auto. split; auto. econstructor; eauto.
    - destruct IH as [(u & h & a & b & -> & E & Hi)|[(u & t & h & a & r & -> & E & Hi)|(u & t & -> & E)]]; [|injection E as _ _ E _; discriminate|discriminate].
      injection E as -> -> E. destruct b as [|s b]; [discriminate|]. cbn in E. injection E as Es ->. apply Hrule in Hr.
      destruct Hr as [(v & bd & Hr & -> & ->)|(t & _ & -> & ->)].
      + destruct s as [| |]; try discriminate. injection Es as <-. destruct (skip_un _ _ Hs [] bd eq_refl) as (a2 & b2 & E & Hs').
        injection E as -> ->. left. exists u, v, a2, b2. split; auto. split; auto. eapply lr0_close; eauto.
      + destruct s as [| |]; try discriminate. injection Es as <-. right. left. exists u, t, h, a, b. split; auto. split; auto.
        inversion Hs; subst; auto.
    - destruct IH as [(u & h & a & b & -> & E & Hi)|[(u & t & h & a & r & -> & E & Hi)|(u & t & -> & E)]]; [| |discriminate].
      + injection E as -> -> E. destruct b as [|s b]; [discriminate|]. cbn in E. injection E as -> ->.
        destruct (skip_un _ _ Hs (a ++ [s]) b) as (a2 & b2 & E & Hs'); [rewrite map_app; reflexivity|]. injection E as -> ->. left.
        exists (u ++ [s]), h, a2, b2. split; [rewrite map_app; reflexivity|]. split; auto. eapply lr0_goto; eauto.
      + injection E as -> -> -> ->. right. right. exists u, t. split; auto. inversion Hs; subst; auto.
  Qed.

  Hypothesis Halike : alike teq g.

  Lemma used_same t t' : used t -> used t' -> teq t t' = true -> t = t'.
  Proof. intros (v & bd & H1 & H2) (v' & bd' & H3 & H4). exact (Halike _ _ _ _ _ _ H1 H2 H3 H4). Qed.

  Lemma item_used u h a t r : lr0 g u (h, a, Ter t :: r) -> used t.
  Proof.
    intros H. exists h, (a ++ Ter t :: r). split; [|apply in_app_iff; right; left; reflexivity].
    exact (lr0_rule _ _ _ _ _ H).
  Qed.

  (** One of two requests of the named grammar under the same key. *)
  Definition request (P : Prop) (u' : list (symbol (V + T) T)) (d' : dotted (V + T) T) (k : option T) : Prop :=
    lr0 g' u' d' /\
    match d', k with
    | (_, _, Ter t :: _), Some t' => t = t'
    | (h, _, []), Some t => followed_by g' h t
    | (h, _, []), None => lookahead g' h None /\ P
    | _, _ => False
    end.

  Lemma request_cases P u' d' k : request P u' d' k ->
    (exists u h a, u' = map name u /\ d' = (inl h, map name a, []) /\ lr0 g u (h, a, []) /\ lookahead g h k /\ (forall t, k = Some t -> used t)) \/
    (exists u t h a r, u' = map name u /\ d' = (inr t, [], [Ter t]) /\ lr0 g u (h, a, Ter t :: r) /\ k = Some t) \/
    (exists u t, u' = map name u ++ [Ter t] /\ d' = (inr t, [Ter t], []) /\ forall t', k = Some t' -> used t').
  Proof.
    intros [Hl Hk]. destruct (items_un _ _ Hl) as [(u & h & a & b & -> & -> & Hi)|[(u & t & h & a & r & -> & -> & Hi)|(u & t & -> & ->)]].
    - left. destruct b as [|[t|v|] b]; cbn in Hk; try (destruct k; contradiction). exists u, h, a. split; auto. split; auto. split; auto.
      destruct k as [t|].
      + split; [apply followed_un; auto|]. intros t' [= <-]. eapply follow_used; eauto.
      + split; [|discriminate]. apply lookahead_un. tauto.
    - right. left. destruct k as [t'|]; [|contradiction]. subst t'. exists u, t, h, a, r. auto.
    - right. right. exists u, t. split; auto. split; auto. intros t' ->. eapply follow_used; eauto.
  Qed.

  Lemma requests_agree P u' d1 k1 d2 k2 : ~ slr_conflict g -> request P u' d1 k1 -> request P u' d2 k2 -> same_key teq k1 k2 -> (d1, k1) = (d2, k2).
  Proof.
    intros Hc H1 H2 Hk.
    assert (Hsame : (forall t, k1 = Some t -> used t) -> (forall t, k2 = Some t -> used t) -> k1 = k2).
    { intros U1 U2. destruct k1 as [t|], k2 as [t'|]; cbn in Hk; try contradiction; auto. f_equal. apply used_same; auto. }
    apply request_cases in H1, H2.
    destruct H1 as [(u & h & a & -> & -> & Hi & Hlook & Hu)|[(u & t & h & a & r & -> & -> & Hi & ->)|(u & t & -> & -> & Hu)]],
             H2 as [(u2 & h2 & a2 & E & -> & Hi2 & Hlook2 & Hu2)|[(u2 & t2 & h2 & a2 & r2 & E & -> & Hi2 & ->)|(u2 & t2 & E & -> & Hu2)]].
    - apply name_inj in E. subst u2. rewrite <- (Hsame Hu Hu2) in *. enough ((h, a) = (h2, a2)) by congruence.
      destruct (@eqb _ (prod_deceq (A := V) (B := list (symbol V T))) (h, a) (h2, a2)) eqn:Eq; [apply eqb_eq in Eq; auto|].
      exfalso. apply Hc. exists u. right. exists h, a, h2, a2, k1. split; auto. intros E. rewrite E, eqb_refl in Eq. discriminate.
    - apply name_inj in E. subst u2. assert (E : k1 = Some t2).
      { apply Hsame; auto. intros t [= <-]. eapply item_used; eauto. }
      subst k1. exfalso. apply Hc. exists u. left. exists h2, a2, t2, r2, h, a. auto.
    - exfalso. apply (f_equal (@rev _)) in E. rewrite rev_app_distr in E. rewrite <- !map_rev in E. destruct (rev u) as [|[] ?]; discriminate.
    - apply name_inj in E. subst u2. assert (E : k2 = Some t).
      { symmetry. apply Hsame; auto. intros t' [= <-]. eapply item_used; eauto. }
      subst k2. exfalso. apply Hc. exists u. left. exists h, a, t, r, h2, a2. auto.
    - apply name_inj in E. subst u2. assert (t = t2).
      { cbn in Hk. apply used_same; auto; eapply item_used; eauto. } subst. reflexivity.
    - exfalso. apply (f_equal (@rev _)) in E. rewrite rev_app_distr in E. rewrite <- !map_rev in E. destruct (rev u) as [|[] ?]; discriminate.
    - exfalso. apply (f_equal (@rev _)) in E. rewrite rev_app_distr in E. rewrite <- !map_rev in E. destruct (rev u2) as [|[] ?]; discriminate.
    - exfalso. apply (f_equal (@rev _)) in E. rewrite rev_app_distr in E. rewrite <- !map_rev in E. destruct (rev u2) as [|[] ?]; discriminate.
    - apply app_inj_tail in E. destruct E as [_ E]. injection E as <-. rewrite (Hsame Hu Hu2). reflexivity.
  Qed.

  Lemma named_no_clash P : ~ slr_conflict g -> ~ clash g' teq P.
  Proof.
    intros Hc (u & d & k & d' & k' & H & H' & N & Hk). apply N.
    assert (Hw : forall d k, wants g' P u d k -> request True u d k).
    { intros [[h a] b] [t|] [Hl Ha]; split; auto; destruct b as [|[| |] b]; auto. destruct Ha as [-> _].
      split; [|exact Logic.I]. exists []. constructor. }
    eapply (requests_agree True); eauto.
  Qed.

  Lemma named_no_textbook_clash : ~ slr_conflict g -> (forall h a, lr0 g [Var (g_start g)] (h, a, []) -> ~ lookahead g h None) ->
    ~ textbook_clash g' teq.
  Proof.
    assert (Hw : forall u d k, asks g' u d k -> request True u d k).
    { intros u [[h a] b] [t|] [Hl Ha]; split; auto; destruct b as [|[| |] b]; auto. }
    intros Hc Hs [(u & d & k & d' & k' & H & H' & N & Hk)|(d & E & H)].
    - apply N. eapply (requests_agree True); eauto.
    - apply Hw, request_cases in H. rewrite Hstart in H.
      destruct H as [(u & h & a & Eu & -> & Hi & Hlook & Hu)|[(u & t & h & a & r & Eu & -> & Hi & Ek)|(u & t & Eu & -> & Hu)]].
      + apply (Hs h a); auto. destruct u as [|[|v|] [|]]; cbn in Eu; try discriminate. injection Eu as <-. exact Hi.
      + discriminate.
      + destruct u as [|? [|]]; cbn in Eu; discriminate.
  Qed.

  (** ** No useless variables *)

  Lemma step_na x y : step g x y -> step g' (map name x) (map name y).
  Proof.
    intros H. destruct H as [l v bd r Hr|l r]; rewrite !map_app.
    - apply (step_rule g' (map name l) (inl v) (map name bd) (map name r)). apply Hrule. left. eauto.
    - apply (step_eps g' (map name l) (map name r)).
  Qed.

  Lemma steps_na x y : steps g x y -> steps g' (map name x) (map name y).
  Proof. intros H. induction H as [x|x y z H IH Hs]; [constructor|]. eapply steps_next; [exact IH|]. apply step_na. auto. Qed.

  Lemma g_step_used x y t : step g x y -> In (Ter t) y -> In (Ter t) x \/ used t.
  Proof.
    intros H Hi. destruct H as [l v bd r Hr|l r].
    - apply in_app_iff in Hi. destruct Hi as [Hi|Hi]; [left; apply in_app_iff; auto|].
      apply in_app_iff in Hi. destruct Hi as [Hi|Hi]; [|left; apply in_app_iff; right; right; auto].
      right. exists v, bd. auto.
    - left. apply in_app_iff in Hi. apply in_app_iff. destruct Hi; auto. right. right. auto.
  Qed.

  Lemma g_steps_used v y t : steps g [Var v] y -> In (Ter t) y -> used t.
  Proof.
    intros H. remember [Var v] as x eqn:E. induction H as [x|x y z H IH Hs]; intros Hi; subst.
    - destruct Hi as [E|[]]. discriminate.
    - destruct (g_step_used _ _ _ Hs Hi); auto.
  Qed.

  Lemma read_out w : (forall t, In t w -> used t) -> steps g' (map name (map Ter w)) (map Ter w).
  Proof.
    induction w as [|t w IH]; intros H; [constructor|]. cbn [map name].
    apply (steps_then g' _ (Ter t :: map name (map Ter w))).
    - apply (steps_next g' _ _ _ (steps_refl g' _)). apply (step_rule g' [] (inr t) [Ter t]). apply Hrule. right. exists t. split; auto.
      apply H. left. reflexivity.
    - pose proof (steps_context g' [Ter t] [] _ _ (IH (fun x Hx => H x (or_intror Hx)))) as Hs. rewrite !app_nil_r in Hs. exact Hs.
  Qed.

  Lemma named_clean : clean g -> clean g'.
  Proof.
    intros (Hf & Ha & Hp).
    assert (Hne : forall v bd, rule g v bd -> ~ In Eps bd) by eauto.
    assert (Hrv : forall v, reachable g v -> reachable g' (inl v)).
    { intros v (l & r & H). exists (map name l), (map name r). apply steps_na in H. rewrite Hstart. rewrite map_app in H. exact H. }
    split; [|split].
    - intros v bd _ Hr. apply Hrule in Hr. destruct Hr as [(v0 & bd0 & Hr & -> & ->)|(t & _ & -> & ->)].
      + intros Hi. apply in_map_iff in Hi. destruct Hi as ([| |] & E & Hi); try discriminate. exact (Hne _ _ Hr Hi).
      + intros [E|[]]. discriminate.
    - intros v bd Hr. apply Hrule in Hr. destruct Hr as [(v0 & bd0 & Hr & -> & ->)|(t & (v0 & bd0 & Hr & Hi) & -> & ->)].
      + apply Hrv. eauto.
      + destruct (Hrv v0 (Ha _ _ Hr)) as (l & r & H). apply in_split in Hi. destruct Hi as (l0 & r0 & ->).
        exists (l ++ map name l0), (map name r0 ++ r). eapply steps_next; [exact H|].
        replace ((l ++ map name l0) ++ Var (inr t) :: map name r0 ++ r) with (l ++ map name (l0 ++ Ter t :: r0) ++ r).
        * apply step_rule. apply Hrule. left. eauto.
        * rewrite map_app, <- !app_assoc. reflexivity.
    - intros v bd Hr. apply Hrule in Hr. destruct Hr as [(v0 & bd0 & Hr & -> & ->)|(t & Ht & -> & ->)].
      + destruct (Hp _ _ Hr) as (w & Hw). exists w. eapply steps_then; [apply (steps_na _ _ Hw)|]. apply read_out.
        intros t Hi. eapply g_steps_used; [exact Hw|]. apply in_map_iff. eauto.
      + exists [t]. apply steps_from. apply Hrule. right. exists t. auto.
  Qed.

  (** ** Trees *)

  Lemma sat_name (s : symbol V T) x : name s <> Eps -> sat teq (name s) x -> derivation g' teq x ->
    (exists t a, s = Ter a /\ teq a t = true /\ x = Branch (inr a) [Leaf t]) \/ (exists v ys, s = Var v /\ x = Branch (inl v) ys).
  Proof.
    intros N Hs Hd. destruct s as [t|v|]; [| |destruct N; reflexivity]; cbn in Hs; destruct x as [|v' ys]; try contradiction; subst v'.
    - left. inversion Hd as [|v0 bd ys' Hr H2 H3]; subst. apply Hrule in Hr. destruct Hr as [(v & bd0 & _ & E & _)|(t0 & _ & E & ->)]; [discriminate|].
      injection E as <-. cbn in H2. inversion H2 as [|? y ? l H4 H5]; subst. inversion H5; subst. destruct y as [t1|]; [|contradiction]. exists t1, t. auto.
    - right. eauto.
  Qed.

  Lemma filter_name (bd : list (symbol V T)) : filter not_eps (map name bd) = map name (filter not_eps bd).
  Proof. induction bd as [|[| |] bd IH]; cbn; rewrite ?IH; reflexivity. Qed.

  Lemma trees_un y : forall v ys, derivation g' teq y -> y = Branch (inl v) ys ->
    exists x, named teq x y /\ derivation g teq x /\ leaves x = leaves y /\ exists xs, x = Branch v xs.
  Proof.
    induction y as [t|v' ys' IH] using tree_ind2; [discriminate|]. intros v ys Hd [= -> <-].
    inversion Hd as [|v0 bd' ys0 Hr Hs Hc]; subst. apply Hrule in Hr.
    destruct Hr as [(v1 & bd & Hr & E & ->)|(t & _ & E & _)]; [|discriminate]. injection E as <-. rewrite filter_name in Hs.
    assert (Hall : exists xs, Forall2 (named teq) xs ys' /\ Forall2 (sat teq) (filter not_eps bd) xs /\ Forall (derivation g teq) xs /\
      flat_map leaves xs = flat_map leaves ys').
    { clear Hd Hr. assert (Hn : Forall (fun s => not_eps s = true) (filter not_eps bd)) by (apply Forall_forall; intros s Hi; apply filter_In in Hi; tauto).
      revert Hn Hs. generalize (filter not_eps bd). clear bd. induction ys' as [|y ys' IHl]; intros bd Hn Hs; inversion Hs as [|s' ? l ? H1 H2 E1 E2]; subst.
      - destruct bd; [|discriminate]. exists []. repeat split; constructor.
      - destruct bd as [|s bd]; [discriminate|]. cbn in E1. injection E1 as -> ->. inversion IH as [|? ? IH1 IH2]; subst.
        inversion Hc as [|? ? Hc1 Hc2]; subst. inversion Hn as [|? ? Hn1 Hn2]; subst.
        destruct (IHl IH2 Hc2 bd Hn2 H2) as (xs & A & B & C & D).
        assert (Nn : name s <> Eps) by (destruct s; [discriminate|discriminate|discriminate Hn1]).
        destruct (sat_name s y Nn H1 Hc1) as [(t & a & -> & Et & ->)|(v1 & zs & -> & ->)].
        + exists (Leaf t :: xs). split; [constructor; auto; constructor; auto|]. split; [constructor; auto|]. split; [constructor; auto; constructor|].
          cbn. f_equal. exact D.
        + destruct (IH1 v1 zs Hc1 eq_refl) as (x & F & G & L & (xs1 & ->)). exists (Branch v1 xs1 :: xs). split; [constructor; auto|].
          split; [constructor; auto; reflexivity|]. split; [constructor; auto|]. cbn [flat_map]. rewrite L, D. reflexivity. }
    destruct Hall as (xs & A & B & C & D). exists (Branch v xs). split; [constructor; auto|]. split; [econstructor; eauto|]. split; [exact D|]. eauto.
  Qed.

  Lemma trees_na x : forall v xs, derivation g teq x -> x = Branch v xs ->
    exists y, named teq x y /\ derivation g' teq y /\ leaves y = leaves x /\ exists ys, y = Branch (inl v) ys.
  Proof.
    induction x as [t|v' xs' IH] using tree_ind2; [discriminate|]. intros v xs Hd [= -> <-].
    inversion Hd as [|v0 bd xs0 Hr Hs Hc]; subst.
    assert (Hall : exists ys, Forall2 (named teq) xs' ys /\ Forall2 (sat teq) (map name (filter not_eps bd)) ys /\ Forall (derivation g' teq) ys /\
      flat_map leaves ys = flat_map leaves xs').
    { assert (Hu : forall t, In (Ter t) (filter not_eps bd) -> used t).
      { intros t Hi. apply filter_In in Hi. exists v, bd. tauto. }
      revert Hu Hs. generalize (filter not_eps bd). clear bd Hr Hd. induction xs' as [|x xs' IHl]; intros bd Hu Hs; inversion Hs as [|s ? l ? H1 H2 E1 E2]; subst.
      - exists []. repeat split; constructor.
      - inversion IH as [|? ? IH1 IH2]; subst. inversion Hc as [|? ? Hc1 Hc2]; subst.
        destruct (IHl IH2 Hc2 l (fun t Hi => Hu t (or_intror Hi)) H2) as (ys & A & B & C & D).
        destruct s as [a|v1|]; destruct x as [t|v2 zs]; try contradiction; cbn in H1.
        + exists (Branch (inr a) [Leaf t] :: ys). split; [constructor; auto; constructor; auto|]. split; [constructor; auto; reflexivity|].
          split; [constructor; auto|cbn; f_equal; exact D].
          apply (derivation_branch g' teq (inr a) [Ter a]); [|cbn; repeat constructor; auto|repeat constructor].
          apply Hrule. right. exists a. split; auto. apply Hu. left. reflexivity.
        + subst v2. destruct (IH1 v1 zs Hc1 eq_refl) as (y & F & G & L & (ys1 & ->)). exists (Branch (inl v1) ys1 :: ys). split; [constructor; auto|].
          split; [constructor; auto; reflexivity|]. split; [constructor; auto|]. cbn [flat_map]. rewrite L, D. reflexivity. }
    destruct Hall as (ys & A & B & C & D). exists (Branch (inl v) ys). split; [constructor; auto|].
    split; [apply (derivation_branch g' teq (inl v) (map name bd)); auto; [apply Hrule; left; eauto|rewrite filter_name; auto]|]. split; [exact D|]. eauto.
  Qed.

  Lemma named_parses w y : parses g' teq w y -> exists x, parses g teq w x /\ named teq x y.
  Proof.
    intros (Hd & Hl & (ys & E)). rewrite Hstart in E. destruct (trees_un _ _ _ Hd E) as (x & A & B & C & D).
    exists x. split; auto. split; auto. split; auto. congruence.
  Qed.

  Lemma parses_named w x : parses g teq w x -> exists y, parses g' teq w y /\ named teq x y.
  Proof.
    intros (Hd & Hl & (xs & E)). destruct (trees_na _ _ _ Hd E) as (y & A & B & C & D).
    exists y. split; auto. split; auto. split; [congruence|]. rewrite Hstart. auto.
  Qed.
End Grammars.

Section Final.
  Context {V T : Type} {dv : DecEq V} {dt : DecEq T}.
  Variable teq : T -> T -> bool.
  Hypothesis Hteq : lawful teq.

  Lemma named_rules cs (g : grammar V T) g' : build (do_calls cs) = Val g -> build (do_calls (named_calls cs)) = Val g' ->
    g_start g' = inl (g_start g) /\ forall v' bd', rule g' v' bd' <->
      (exists v bd, rule g v bd /\ v' = inl v /\ bd' = map name bd) \/ (exists t, used g t /\ v' = inr t /\ bd' = [Ter t]).
  Proof.
    intros H H'. destruct (build_rules _ _ H) as [S R]. destruct (build_rules _ _ H') as [S' R']. split.
    - rewrite named_start, S in S'. cbn in S'. congruence.
    - intros v' bd'. rewrite R', added_named. unfold used. split; (intros [(v & bd & A & B & C)|A]; [left; exists v, bd; rewrite ?R in *; rewrite <- ?R in *; auto|right]).
      + destruct A as (t & v & bd & A & B & C & D). exists t. split; auto. exists v, bd. rewrite R. auto.
      + destruct A as (t & (v & bd & A & B) & C & D). exists t, v, bd. rewrite <- R. auto.
  Qed.

  Lemma named_new {ho : HashOrder} cs (g : grammar V T) p : build (do_calls cs) = Val g -> alike teq g -> ~ slr_conflict g ->
    exists g', build (do_calls (named_calls cs)) = Val g' /\ exists n tb, forall fuel, n <= fuel -> slr_new teq fuel p g' = Val tb.
  Proof.
    intros H Ha Hc. destruct (named_builds cs g H) as (g' & H'). exists g'. split; auto.
    destruct (named_rules _ _ _ H H') as [Es Hr].
    destruct (slr_new_total teq Hteq g' (ex_intro _ _ H') p) as (n & r & E & [(_ & Hcl)|(tb & -> & _)]); [|eauto].
    destruct (named_no_clash teq g g' Hr Es Ha _ Hc Hcl).
  Qed.

  Lemma named_exact cs (g : grammar V T) z e o : build (do_calls cs) = Val g -> clean g -> alike teq g -> ~ slr_conflict g ->
    (forall h a, lr0 g [Var (g_start g)] (h, a, []) -> ~ lookahead g h None) ->
    fresh_variable g z -> fresh_terminal teq g e -> fresh_terminal teq g o -> teq o e = false ->
    exists w, build (do_calls (wrapped (named_calls cs) (inl (g_start g)) (inl z) e o)) = Val w /\
      forall (ho : HashOrder) p, exists n tb, (forall fuel, n <= fuel -> slr_new teq fuel p w = Val tb) /\
        forall us, (forall t, In t us -> teq o t = false) ->
          let turns := (2 * length us + 1) * (length (g_rules w) + 1) + 1 in
          (exists ks e' y, us = ks ++ [e'] /\ teq e e' = true /\ (exists x, parses g teq ks x) /\ (forall x, parses g teq ks x -> named teq x y) /\
             forall fuel', turns <= fuel' -> parse teq fuel' tb us = Val (Some (Node (Var (inl z)) [Node (Ter e') []; to_node y]))) \/
          ((forall ks e' x, us = ks ++ [e'] -> teq e e' = true -> ~ parses g teq ks x) /\
           forall fuel', turns <= fuel' -> parse teq fuel' tb us = Val None).
  Proof.
    intros H Hcl Ha Hc Hs Hz He Ho Heo. destruct (named_builds cs g H) as (g' & H'). destruct (named_rules _ _ _ H H') as [Es Hr].
    destruct (wrapped_builds _ _ (inl z) e o H') as (w & Hw). pose proof Hw as Hw'. rewrite Es in Hw'. exists w. split; auto. intros ho p.
    assert (Hz' : fresh_variable g' (inl z)).
    { intros v bd Hb. apply Hr in Hb. destruct Hb as [(v0 & bd0 & Hb & -> & ->)|(t & _ & -> & ->)].
      - destruct (Hz _ _ Hb) as [N1 N2]. split; [congruence|]. intros Hi. apply in_map_iff in Hi. destruct Hi as ([| |] & E & Hi); try discriminate.
        injection E as ->. auto.
      - split; [discriminate|]. intros [E|[]]. discriminate. }
    assert (Hf : forall x, fresh_terminal teq g x -> fresh_terminal teq g' x).
    { intros x Hx v bd t Hb Hi. apply Hr in Hb. destruct Hb as [(v0 & bd0 & Hb & -> & ->)|(t0 & (v0 & bd0 & Hb & Ht) & -> & ->)].
      - apply in_map_iff in Hi. destruct Hi as ([| |] & E & Hi); discriminate.
      - destruct Hi as [[= ->]|[]]. eauto. }
    destruct (wrapped_new teq Hteq _ g' w (inl z) e o p H' Hw Hz' (Hf e He) (Hf o Ho) Heo) as (n & r & Hn & [[_ Hcc]|(tb & -> & _)]).
    { destruct (named_no_textbook_clash teq g g' Hr Es Ha Hc Hs Hcc). }
    exists n, tb. split; auto. intros us Hu turns.
    destruct (wrapped_parse_any teq Hteq _ g' w (inl z) e o n p tb us H' Hw Hz' (named_clean g g' Hr Es Hcl) (Hn n (le_n n)) Hu)
      as [(ks & e' & y & E & Ee & Hx & Hp)|(Hx & Hp)]; [left|right].
    - destruct (named_parses teq g g' Hr Es _ _ Hx) as (x & Px & Nx). exists ks, e', y. split; auto. split; auto. split; [eauto|]. split; auto.
      intros x' Px'. destruct (parses_named teq g g' Hr Es _ _ Px') as (y' & Py' & Ny').
      rewrite (wrapped_unique teq Hteq _ g' w (inl z) e o n p tb ks y y' H' Hw Hz' Heo (named_clean g g' Hr Es Hcl) (Hn n (le_n n)) Hx Py'). exact Ny'.
    - split; auto. intros ks e' x E Ee Px. destruct (parses_named teq g g' Hr Es _ _ Px) as (y & Py & _). exact (Hx _ _ _ E Ee Py).
  Qed.
End Final.
