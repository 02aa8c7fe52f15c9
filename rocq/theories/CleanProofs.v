(** Proofs for C100: trees of a grammar and of the grammar without epsilon and useless
    variables. *)
From Verif Require Import Base GrammarModel CfsmModel SpecCfg SpecWrap SpecClean GrammarProofs FirstProofs SlrMoves.
From Coq Require Import Lia.

Section Grow.
  Context {V : Type} {dv : DecEq V} {X : Type}.
  Variable ok : list V -> X -> bool.
  Variable rs : list (V * X).

  Lemma grow_incl n : forall l, incl l (grow ok rs n l).
  Proof.
    induction n as [|n IH]; intros l; cbn; [intros x Hx; exact Hx|].
    destruct (find _ rs) as [r|]; [|intros x Hx; exact Hx]. intros x Hx. apply IH. right. auto.
  Qed.

  Lemma grow_sound (P : V -> Prop) n : forall l, (forall v, In v l -> P v) ->
    (forall l' v x, incl l' (grow ok rs n l) -> (forall u, In u l' -> P u) -> In (v, x) rs -> ok l' x = true -> P v) ->
    forall v, In v (grow ok rs n l) -> P v.
  Proof.
    induction n as [|n IH]; intros l Hl Hs v; cbn; [auto|]. cbn in Hs.
    destruct (find _ rs) as [[u x]|] eqn:E; [|auto]. apply find_some in E. destruct E as [Hi E].
    apply andb_prop in E. destruct E as [_ E]. cbn [fst snd] in *. apply IH; [|exact Hs].
    intros y [<-|Hy]; [|auto]. apply (Hs l u x); auto. intros y Hy. apply grow_incl. right. auto.
  Qed.

  Definition missing (l : list V) : nat := length (filter (fun r => negb (memb (fst r) l)) rs).

  Lemma missing_less u x l : In (u, x) rs -> memb u l = false -> missing (u :: l) < missing l.
  Proof.
    unfold missing. intros Hi Hu.
    assert (Hc : forall r : V * X, memb (fst r) (u :: l) = eqb (fst r) u || memb (fst r) l) by reflexivity.
    assert (Hle : forall (q : list (V * X)), length (filter (fun r => negb (memb (fst r) (u :: l))) q) <= length (filter (fun r => negb (memb (fst r) l)) q)).
    { induction q as [|r q IH]; cbn [filter]; [lia|]. rewrite Hc. destruct (eqb (fst r) u), (memb (fst r) l); cbn [orb negb length]; lia. }
    induction rs as [|r q IH]; [destruct Hi|]. cbn [filter]. rewrite Hc. destruct Hi as [->|Hi].
    - cbn [fst]. rewrite Hu. replace (eqb u u) with true by (symmetry; apply eqb_eq; auto). cbn [orb negb length]. specialize (Hle q). lia.
    - specialize (IH Hi). destruct (eqb (fst r) u), (memb (fst r) l); cbn [orb negb length]; lia.
  Qed.

  Lemma grow_closed n : forall l, missing l <= n -> forall v x, In (v, x) rs -> ok (grow ok rs n l) x = true -> In v (grow ok rs n l).
  Proof.
    induction n as [|n IH]; intros l Hm v x Hi Ho.
    - cbn in *. destruct (memb v l) eqn:E; [apply memb_in; auto|]. exfalso. pose proof (missing_less _ _ _ Hi E). lia.
    - cbn in *. destruct (find _ rs) as [[u y]|] eqn:E.
      + apply find_some in E. destruct E as [Hu E]. apply andb_prop in E. destruct E as [E _]. cbn [fst] in *.
        apply negb_true_iff in E. eapply IH; eauto. pose proof (missing_less _ _ _ Hu E). lia.
      + pose proof (find_none _ _ E _ Hi) as F. cbn [fst snd] in F. rewrite Ho, andb_true_r in F. apply negb_false_iff in F.
        apply memb_in. auto.
  Qed.

  Lemma missing_all l : missing l <= length rs.
  Proof. unfold missing. induction rs as [|r q IH]; cbn; [lia|]. destruct (negb _); cbn; lia. Qed.
End Grow.

Section Trees.
  Context {V T : Type} {dv : DecEq V} {dt : DecEq T}.
  Notation sym := (symbol V T).
  Notation bdy := (body V T).
  Notation tr := (tree V T).
  Variable teq : T -> T -> bool.
  Hypothesis Hteq : lawful teq.

  Lemma eps_or_not (s : sym) : s = Eps \/ s <> Eps.
  Proof. destruct s; [right|right|left]; congruence. Qed.

  (** Trees over any set of rules; the bodies have no epsilon. *)
  Inductive der (R : V -> bdy -> Prop) : tr -> Prop :=
  | der_leaf t : der R (Leaf t)
  | der_branch v bd cs : R v bd -> Forall2 (sat teq) bd cs -> Forall (der R) cs -> der R (Branch v cs).

  Lemma der_mono (R R' : V -> bdy -> Prop) x : (forall v bd, R v bd -> R' v bd) -> der R x -> der R' x.
  Proof.
    intros HR. induction x as [t|v cs IH] using tree_ind2; intros H; [constructor|]. inversion H as [|v' bd cs' H1 H2 H3]; subst.
    econstructor; eauto. clear H H2. induction IH; inversion H3; subst; constructor; auto.
  Qed.

  Lemma sat_not_eps (bd : bdy) cs : Forall2 (sat teq) bd cs -> ~ In Eps bd.
  Proof. induction 1 as [|s x bd cs H _ IH]; [intros []|]. intros [->|Hi]; [destruct x; contradiction|auto]. Qed.

  Lemma filter_id (bd : bdy) : ~ In Eps bd -> filter not_eps bd = bd.
  Proof. induction bd as [|[t|v|] bd IH]; cbn; intros H; auto; try (rewrite IH; auto). destruct H. auto. Qed.

  Lemma der_derivation (g : grammar V T) x : der (rule g) x -> derivation g teq x.
  Proof.
    induction x as [t|v cs IH] using tree_ind2; intros H; [constructor|]. inversion H as [|v' bd cs' H1 H2 H3]; subst.
    econstructor; eauto; [rewrite filter_id; [exact H2|eapply sat_not_eps; eauto]|]. clear H H2. induction IH; inversion H3; subst; constructor; auto.
  Qed.

  Lemma derivation_der (g : grammar V T) x : (forall v bd, rule g v bd -> ~ In Eps bd) -> derivation g teq x -> der (rule g) x.
  Proof.
    intros He. induction x as [t|v cs IH] using tree_ind2; intros H; [constructor|]. inversion H as [|v' bd cs' H1 H2 H3]; subst.
    econstructor; eauto; [rewrite filter_id in H2; [exact H2|eauto]|]. clear H H2. induction IH; inversion H3; subst; constructor; auto.
  Qed.

  (** ** Pruning *)

  Lemma pruned_branch v (cs : list tr) : flat_map pruned cs <> [] -> pruned (Branch v cs) = [Branch v (flat_map pruned cs)].
  Proof. intros H. cbn [pruned]. destruct (flat_map pruned cs); [contradiction|reflexivity]. Qed.

  Lemma pruned_leaves (x : tr) : flat_map leaves (pruned x) = leaves x.
  Proof.
    induction x as [t|v cs IH] using tree_ind2; [reflexivity|].
    assert (E : flat_map leaves (flat_map pruned cs) = flat_map leaves cs).
    { clear - IH. induction IH as [|x cs H _ IH]; [reflexivity|]. cbn. rewrite flat_map_app, H, IH. reflexivity. }
    cbn [pruned leaves]. rewrite <- E. destruct (flat_map pruned cs); cbn; rewrite ?app_nil_r; reflexivity.
  Qed.

  Lemma pruned_full (x : tr) : forall y, In y (pruned x) -> leaves y <> [].
  Proof.
    induction x as [t|v cs IH] using tree_ind2; intros y Hy.
    - destruct Hy as [<-|[]]. discriminate.
    - cbn [pruned] in Hy. destruct (flat_map pruned cs) as [|d ds] eqn:E; [destruct Hy|]. destruct Hy as [<-|[]].
      assert (Hd : In d (flat_map pruned cs)) by (rewrite E; left; auto). apply in_flat_map in Hd. destruct Hd as (c & Hc & Hd).
      rewrite Forall_forall in IH. specialize (IH _ Hc _ Hd). cbn. intros F. apply app_eq_nil in F. tauto.
  Qed.

  Lemma pruned_nil (x : tr) : leaves x = [] <-> pruned x = [].
  Proof.
    split.
    - intros H. destruct (pruned x) as [|y r] eqn:E; auto. exfalso. apply (pruned_full x y); [rewrite E; left; auto|].
      rewrite <- pruned_leaves, E in H. cbn in H. apply app_eq_nil in H. tauto.
    - intros H. rewrite <- pruned_leaves, H. reflexivity.
  Qed.

  Lemma pruned_shape (x : tr) : pruned x = [] \/ exists y, pruned x = [y].
  Proof. destruct x as [t|v cs]; cbn; [eauto|]. destruct (flat_map pruned cs); eauto. Qed.

  (** ** Deleting *)

  Inductive keeps (P : V -> Prop) : bdy -> bdy -> Prop :=
  | keeps_nil : keeps P [] []
  | keeps_eps bd bd' : keeps P bd bd' -> keeps P (Eps :: bd) bd'
  | keeps_one s bd bd' : s <> Eps -> keeps P bd bd' -> keeps P (s :: bd) (s :: bd')
  | keeps_drop v bd bd' : P v -> keeps P bd bd' -> keeps P (Var v :: bd) bd'.

  Lemma shorter_keeps l bd : forall bd', In bd' (shorter l bd) <-> keeps (fun v => In v l) bd bd'.
  Proof.
    induction bd as [|s bd IH]; intros bd'; cbn [shorter].
    - split; [intros [<-|[]]; constructor|]. intros H. inversion H. left. auto.
    - destruct s as [t|v|].
      + rewrite in_map_iff. split.
        * intros (b & <- & Hb). constructor; [discriminate|]. apply IH. auto.
        * intros H. inversion H; subst. exists bd'0. split; auto. apply IH. auto.
      + rewrite in_app_iff, in_map_iff. split.
        * intros [(b & <- & Hb)|Hb]; [constructor; [discriminate|]; apply IH; auto|]. destruct (memb v l) eqn:E; [|destruct Hb].
          apply keeps_drop; [apply memb_in; auto|]. apply IH. auto.
        * intros H. inversion H as [| |? ? b _ Hb|? ? ? Hv Hb]; subst; [left; exists b; split; auto; apply IH; auto|right].
          apply memb_in in Hv. rewrite Hv. apply IH. auto.
      + rewrite IH. split; [constructor; auto|]. intros H. inversion H; subst; auto. congruence.
  Qed.

  Lemma keeps_no_eps P bd bd' : keeps P bd bd' -> ~ In Eps bd'.
  Proof. induction 1; auto. intros [E|Hi]; auto. Qed.

  Lemma keeps_mono (P P' : V -> Prop) bd bd' : (forall v, P v -> P' v) -> keeps P bd bd' -> keeps P' bd bd'.
  Proof. intros HP. induction 1; [constructor|constructor|constructor|apply keeps_drop]; auto. Qed.

  Lemma keeps_in P bd bd' s : keeps P bd bd' -> In s bd' -> In s bd.
  Proof. induction 1; intros Hi; [destruct Hi|right; auto| |right; auto]. destruct Hi as [->|Hi]; [left; auto|right; auto]. Qed.

  Lemma keeps_all P bd : ~ In Eps bd -> keeps P bd bd.
  Proof. induction bd as [|s bd IH]; intros H; constructor; [intros ->; apply H; left; auto|apply IH; intros Hi; apply H; right; auto]. Qed.

  (** ** The rules *)

  Variable g : grammar V T.
  Variable rs : list (V * bdy).
  Hypothesis Hrs : forall v bd, In (v, bd) rs <-> rule g v bd.

  Definition nul (v : V) : Prop := exists x, derivation g teq x /\ sat teq (Var v) x /\ leaves x = [].

  Lemma trees_of (bd : bdy) : (forall s, In s bd -> s <> Eps -> exists x, derivation g teq x /\ sat teq s x /\ leaves x = []) ->
    exists cs, Forall2 (sat teq) (filter not_eps bd) cs /\ Forall (derivation g teq) cs /\ flat_map leaves cs = [].
  Proof.
    induction bd as [|s bd IH]; intros H; [exists []; repeat split; constructor|].
    destruct IH as (cs & H1 & H2 & H3); [intros; apply H; auto; right; auto|].
    destruct (eps_or_not s) as [->|N]; [exists cs; auto|].
    destruct (H s (or_introl eq_refl) N) as (x & D & S & L). exists (x :: cs). split; [|split; [constructor; auto|cbn; rewrite L; auto]].
    destruct s; [constructor; auto|constructor; auto|congruence].
  Qed.

  Lemma nullable_nul v : In v (nullables rs) <-> nul v.
  Proof.
    unfold nullables. split.
    - revert v. apply grow_sound; [intros v []|]. intros l' v bd _ Hl Hi Ho. apply Hrs in Hi. unfold vanishes in Ho. rewrite forallb_forall in Ho.
      destruct (trees_of bd) as (cs & H1 & H2 & H3).
      { intros s Hs N. specialize (Ho _ Hs). destruct s as [t|u|]; [discriminate| |congruence]. apply memb_in in Ho. exact (Hl _ Ho). }
      exists (Branch v cs). split; [econstructor; eauto|]. split; [reflexivity|exact H3].
    - intros (x & D & S & L). revert v D S L. induction x as [t|v cs IH] using tree_ind2; intros u D S L; [contradiction|]. cbn in S. subst u.
      inversion D as [|v' bd cs' H1 H2 H3]; subst. eapply grow_closed; [apply missing_all|apply Hrs; exact H1|].
      unfold vanishes. apply forallb_forall. cbn [leaves] in L. clear D H1. intros s Hs. destruct s as [t|u|]; [exfalso| |reflexivity].
      + assert (Hf : In (Ter t) (filter not_eps bd)) by (apply filter_In; auto). clear Hs IH. revert Hf. induction H2 as [|s x b cs Hx _ IHb]; [intros []|].
        cbn in L. apply app_eq_nil in L. destruct L as [L1 L2]. inversion H3; subst. intros [->|Hi]; [|auto]. destruct x; [discriminate|contradiction].
      + assert (Hf : In (Var u) (filter not_eps bd)) by (apply filter_In; auto). clear Hs. apply memb_in. revert IH H3 L Hf.
        induction H2 as [|s x b cs Hx _ IHb]; intros IH H3 L Hf; [destruct Hf|]. cbn in L. apply app_eq_nil in L. destruct L as [L1 L2].
        inversion IH as [|? ? F1 F2]; subst. inversion H3 as [|? ? D1 D2]; subst. destruct Hf as [->|Hi]; auto.
  Qed.

  Definition R1 (v : V) (bd : bdy) : Prop := exists bd0, rule g v bd0 /\ keeps nul bd0 bd /\ bd <> [].

  Lemma short_R1 v bd : In (v, bd) (short_rules rs) <-> R1 v bd.
  Proof.
    unfold short_rules, R1. rewrite in_flat_map. split.
    - intros ([u bd0] & Hi & H). apply in_map_iff in H. destruct H as (b & E & Hb). cbn in E, Hb. injection E as -> ->.
      apply filter_In in Hb. destruct Hb as [Hb Hn]. exists bd0. split; [apply Hrs; auto|]. split; [|destruct bd; [discriminate|discriminate]].
      apply shorter_keeps in Hb. eapply keeps_mono; [|exact Hb]. intros x. apply nullable_nul.
    - intros (bd0 & Hr & Hk & Hn). exists (v, bd0). split; [apply Hrs; auto|]. apply in_map_iff. exists bd. split; auto. apply filter_In.
      split; [|destruct bd; [contradiction|reflexivity]]. cbn. apply shorter_keeps. eapply keeps_mono; [|exact Hk]. intros x. apply nullable_nul.
  Qed.

  (** ** From trees of the grammar to trees without empty parts, and back *)

  Definition same_root (x y : tr) : Prop := forall s, sat teq s x -> sat teq s y.

  Lemma prune_der x : derivation g teq x -> forall y, In y (pruned x) -> der R1 y /\ forall s, sat teq s x <-> sat teq s y.
  Proof.
    induction x as [t|v cs IH] using tree_ind2; intros D y Hy.
    - destruct Hy as [<-|[]]. split; [constructor|tauto].
    - cbn [pruned] in Hy. destruct (flat_map pruned cs) as [|d ds] eqn:E; [destruct Hy|]. destruct Hy as [<-|[]].
      split; [|intros [t|u|]; cbn; tauto]. inversion D as [|v' bd cs' H1 H2 H3]; subst.
      assert (Hb : exists b, keeps nul bd b /\ Forall2 (sat teq) b (flat_map pruned cs) /\ Forall (der R1) (flat_map pruned cs)).
      { clear D H1 E. revert cs IH H2 H3. induction bd as [|s bd IHb]; intros cs IH H2 H3.
        - inversion H2; subst. exists []. repeat split; constructor.
        - destruct (eps_or_not s) as [->|N].
          { destruct (IHb cs IH H2 H3) as (b & K1 & K2). exists b. split; [constructor|]; auto. }
          assert (Ef : filter not_eps (s :: bd) = s :: filter not_eps bd) by (destruct s; [reflexivity|reflexivity|congruence]).
          rewrite Ef in H2. inversion H2 as [|? x ? cs1 Hx Hxs]; subst. inversion H3 as [|? ? D1 D2]; subst. inversion IH as [|? ? F1 F2]; subst.
          destruct (IHb cs1 F2 Hxs D2) as (b & K1 & K2 & K3). cbn [flat_map].
          destruct (pruned_shape x) as [Ex|(y & Ex)].
          + rewrite Ex. cbn. exists b. split; [|auto]. destruct s as [t|u|]; [|apply keeps_drop; auto|congruence].
            * destruct x; [discriminate|contradiction].
            * exists x. split; auto. split; auto. apply pruned_nil. auto.
          + rewrite Ex. cbn. destruct (F1 D1 y) as [Dy Sy]; [rewrite Ex; left; auto|]. exists (s :: b). split; [constructor; auto|].
            split; constructor; auto. apply Sy. auto. }
      destruct Hb as (b & K1 & K2 & K3). rewrite E in K2, K3. econstructor; [|exact K2|exact K3].
      exists bd. split; auto. split; auto. intros ->. inversion K2.
  Qed.

  Lemma der_prune y : der R1 y -> exists x, derivation g teq x /\ pruned x = [y] /\ forall s, sat teq s x <-> sat teq s y.
  Proof.
    induction y as [t|v ys IH] using tree_ind2; intros D.
    - exists (Leaf t). split; [constructor|]. split; [reflexivity|tauto].
    - inversion D as [|v' bd cs' H1 H2 H3]; subst. destruct H1 as (bd0 & Hr & Hk & Hn).
      assert (Hb : exists cs, Forall2 (sat teq) (filter not_eps bd0) cs /\ Forall (derivation g teq) cs /\ flat_map pruned cs = ys).
      { clear D Hr Hn. revert ys IH H2 H3. induction Hk as [|b b' Hk IHk|s b b' N Hk IHk|u b b' Hu Hk IHk]; intros ys IH H2 H3.
        - inversion H2; subst. exists []. repeat split; constructor.
        - auto.
        - inversion H2 as [|? y ? ys1 Hy Hys]; subst. inversion H3 as [|? ? D1 D2]; subst. inversion IH as [|? ? F1 F2]; subst.
          destruct (IHk ys1 F2 Hys D2) as (cs & K1 & K2 & K3). destruct (F1 D1) as (x & Dx & Px & Sx). exists (x :: cs).
          split; [|split; [constructor; auto|cbn; rewrite Px, K3; reflexivity]].
          destruct s; [constructor; auto; apply Sx; auto|constructor; auto; apply Sx; auto|congruence].
        - destruct (IHk ys IH H2 H3) as (cs & K1 & K2 & K3). destruct Hu as (x & Dx & Sx & Lx). exists (x :: cs).
          split; [constructor; auto|]. split; [constructor; auto|]. cbn. apply pruned_nil in Lx. rewrite Lx. exact K3. }
      destruct Hb as (cs & K1 & K2 & K3). exists (Branch v cs). split; [econstructor; eauto|]. split.
      + rewrite pruned_branch; rewrite K3; [reflexivity|]. intros ->. inversion H2. subst. contradiction.
      + intros [t|u|]; cbn; tauto.
  Qed.

  (** ** Fertile and needed variables *)

  Definition fert (v : V) : Prop := In v (fertiles (short_rules rs)).
  Definition R2 (v : V) (bd : bdy) : Prop := R1 v bd /\ forall x, In (Var x) bd -> fert x.

  Lemma within_in l (bd : bdy) : within l bd = true <-> forall x, In (Var x) bd -> In x l.
  Proof.
    unfold within. rewrite forallb_forall. split.
    - intros H x Hx. specialize (H _ Hx). apply memb_in in H. auto.
    - intros H s Hs. destruct s as [t|x|]; auto. apply memb_in. auto.
  Qed.

  Lemma fertile_R2 v bd : In (v, bd) (fertile_rules (short_rules rs)) <-> R2 v bd.
  Proof. unfold fertile_rules, R2. rewrite filter_In, short_R1. cbn [fst snd]. rewrite within_in. reflexivity. Qed.

  Lemma R2_fert v bd : R2 v bd -> fert v.
  Proof.
    intros [H1 H2]. unfold fert, fertiles. eapply grow_closed; [apply missing_all|apply short_R1; exact H1|]. apply within_in. exact H2.
  Qed.

  Lemma der_R2 y : der R1 y -> der R2 y /\ forall v, sat teq (Var v) y -> fert v.
  Proof.
    induction y as [t|v ys IH] using tree_ind2; intros D; [split; [constructor|intros v []]|].
    inversion D as [|v' bd cs' H1 H2 H3]; subst.
    assert (Hb : Forall (der R2) ys /\ forall x, In (Var x) bd -> fert x).
    { clear D H1. revert bd H2. induction IH as [|y ys F1 F2 IHy]; intros bd H2; inversion H2 as [|s ? b ? Hs Hb]; subst.
      - split; [constructor|intros x []].
      - inversion H3 as [|? ? D1 D2]; subst. destruct (F1 D1) as [D1' Hf]. destruct (IHy D2 _ Hb) as [K1 K2]. split; [constructor; auto|].
        intros x [->|Hi]; auto. }
    destruct Hb as [Hb1 Hb2]. assert (HR : R2 v bd) by (split; auto). split; [econstructor; eauto|].
    intros u Hu. cbn in Hu. subst u. eapply R2_fert; eauto.
  Qed.

  Lemma fert_tree v : fert v -> exists y, der R1 y /\ sat teq (Var v) y.
  Proof.
    unfold fert, fertiles. revert v. apply grow_sound; [intros v []|]. intros l' v bd _ Hl Hi Ho. apply short_R1 in Hi.
    pose proof (proj1 (within_in _ _) Ho) as Hw. assert (Hne : ~ In Eps bd) by (destruct Hi as (b0 & _ & Hk & _); eapply keeps_no_eps; eauto).
    assert (Hb : exists ys, Forall2 (sat teq) bd ys /\ Forall (der R1) ys).
    { clear Hi Ho. induction bd as [|s bd IH]; [exists []; split; constructor|].
      destruct IH as (ys & K1 & K2); [intros x Hx; apply Hw; right; auto|intros Hx; apply Hne; right; auto|].
      destruct s as [t|u|].
      - exists (Leaf t :: ys). split; constructor; auto; [apply (proj1 Hteq)|constructor].
      - destruct (Hl u) as (y & Dy & Sy); [apply Hw; left; auto|]. exists (y :: ys). split; constructor; auto.
      - destruct Hne. left. auto. }
    destruct Hb as (ys & K1 & K2). exists (Branch v ys). split; [econstructor; eauto|reflexivity].
  Qed.

  Variable s : V.
  Definition need (v : V) : Prop := In v (needed s (fertile_rules (short_rules rs))).
  Definition R3 (v : V) (bd : bdy) : Prop := R2 v bd /\ need v.

  Lemma needed_R3 v bd : In (v, bd) (needed_rules s (fertile_rules (short_rules rs))) <-> R3 v bd.
  Proof. unfold needed_rules, R3. rewrite filter_In, fertile_R2. cbn [fst snd]. rewrite memb_in. reflexivity. Qed.

  Lemma need_start : need s.
  Proof. unfold need, needed. apply grow_incl. left. auto. Qed.

  Lemma in_links (q : list (V * bdy)) x h : In (x, h) (links q) <-> exists bd, In (h, bd) q /\ In (Var x) bd.
  Proof.
    unfold links. rewrite in_flat_map. split.
    - intros ([h' bd] & Hi & H). apply in_flat_map in H. destruct H as ([t|u|] & Hs & H); try destruct H as [E|[]]; try contradiction.
      cbn in E. injection E as -> ->. eauto.
    - intros (bd & Hi & Hx). exists (h, bd). split; auto. apply in_flat_map. exists (Var x). split; auto. left. auto.
  Qed.

  Lemma need_next v bd x : R3 v bd -> In (Var x) bd -> need x.
  Proof.
    intros [H2 Hv] Hx. unfold need, needed. eapply (grow_closed (fun l h => memb h l)); [apply missing_all| |apply memb_in; exact Hv].
    apply in_links. exists bd. split; auto. apply fertile_R2. auto.
  Qed.

  Lemma der_R3 y : der R2 y -> (forall v, sat teq (Var v) y -> need v) -> der R3 y.
  Proof.
    induction y as [t|v ys IH] using tree_ind2; intros D Hv; [constructor|].
    inversion D as [|v' bd cs' H1 H2 H3]; subst. assert (HR : R3 v bd) by (split; auto; apply Hv; reflexivity).
    econstructor; eauto. assert (Hn : forall x, In (Var x) bd -> need x) by (intros x; apply need_next with (1 := HR)). clear D Hv H1 HR.
    revert bd H2 Hn. induction IH as [|y ys F1 F2 IHy]; intros bd H2 Hn; inversion H2 as [|c ? b ? Hs Hb]; subst; [constructor|].
    inversion H3 as [|? ? D1 D2]; subst. constructor.
    - apply F1; auto. intros u Hu. apply Hn. left. destruct c as [t|w|], y as [t'|w' zs]; cbn in *; try contradiction. congruence.
    - apply (IHy D2 b Hb). intros x Hx. apply Hn. right. auto.
  Qed.

  Lemma R3_rule v : fert v -> need v -> exists bd, R3 v bd.
  Proof.
    intros Hf Hn. destruct (fert_tree v Hf) as (y & Dy & Sy). destruct (der_R2 y Dy) as [D2 _].
    destruct y as [t|u ys]; [contradiction|]. cbn in Sy. subst u. inversion D2 as [|? bd ? H1 _ _]; subst. exists bd. split; auto.
  Qed.

  (** ** The grammar with these rules *)

  Variable g' : grammar V T.
  Hypothesis Hg' : forall v bd, rule g' v bd <-> R3 v bd.
  Hypothesis Hs' : g_start g' = s.

  Lemma R1_no_eps v bd : R1 v bd -> ~ In Eps bd.
  Proof. intros (b0 & _ & Hk & _). eapply keeps_no_eps; eauto. Qed.

  Lemma g'_no_eps v bd : rule g' v bd -> ~ In Eps bd.
  Proof. intros H. apply Hg' in H. destruct H as [[H _] _]. eapply R1_no_eps; eauto. Qed.

  Lemma der_iff x : derivation g' teq x <-> der R3 x.
  Proof.
    split.
    - intros H. eapply der_mono; [|apply derivation_der; [exact g'_no_eps|exact H]]. intros v bd. apply Hg'.
    - intros H. apply der_derivation. eapply der_mono; [|exact H]. intros v bd. apply Hg'.
  Qed.

  Lemma tree_steps (gg : grammar V T) x : derivation gg teq x -> forall c, sat teq c x ->
    exists w, steps gg [c] (map Ter w) /\ Forall2 (fun t t' => teq t t' = true) w (leaves x).
  Proof.
    induction x as [t|v cs IH] using tree_ind2; intros D c Hc.
    - destruct c as [t'|u|]; try contradiction. exists [t']. split; [constructor|]. constructor; [exact Hc|constructor].
    - destruct c as [t'|u|]; try contradiction. cbn in Hc. subst u. inversion D as [|v' bd cs' H1 H2 H3]; subst.
      assert (Hb : exists w, steps gg bd (map Ter w) /\ Forall2 (fun t t' => teq t t' = true) w (flat_map leaves cs)).
      { clear D H1. revert cs IH H2 H3. induction bd as [|c bd IHb]; intros cs IH H2 H3.
        - inversion H2; subst. exists []. split; constructor.
        - destruct (eps_or_not c) as [->|N].
          { destruct (IHb cs IH H2 H3) as (w & K1 & K2). exists w. split; auto. eapply steps_trans; [|exact K1]. apply step_steps.
            exact (step_eps gg [] bd). }
          assert (Ef : filter not_eps (c :: bd) = c :: filter not_eps bd) by (destruct c; [reflexivity|reflexivity|congruence]).
          rewrite Ef in H2. inversion H2 as [|? x ? cs1 Hx Hxs]; subst. inversion H3 as [|? ? D1 D2]; subst. inversion IH as [|? ? F1 F2]; subst.
          destruct (IHb cs1 F2 Hxs D2) as (w & K1 & K2). destruct (F1 D1 c Hx) as (w1 & J1 & J2). exists (w1 ++ w). split.
          + rewrite map_app. pose proof (steps_ctx gg [] bd _ _ J1) as S1. pose proof (steps_ctx gg (map Ter w1) [] _ _ K1) as S2.
            cbn in S1. rewrite !app_nil_r in S2. eapply steps_trans; eauto.
          + cbn. apply Forall2_app; auto. }
      destruct Hb as (w & K1 & K2). exists w. split; [|exact K2]. eapply steps_trans; [|exact K1]. apply step_steps.
      pose proof (step_rule gg [] v bd [] H1) as S. cbn in S. rewrite app_nil_r in S. exact S.
  Qed.

  Lemma g'_reachable v : need v -> reachable g' v.
  Proof.
    unfold need, needed. revert v. apply grow_sound.
    - intros v [<-|[]]. exists [], []. rewrite Hs'. constructor.
    - intros l' x h Hin Hl Hi Ho. apply memb_in in Ho. apply in_links in Hi. destruct Hi as (bd & Hi & Hx). apply fertile_R2 in Hi.
      assert (Hr : rule g' h bd) by (apply Hg'; split; auto; apply Hin; auto).
      destruct (Hl h Ho) as (l & r & Hst). apply in_split in Hx. destruct Hx as (b1 & b2 & ->). exists (l ++ b1), (b2 ++ r).
      eapply steps_next; [exact Hst|]. replace ((l ++ b1) ++ Var x :: b2 ++ r) with (l ++ (b1 ++ Var x :: b2) ++ r)
        by (rewrite <- !app_assoc; reflexivity). constructor. exact Hr.
  Qed.

  Lemma g'_clean : clean g'.
  Proof.
    split; [intros v bd _ H; eapply g'_no_eps; eauto|]. split.
    - intros v bd H. apply g'_reachable. apply Hg' in H. apply H.
    - intros v bd H. apply Hg' in H. destruct H as [H2 Hn]. destruct (fert_tree v (R2_fert _ _ H2)) as (y & Dy & Sy).
      destruct (der_R2 y Dy) as [D2 _]. assert (D3 : der R3 y).
      { apply der_R3; auto. intros u Hu. destruct y as [t|w ys]; [contradiction|]. cbn in *. congruence. }
      apply der_iff in D3. destruct (tree_steps g' y D3 (Var v) Sy) as (w & Hw & _). exists w. exact Hw.
  Qed.

  Hypothesis Hs : s = g_start g.

  Lemma cleaned_parses ts x : parses g teq ts x -> ts <> [] -> exists y, pruned x = [y] /\ parses g' teq ts y.
  Proof.
    intros (D & L & cs & E) N. destruct (pruned_shape x) as [Ex|(y & Ex)]; [apply pruned_nil in Ex; congruence|].
    exists y. split; auto. destruct (prune_der x D y) as [D1 Sy]; [rewrite Ex; left; auto|]. destruct (der_R2 y D1) as [D2 _].
    assert (Hy : sat teq (Var s) y) by (apply Sy; rewrite E; cbn; auto). split; [|split].
    - apply der_iff. apply der_R3; auto. intros u Hu. destruct y as [t|w ys]; [contradiction|]. cbn in *. rewrite Hu, <- Hy. exact need_start.
    - rewrite <- L, <- (pruned_leaves x), Ex. cbn. rewrite app_nil_r. reflexivity.
    - rewrite Hs'. destruct y as [t|w ys]; [contradiction|]. cbn in Hy. subst w. eauto.
  Qed.

  Lemma parses_cleaned ts y : parses g' teq ts y -> exists x, parses g teq ts x /\ pruned x = [y].
  Proof.
    intros (D & L & cs & E). apply der_iff in D. assert (D1 : der R1 y) by (eapply der_mono; [|exact D]; intros v bd H; apply H).
    destruct (der_prune y D1) as (x & Dx & Px & Sx). exists x. split; auto. split; auto. split.
    - rewrite <- L, <- (pruned_leaves x), Px. cbn. rewrite app_nil_r. reflexivity.
    - assert (Hx : sat teq (Var s) x) by (apply Sx; rewrite E, Hs'; reflexivity). destruct x as [t|w xs]; [contradiction|].
      cbn in Hx. subst w. rewrite Hs. eauto.
  Qed.

  Lemma cleaned_full ts y : parses g' teq ts y -> ts <> [].
  Proof.
    intros H. destruct (parses_cleaned _ _ H) as (x & _ & Px). destruct H as (_ & L & _). rewrite <- L.
    apply (pruned_full x). rewrite Px. left. auto.
  Qed.

  (** The steps of the clean grammar are steps of the grammar. *)
  Lemma keeps_steps bd bd' : keeps nul bd bd' -> steps g bd bd'.
  Proof.
    induction 1 as [|b b' H IH|c b b' N H IH|v b b' Hv H IH].
    - constructor.
    - eapply steps_trans; [|exact IH]. apply step_steps. exact (step_eps g [] b).
    - pose proof (steps_ctx g [c] [] _ _ IH) as S. rewrite !app_nil_r in S. exact S.
    - eapply steps_trans; [|exact IH]. destruct Hv as (x & D & Sx & L). destruct (tree_steps g x D _ Sx) as (w & Hw & Hf).
      rewrite L in Hf. inversion Hf; subst. exact (steps_ctx g [] b _ _ Hw).
  Qed.

  Lemma cleaned_steps x y : steps g' x y -> steps g x y.
  Proof.
    induction 1 as [|x y u H IH S]; [constructor|]. eapply steps_trans; [exact IH|]. destruct S as [l v bd r Hr|l r].
    - apply Hg' in Hr. destruct Hr as [[(b0 & Hr & Hk & _) _] _]. apply (steps_ctx g l r [Var v] bd).
      eapply steps_trans; [|apply keeps_steps; exact Hk]. apply step_steps.
      pose proof (step_rule g [] v b0 [] Hr) as S. cbn in S. rewrite app_nil_r in S. exact S.
    - apply step_steps. constructor.
  Qed.
End Trees.
