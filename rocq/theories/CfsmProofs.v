(** Construction of the automaton: invariants, termination, and the item sets of
    its states. *)
From Verif Require Import Base GrammarModel CfsmModel SlrModel SpecCfg GrammarProofs FirstProofs FollowProofs GrammarTotal
  ItemProofs.

(** ** Counting sets of items *)
Section Count.
  Fixpoint vecs (n : nat) : list (list bool) :=
    match n with
    | 0 => [[]]
    | S n' => map (cons true) (vecs n') ++ map (cons false) (vecs n')
    end.

  Lemma in_vecs n : forall l, length l = n -> In l (vecs n).
  Proof.
    induction n as [|n IH]; intros [|b l] H; cbn in *; try lia; auto.
    apply in_app_iff. destruct b; [left|right]; apply in_map; apply IH; lia.
  Qed.

  Definition vmem (c : list bool) (A : list (list bool)) : bool := if in_dec (list_eq_dec Bool.bool_dec) c A then true else false.

  Lemma vmem_in c A : vmem c A = true <-> In c A.
  Proof. unfold vmem. destruct (in_dec _ c A); split; intros; auto; discriminate. Qed.

  Definition mu (n : nat) (A : list (list bool)) : nat := length (filter (fun c => negb (vmem c A)) (vecs n)).

  Lemma filter_le {A} (f g : A -> bool) l : (forall x, f x = true -> g x = true) ->
    length (filter f l) <= length (filter g l).
  Proof.
    intros H. induction l as [|x l IH]; cbn; auto.
    destruct (f x) eqn:E.
    - rewrite (H x E). cbn. lia.
    - destruct (g x); cbn; lia.
  Qed.

  Lemma filter_lt {A} (f g : A -> bool) l x : (forall x, f x = true -> g x = true) ->
    In x l -> f x = false -> g x = true -> length (filter f l) < length (filter g l).
  Proof.
    intros H Hx Hf Hg. induction l as [|y l IH]; [destruct Hx|]. cbn. destruct Hx as [->|Hx].
    - rewrite Hf, Hg. cbn. pose proof (filter_le f g l H). lia.
    - specialize (IH Hx). destruct (f y) eqn:E.
      + rewrite (H y E). cbn. lia.
      + destruct (g y); cbn; lia.
  Qed.

  Lemma mu_le n A B : incl A B -> mu n B <= mu n A.
  Proof.
    intros H. apply filter_le. intros c Hc. apply negb_true_iff in Hc. apply negb_true_iff.
    destruct (vmem c A) eqn:E; auto. apply vmem_in in E. apply H, vmem_in in E. congruence.
  Qed.

  Lemma mu_lt n A B c : incl A B -> In c B -> ~ In c A -> length c = n -> mu n B < mu n A.
  Proof.
    intros H HB HA Hc. apply (filter_lt _ _ _ c).
    - intros d Hd. apply negb_true_iff in Hd. apply negb_true_iff.
      destruct (vmem d A) eqn:E; auto. apply vmem_in in E. apply H, vmem_in in E. congruence.
    - apply in_vecs. auto.
    - apply negb_false_iff. apply vmem_in. auto.
    - apply negb_true_iff. destruct (vmem c A) eqn:E; auto. apply vmem_in in E. tauto.
  Qed.
End Count.

Section Automaton.
  Context {V T : Type} {dv : DecEq V} {dt : DecEq T}.
  Notation sym := (symbol V T).
  Notation itm := (item V T).
  Notation cst := (cstate V T).
  Implicit Types (st : cst) (s : sym).
  Variable g : grammar V T.
  Hypothesis Hgood : good g.

  Definition items_ok (l : item_set V T) : Prop := NoDup l /\ forall it, In it l -> item_ok g it.

  Definition start_of : itm -> Prop :=
    clos g (fun it => exists bd, rule g (g_start g) bd /\ it = (g_start g, item_from bd)).

  Definition goto_of (l : item_set V T) s : itm -> Prop :=
    clos g (fun it => exists h ib, In (h, ib) l /\ cursor_symbol ib = Some s /\ it = (h, advance ib)).

  Lemma goto_ok l s it : items_ok l -> goto_of l s it -> item_ok g it.
  Proof.
    intros [_ Hl] H. eapply clos_ok; [|exact H]. intros it' (h & ib & H1 & H2 & ->).
    destruct (advance_ok _ _ H2). destruct (Hl _ H1) as (Hr & _). split; auto.
  Qed.

  Lemma same_items_iff (x y : item_set V T) : same_items x y = true <-> forall it, In it x <-> In it y.
  Proof.
    unfold same_items. rewrite andb_true_iff, !forallb_forall. split.
    - intros [H1 H2] it. split; intros H; [apply H1 in H|apply H2 in H]; apply memb_in; auto.
    - intros H. split; intros it Hi; apply memb_in; apply H; auto.
  Qed.

  Definition chi (l : item_set V T) : list bool := map (fun u => memb u l) (all_items g).

  Lemma chi_same (x y : item_set V T) : items_ok x -> items_ok y -> chi x = chi y <-> same_items x y = true.
  Proof.
    intros [_ Hx] [_ Hy]. rewrite same_items_iff. split.
    - intros E it. assert (Hu : forall u, In u (all_items g) -> memb u x = memb u y).
      { unfold chi in E. revert E. generalize (all_items g). induction l as [|a l IH]; intros E u []; injection E as E1 E2.
        - subst; auto.
        - auto. }
      split; intros H.
      + apply memb_in. rewrite <- Hu by (apply in_all_items; auto). apply memb_in. auto.
      + apply memb_in. rewrite Hu by (apply in_all_items; auto). apply memb_in. auto.
    - intros E. unfold chi. apply map_ext. intros u.
      destruct (memb u x) eqn:E1; destruct (memb u y) eqn:E2; auto.
      + apply memb_in in E1. apply memb_not_in in E2. destruct E2. apply E. auto.
      + apply memb_in in E2. apply memb_not_in in E1. destruct E1. apply E. auto.
  Qed.

  Lemma chi_length l : length (chi l) = length (all_items g).
  Proof. unfold chi. apply map_length. Qed.

  (** ** Successors of one state *)

  Definition proj st : nat * item_set V T := (cs_id st, cs_items st).

  Definition leads_to (known : list (nat * item_set V T)) (l : item_set V T) s k : Prop :=
    exists its, In (k, its) known /\ forall it, In it its <-> goto_of l s it.

  Context {ho : HashOrder}.

  Lemma kernel_closure l s grp q : items_ok l -> NoDup grp ->
    (forall h ib, In (h, ib) grp <-> In (h, ib) l /\ cursor_symbol ib = Some s) ->
    exists n res,
      (forall fuel, n <= fuel ->
         from_incomplete_map fuel q (set_extend (map (fun it => (fst it, advance (snd it))) grp) []) g = Val res) /\
      items_ok res /\ forall it, In it res <-> goto_of l s it.
  Proof.
    intros Hl Hn Hgrp.
    set (K := set_extend (map (fun it => (fst it, advance (snd it))) grp) []).
    assert (HK : forall it, In it K <-> exists h ib, In (h, ib) l /\ cursor_symbol ib = Some s /\ it = (h, advance ib)).
    { intros it. unfold K. rewrite in_kernel. split.
      - intros (h & ib & H & E). apply Hgrp in H. exists h, ib. tauto.
      - intros (h & ib & H1 & H2 & E). exists h, ib. split; auto. apply Hgrp. auto. }
    destruct (from_incomplete_map_spec g Hgood q K) as (n & res & E & Hnd & Hres).
    - intros it H. apply (goto_ok l s it Hl). apply clos_in. apply HK; auto.
    - apply nodup_set_extend. constructor.
    - exists n, res. split; [auto|].
      assert (Hgo : forall it, In it res <-> goto_of l s it).
      { intros it. rewrite Hres. apply clos_iff. exact HK. }
      split; [|exact Hgo]. split; auto. intros it H. apply Hgo in H. eapply goto_ok; eauto.
  Qed.

  Lemma in_mupdate_new {A B} `{DecEq A} k (d : B) f m : In (k, f (match mget k m with Some b => b | None => d end)) (mupdate k d f m).
  Proof. apply mget_in. apply mget_mupdate_same. Qed.

  Lemma in_mupdate_old {A B} `{DecEq A} k k' (b d : B) f m : k' <> k -> In (k', b) m -> In (k', b) (mupdate k d f m).
  Proof.
    intros Hne. induction m as [|[a x] m IH]; intros Hin; [destruct Hin|]. cbn.
    destruct (eqb_spec k a) as [->|E].
    - destruct Hin as [E|Hin]; [congruence|right; auto].
    - destruct Hin as [E'|Hin]; [left; auto|right; auto].
  Qed.

  Definition keys_of (gs : list (nat * (sym * item_set V T))) : list sym := map (fun e => fst (snd e)) gs.

  Lemma cfsm_groups_spec l q added gs : items_ok l -> forall trans next pending,
    NoDup (keys_of gs) ->
    (forall i s grp, In (i, (s, grp)) gs -> NoDup grp /\ forall h ib, In (h, ib) grp <-> In (h, ib) l /\ cursor_symbol ib = Some s) ->
    NoDup (map fst trans) ->
    exists n trans' new,
      (forall fuel, n <= fuel ->
         cfsm_groups fuel q g added gs trans next pending = Val (trans', next + length new, pending ++ new)) /\
      map cs_id new = seq next (length new) /\
      (forall st, In st new -> cs_trans st = [] /\ items_ok (cs_items st) /\
         (forall a, In a added -> same_items (cs_items a) (cs_items st) = false) /\
         exists s, In (s, cs_id st) trans') /\
      NoDup (map fst trans') /\
      (forall s, In s (map fst trans') <-> In s (map fst trans) \/ In s (keys_of gs)) /\
      (forall s k, In (s, k) trans' -> In (s, k) trans \/ leads_to (map proj (added ++ new)) l s k) /\
      (forall s k, In (s, k) trans -> ~ In s (keys_of gs) -> In (s, k) trans').
  Proof.
    intros Hl. induction gs as [|(i & s & grp) gs IH]; intros trans next pending Hnd Hgs Htr.
    - exists 0, trans, []. split.
      { intros [|] _; cbn; rewrite app_nil_r, Nat.add_0_r; reflexivity. }
      split; [reflexivity|]. split; [intros st []|]. split; [auto|]. split; [cbn; tauto|]. split; auto.
    - destruct (Hgs i s grp (or_introl eq_refl)) as [Hg1 Hg2].
      destruct (kernel_closure l s grp (i :: 2 :: q) Hl Hg1 Hg2) as (n1 & items & E1 & Hio & Hin).
      cbn in Hnd. inversion Hnd as [|? ? Hs Hnd']; subst.
      destruct (find (fun st => same_items (cs_items st) items) added) as [st|] eqn:Ef.
      + pose proof (find_some _ _ Ef) as [Ha Hsame]. rewrite same_items_iff in Hsame.
        destruct (IH (mupdate s 0 (fun _ => cs_id st) trans) next pending Hnd') as
          (n2 & trans' & new & E2 & H1 & H2 & H3 & H4 & H5 & H6).
        { intros i' s' grp' H. apply (Hgs i'). right; auto. }
        { apply mupdate_nodup; auto. }
        exists (n1 + n2), trans', new. split.
        { intros fuel Hf. cbn [cfsm_groups]. rewrite E1 by lia. cbn [bind]. rewrite Ef. apply E2. lia. }
        split; [auto|]. split; [auto|]. split; [auto|]. split; [|split].
        * intros s'. rewrite H4, in_mupdate_keys. cbn. intuition.
        * intros s' k H. apply H5 in H. destruct H as [H|H]; auto. apply in_mupdate in H.
          destruct H as [H|(-> & H)]; auto. right.
          assert (k = cs_id st) as -> by (destruct H as [->|(? & _ & ->)]; reflexivity).
          exists (cs_items st). split.
          -- apply (in_map proj). apply in_app_iff. auto.
          -- intros it. rewrite Hsame. apply Hin.
        * intros s' k H Hk. apply H6.
          -- apply in_mupdate_old; auto. intros ->. apply Hk. left. reflexivity.
          -- intros Hs'. apply Hk. right. auto.
      + pose proof (find_none _ _ Ef) as Hno.
        set (st1 := {| cs_id := next; cs_items := items; cs_trans := [] |}).
        destruct (IH (mupdate s 0 (fun _ => next) trans) (S next) (pending ++ [st1]) Hnd') as
          (n2 & trans' & new & E2 & H1 & H2 & H3 & H4 & H5 & H6).
        { intros i' s' grp' H. apply (Hgs i'). right; auto. }
        { apply mupdate_nodup; auto. }
        exists (n1 + n2), trans', (st1 :: new). split.
        { intros fuel Hf. cbn [cfsm_groups]. rewrite E1 by lia. cbn [bind]. rewrite Ef. fold st1.
          rewrite E2 by lia. rewrite <- app_assoc. cbn [length app]. rewrite Nat.add_succ_r. reflexivity. }
        split; [cbn [map length seq]; rewrite H1; reflexivity|]. split.
        { intros st [<-|H]; auto. split; [reflexivity|]. split; [auto|]. split; [intros a Ha; apply Hno; auto|].
          exists s. apply H6; auto. apply (in_mupdate_new s 0 (fun _ => next)). }
        split; [auto|]. split; [|split].
        * intros s'. rewrite H4, in_mupdate_keys. cbn. intuition.
        * assert (Hmono : forall s' k, leads_to (map proj (added ++ new)) l s' k -> leads_to (map proj (added ++ st1 :: new)) l s' k).
          { intros s' k (its & Ha & Hb). exists its. split; auto. rewrite map_app in *. apply in_app_iff in Ha.
            apply in_app_iff. destruct Ha as [Ha|Ha]; auto. right. right. auto. }
          intros s' k H. apply H5 in H. destruct H as [H|H]; auto. apply in_mupdate in H.
          destruct H as [H|(-> & H)]; auto. right.
          assert (k = next) as -> by (destruct H as [->|(? & _ & ->)]; reflexivity).
          exists items. split; auto. change (next, items) with (proj st1). apply in_map. apply in_app_iff. right. left. auto.
        * intros s' k H Hk. apply H6.
          -- apply in_mupdate_old; auto. intros ->. apply Hk. left. reflexivity.
          -- intros Hs'. apply Hk. right. auto.
  Qed.

  (** ** The work list *)

  Definition trans_ok (known : list (nat * item_set V T)) st : Prop :=
    NoDup (map fst (cs_trans st)) /\
    (forall s, In s (map fst (cs_trans st)) <-> exists h ib, In (h, ib) (cs_items st) /\ cursor_symbol ib = Some s) /\
    (forall s k, In (s, k) (cs_trans st) -> leads_to known (cs_items st) s k).

  Definition machine (states : list cst) : cfsm V T := {| cf_start := 0; cf_states := states; cf_grammar := g |}.

  Record minv (added : list cst) (next : nat) (pending : list cst) : Prop := {
    m_ids : map cs_id (added ++ pending) = seq 0 next;
    m_items : forall st, In st (added ++ pending) -> items_ok (cs_items st);
    m_empty : forall st, In st pending -> cs_trans st = [];
    m_trans : forall st, In st added -> trans_ok (map proj (added ++ pending)) st;
    m_start : exists its, In (0, its) (map proj (added ++ pending)) /\ forall it, In it its <-> start_of it;
    m_reach : forall st, In st (added ++ pending) -> exists w, path (machine added) 0 w (cs_id st)
  }.

  Lemma leads_mono known known' l s k : incl known known' -> leads_to known l s k -> leads_to known' l s k.
  Proof. intros H (its & H1 & H2). exists its. split; auto. Qed.

  Lemma path_mono a b i w j : (forall st, In st a -> In st b) -> path (machine a) i w j -> path (machine b) i w j.
  Proof. intros H. induction 1; [constructor|]. econstructor; eauto. Qed.

  Lemma add_state_last st added : (forall a, In a added -> cs_id a < cs_id st) -> add_state st added = added ++ [st].
  Proof.
    induction added as [|a added IH]; intros H; cbn [add_state app]; auto.
    assert (cs_id a < cs_id st) by (apply H; left; auto).
    destruct (Nat.eqb_spec (cs_id st) (cs_id a)); [lia|]. destruct (Nat.ltb_spec (cs_id st) (cs_id a)); [lia|].
    f_equal. apply IH. intros b Hb. apply H. right; auto.
  Qed.

  (** Processing the first pending state. *)
  Lemma cfsm_step added next st rest q : minv added next (st :: rest) ->
    exists n trans new,
      (forall fuel, n <= fuel ->
         cfsm_groups fuel q g added (enumerate (group_items q (cs_items st))) (cs_trans st) next rest
           = Val (trans, next + length new, rest ++ new)) /\
      (forall b, In b new -> forall a, In a added -> same_items (cs_items a) (cs_items b) = false) /\
      let st' := {| cs_id := cs_id st; cs_items := cs_items st; cs_trans := trans |} in
      add_state st' added = added ++ [st'] /\
      minv (added ++ [st']) (next + length new) (rest ++ new).
  Proof.
    intros [Hids Hitems Hempty Htrans Hstart Hreach].
    assert (Hst : In st (added ++ st :: rest)) by (apply in_app_iff; right; left; auto).
    destruct (group_items_spec q (cs_items st)) as [G1 G2 G3 G4].
    assert (Hgk : keys_of (enumerate (group_items q (cs_items st))) =
                  map fst (group_items q (cs_items st))).
    { rewrite <- (map_snd_enumerate (group_items q (cs_items st))) at 2. rewrite map_map. reflexivity. }
    destruct (cfsm_groups_spec (cs_items st) q added (enumerate (group_items q (cs_items st))) (Hitems _ Hst)
                (cs_trans st) next rest) as (n & trans & new & E & H1 & H2 & H3 & H4 & H5 & H6).
    { rewrite Hgk. auto. }
    { intros i s grp H.
      assert (Hin : In (s, grp) (group_items q (cs_items st))).
      { apply in_enumerate. apply in_map_iff. eexists; split; [|exact H]. reflexivity. }
      split; [eapply G2; eauto|]. intros h ib. split.
      - intros Hi. apply (G3 _ _ _ Hin Hi).
      - intros [Hi Hc]. destruct (G4 (h, ib) s Hi Hc) as (grp' & Ha & Hb).
        replace grp with grp'; auto. apply (in_mget _ _ _ G1) in Ha. apply (in_mget _ _ _ G1) in Hin. congruence. }
    { rewrite Hempty by (left; auto). constructor. }
    rewrite (Hempty st) in H4, H5, H6 by (left; auto).
    exists n, trans, new. split; [exact E|]. split.
    { intros b Hs a Ha. apply H2; auto. }
    set (st' := {| cs_id := cs_id st; cs_items := cs_items st; cs_trans := trans |}). cbn zeta.
    assert (Hlt : forall a, In a added -> cs_id a < cs_id st).
    { intros a Ha. rewrite map_app in Hids. cbn in Hids.
      assert (Hs : forall n k (x y : list nat) c, x ++ c :: y = seq k n -> forall b, In b x -> b < c).
      { clear. induction n as [|n IH]; intros k x y c E b Hb; [destruct x; discriminate|].
        destruct x as [|z x]; [destruct Hb|]. cbn in E. injection E as -> E. destruct Hb as [<-|Hb].
        - assert (Hc : In c (seq (S k) n)) by (rewrite <- E; apply in_app_iff; right; left; auto).
          apply in_seq in Hc. lia.
        - eapply IH; eauto. }
      eapply Hs; [exact Hids|]. apply in_map; auto. }
    split; [apply add_state_last; auto|].
    assert (Hproj : map proj (added ++ st :: rest) = map proj (added ++ [st'] ++ rest)) by (rewrite !map_app; reflexivity).
    assert (Happ : (added ++ [st']) ++ rest ++ new = (added ++ [st'] ++ rest) ++ new) by (rewrite <- !app_assoc; reflexivity).
    assert (Hincl : incl (map proj (added ++ st :: rest)) (map proj ((added ++ [st']) ++ rest ++ new))).
    { rewrite Happ, (map_app proj _ new), <- Hproj. apply incl_appl. apply incl_refl. }
    assert (Hincl2 : incl (map proj (added ++ new)) (map proj ((added ++ [st']) ++ rest ++ new))).
    { rewrite !map_app. intros x Hx. rewrite !in_app_iff in *. tauto. }
    assert (Hold : forall a, In a ((added ++ [st']) ++ rest ++ new) -> (exists b, In b (added ++ st :: rest) /\ proj b = proj a) \/ In a new).
    { intros a Ha. rewrite !in_app_iff in Ha. destruct Ha as [[Ha|[<-|[]]]|[Ha|Ha]]; auto; left.
      - exists a. split; auto. apply in_app_iff. auto.
      - exists st. split; auto.
      - exists a. split; auto. apply in_app_iff. right. right. auto. }
    split.
    - rewrite Happ, map_app, H1, seq_app. f_equal. rewrite <- Hids, !map_app. reflexivity.
    - intros a Ha. apply Hold in Ha. destruct Ha as [(b & Hb & E')|Ha].
      + injection E' as _ <-. auto.
      + apply H2; auto.
    - intros a Ha. apply in_app_iff in Ha. destruct Ha as [Ha|Ha]; [apply Hempty; right; auto|apply H2; auto].
    - intros a Ha. apply in_app_iff in Ha. destruct Ha as [Ha|[<-|[]]].
      + destruct (Htrans a Ha) as (A & B & C). split; [auto|]. split; [auto|].
        intros s k H. eapply leads_mono; [exact Hincl|]. auto.
      + split; [exact H3|]. split; cbn [cs_trans cs_items st'].
        * assert (Hk : forall s, In s (map fst trans) <-> In s (map fst (group_items q (cs_items st)))).
          { intros s. rewrite H4, Hgk. cbn [In map]. tauto. }
          intros s. rewrite Hk. split.
          -- intros H. apply in_map_iff in H. destruct H as ([s' grp] & <- & H).
             destruct (G2 _ _ H) as [_ Hne]. destruct grp as [|[h ib] grp]; [congruence|].
             destruct (G3 _ _ _ H (or_introl eq_refl)) as [Ha Hb]. exists h, ib. auto.
          -- intros (h & ib & Ha & Hb). destruct (G4 _ _ Ha Hb) as (grp & Hc & _).
             change s with (fst (s, grp)). apply in_map. auto.
        * intros s k H. apply H5 in H. destruct H as [[]|H]. eapply leads_mono; [exact Hincl2|exact H].
    - destruct Hstart as (its & A & B). exists its. split; auto.
    - intros a Ha. apply Hold in Ha. destruct Ha as [(b & Hb & E')|Ha].
      + injection E' as <- _. destruct (Hreach b Hb) as (w & Hw). exists w. eapply path_mono; [|exact Hw].
        intros x Hx. apply in_app_iff. auto.
      + destruct (H2 a Ha) as (_ & _ & _ & s & Hs). destruct (Hreach st Hst) as (w & Hw).
        exists (w ++ [s]). apply (path_step _ _ _ (cs_id st) _ _ st').
        * eapply path_mono; [|exact Hw]. intros x Hx. apply in_app_iff. auto.
        * cbn. apply in_app_iff. right. left. auto.
        * reflexivity.
        * exact Hs.
  Qed.

  Lemma chi_fresh (x y : item_set V T) : items_ok x -> items_ok y -> same_items x y = false -> chi x <> chi y.
  Proof. intros Hx Hy H E. apply chi_same in E; auto. congruence. Qed.

  Definition chis (l : list cst) : list (list bool) := map (fun st => chi (cs_items st)) l.
  Notation bits := (length (all_items g)).

  Lemma cfsm_loop_spec q n : forall m P S added next cur nxt k,
    minv added next (cur ++ nxt) -> incl P S -> incl S (chis added) ->
    (forall st, In st cur -> ~ In (chi (cs_items st)) P) ->
    (forall st, In st nxt -> ~ In (chi (cs_items st)) S) ->
    (nxt = [] \/ exists st, In st added /\ ~ In (chi (cs_items st)) P) ->
    mu bits P + mu bits S <= n -> length cur <= m ->
    exists f res next', (forall fuel, f <= fuel -> cfsm_loop fuel k q g added next (cur ++ nxt) = Val res) /\
      minv res next' [].
  Proof.
    induction n as [n IHn] using lt_wf_ind. induction m as [|m IHm]; intros P S added next cur nxt k Hi HPS HSA Hc Hx Hf Hn Hm.
    - destruct cur; [|cbn in Hm; lia]. cbn [app] in *. destruct nxt as [|st nxt].
      + exists 0, added, next. split; [intros [|]; reflexivity|auto].
      + destruct Hf as [Hf|(a & Ha & Hf)]; [discriminate|].
        assert (Hlt : mu bits (chis added) < mu bits P).
        { apply (mu_lt _ _ _ (chi (cs_items a))).
          - eapply incl_tran; eauto.
          - apply (in_map (fun st => chi (cs_items st))); auto.
          - auto.
          - apply chi_length. }
        rewrite <- (app_nil_r (st :: nxt)) in Hi |- *.
        eapply (IHn (mu bits S + mu bits (chis added))) with (P := S) (S := chis added); auto using incl_refl; try lia.
    - destruct cur as [|st cur].
      { apply (IHm P S); auto. cbn; lia. }
      cbn [app] in Hi |- *.
      destruct (cfsm_step added next st (cur ++ nxt) (k :: 3 :: q) Hi) as (f1 & trans & new & E1 & Hnew & Hadd & Hi').
      set (st' := {| cs_id := cs_id st; cs_items := cs_items st; cs_trans := trans |}) in *.
      assert (Hsub : incl (chis added) (chis (added ++ [st']))) by (unfold chis; rewrite map_app; apply incl_appl, incl_refl).
      destruct (IHm P S (added ++ [st']) (next + length new) cur (nxt ++ new) (Datatypes.S k)) as (f2 & res & next' & E2 & Hr); auto.
      + rewrite app_assoc. exact Hi'.
      + eapply incl_tran; eauto.
      + intros a Ha. apply Hc. right; auto.
      + intros a Ha. apply in_app_iff in Ha. destruct Ha as [Ha|Ha]; auto.
        intros Hin. apply HSA in Hin. unfold chis in Hin. apply in_map_iff in Hin. destruct Hin as (b & Eb & Hb).
        revert Eb. apply chi_fresh; auto.
        * apply (m_items _ _ _ Hi). apply in_app_iff. auto.
        * apply (m_items _ _ _ Hi'). apply in_app_iff. right. apply in_app_iff. auto.
      + right. exists st'. split; [apply in_app_iff; right; left; auto|]. apply (Hc st). left; auto.
      + cbn in Hm. lia.
      + exists (Datatypes.S (f1 + f2)), res, next'. split; auto. intros [|fuel] Hfuel; [lia|].
        cbn [cfsm_loop]. rewrite E1 by lia. cbn [bind]. fold st'. rewrite Hadd. rewrite <- app_assoc. apply E2. lia.
  Qed.

  (** ** The automaton *)

  Record cfsm_ok (c : cfsm V T) : Prop := {
    ok_start : cf_start c = 0;
    ok_grammar : cf_grammar c = g;
    ok_ids : map cs_id (cf_states c) = seq 0 (length (cf_states c));
    ok_items : forall st, In st (cf_states c) -> items_ok (cs_items st);
    ok_trans : forall st, In st (cf_states c) -> trans_ok (map proj (cf_states c)) st;
    ok_first : exists its, In (0, its) (map proj (cf_states c)) /\ forall it, In it its <-> start_of it;
    ok_reach : forall st, In st (cf_states c) -> exists w, path c 0 w (cs_id st)
  }.

  Lemma start_items q : exists n its,
    (forall fuel, n <= fuel ->
       (let! bds := of_option (get_rule_bodies g (g_start g)) in item_set_from_rules fuel q (g_start g) bds g) = Val its) /\
    items_ok its /\ forall it, In it its <-> start_of it.
  Proof.
    destruct (get_rule_some g _ Hgood (good_start g Hgood)) as (bds & E).
    set (K := map (fun bd => (g_start g, item_from bd)) bds).
    assert (HK : forall it, In it K <-> exists bd, rule g (g_start g) bd /\ it = (g_start g, item_from bd)).
    { intros it. unfold K. rewrite in_map_iff. split; intros (bd & H1 & H2); exists bd.
      - split; auto. eapply get_rule_in; eauto.
      - split; auto. rewrite (rule_get g _ bd Hgood) in H1. destruct H1 as (bds' & E' & H1). congruence. }
    assert (HK' : forall it, In it K -> item_ok g it).
    { intros it H. apply HK in H. destruct H as (bd & H & ->). destruct (item_from_ok bd). split; auto. }
    destruct (from_incomplete_map_spec g Hgood q K HK') as (n & res & Er & Hnd & Hres).
    - unfold K. apply FinFun.Injective_map_NoDup.
      + intros a b E'. injection E' as E' _. auto.
      + pose proof (good_ok g Hgood) as [_ Hg]. unfold get_rule_bodies in E. apply mget_in in E. apply (Hg _ _ E).
    - exists n, res. split; [|split; [split; [auto|]|]].
      + intros fuel Hf. rewrite E. cbn [of_option bind]. apply Er. auto.
      + intros it H. apply Hres in H. eapply clos_ok; [exact HK'|exact H].
      + intros it. rewrite Hres. apply clos_iff. exact HK.
  Qed.

  Lemma from_grammar_ok q : exists n c, (forall fuel, n <= fuel -> from_grammar fuel q g = Val c) /\ cfsm_ok c.
  Proof.
    destruct (start_items (4 :: q)) as (n1 & its & E1 & Hok & Hits).
    set (st0 := {| cs_id := 0; cs_items := its; cs_trans := [] |}).
    assert (Hi : minv [] 1 [st0]).
    { split; cbn [app].
      - reflexivity.
      - intros st [<-|[]]. exact Hok.
      - intros st [<-|[]]. reflexivity.
      - intros st [].
      - exists its. split; [left; reflexivity|auto].
      - intros st [<-|[]]. exists []. constructor. }
    destruct (cfsm_loop_spec q (mu (length (all_items g)) [] + mu (length (all_items g)) []) 1 [] [] [] 1 [st0] [] 0 Hi (incl_refl _) (incl_refl _))
      as (n2 & res & next & E2 & []); auto.
    rewrite app_nil_r in *.
    exists (n1 + n2), (machine res). split.
    - intros fuel Hf. unfold from_grammar. specialize (E1 fuel ltac:(lia)).
      apply bind_val in E1. destruct E1 as (bds & E1a & E1b). rewrite E1a. cbn [bind]. rewrite E1b. cbn [bind].
      fold st0. rewrite E2 by lia. cbn [bind]. unfold cfsm_build.
      assert (H0 : In 0 (map cs_id res)).
      { destruct m_start0 as (its0 & H & _). apply in_map_iff in H. destruct H as (st & E & H). injection E as E _.
        rewrite <- E. apply in_map. auto. }
      rewrite (proj2 (memb_in 0 _) H0).
      assert (Hall : forallb (fun i => memb i (map cs_id res)) (0 :: flat_map (fun st => map snd (cs_trans st)) res) = true).
      { apply forallb_forall. intros i [<-|Hin]; apply memb_in; auto. apply in_flat_map in Hin.
        destruct Hin as (st & Hst & Hin). apply in_map_iff in Hin. destruct Hin as ([s k] & <- & Hin).
        destruct (m_trans0 st Hst) as (_ & _ & H3). destruct (H3 _ _ Hin) as (its' & H & _).
        apply in_map_iff in H. destruct H as (st' & E & H). injection E as <- _. cbn [snd]. apply in_map. auto. }
      rewrite Hall. reflexivity.
    - split; cbn [machine cf_start cf_grammar cf_states]; auto.
      rewrite m_ids0. f_equal. rewrite <- (map_length cs_id res), m_ids0, seq_length. reflexivity.
  Qed.
End Automaton.
