(** No operation of a program meets a dangling pointer. *)
From Verif Require Import Base GrammarModel CfsmModel SlrModel DotModel SpecCfg GrammarProofs GrammarTotal PtrModel PtrWorld PtrProofs.

(** ** The terminals of FOLLOW sets are in rules *)

Section Occurs.
  Context {V T : Type} {dv : DecEq V} {dt : DecEq T} {ho : HashOrder}.

  Definition occurs (g : grammar V T) (t : T) : Prop := exists v bd, rule g v bd /\ In (Ter t) bd.

  Lemma steps_occurs (g : grammar V T) x y t : steps g x y -> In (Ter t) y -> In (Ter t) x \/ occurs g t.
  Proof.
    induction 1 as [x|x y z _ IH Hs]; intros Hin; [auto|]. destruct Hs as [l v bd r Hr|l r].
    - apply in_app_or in Hin. destruct Hin as [Hin|Hin]; [apply IH; apply in_or_app; auto|].
      apply in_app_or in Hin. destruct Hin as [Hin|Hin]; [right; exists v, bd; auto|]. apply IH. apply in_or_app. right. right. exact Hin.
    - apply IH. apply in_app_or in Hin. apply in_or_app. destruct Hin; [auto|]. right. right. assumption.
  Qed.

  Lemma follow_occurs (g : grammar V T) fuel p fs v l t : built g -> follow_set fuel p g = Val fs -> mget v fs = Some l -> In (Ter t) l -> occurs g t.
  Proof.
    intros Hb Hf Hm Hin. destruct (follow_set_correct g Hb fuel p fs Hf) as (_ & _ & Hx). apply mget_in in Hm.
    destruct (proj1 (Hx v t) (ex_intro _ l (conj Hm Hin))) as (x & l' & r & _ & Hs).
    destruct (steps_occurs g _ _ t Hs) as [[E|[]]|Ho]; [apply in_or_app; right; right; left; reflexivity|discriminate|exact Ho].
  Qed.
End Occurs.

(** ** Some function gives such references *)

Section Locate.
  Context {V T : Type} {dt : DecEq T}.

  Fixpoint index {A} (f : A -> bool) (l : list A) : nat :=
    match l with [] => 0 | x :: r => if f x then 0 else S (index f r) end.

  Lemma index_found {A} (f : A -> bool) l x : In x l -> f x = true -> exists y, nth_error l (index f l) = Some y /\ f y = true.
  Proof.
    induction l as [|y l IH]; cbn; [contradiction|]. intros Hin Hx. destruct (f y) eqn:Ey; [exists y; auto|].
    destruct Hin as [->|Hin]; [congruence|]. exact (IH Hin Hx).
  Qed.

  Definition is_ter (t : T) (s : symbol V T) : bool := match s with Ter t' => eqb t t' | _ => false end.
  Definition in_body (t : T) (bd : body V T) : bool := existsb (is_ter t) bd.
  Definition in_bodies (t : T) (e : V * list (body V T)) : bool := existsb (in_body t) (snd e).

  (** The first place of the terminal. *)
  Definition locate (b : nat) (rs : rules V T) (v : V) (t : T) : sptr :=
    let i := index (in_bodies t) rs in
    let bds := match nth_error rs i with Some e => snd e | None => [] end in
    let j := index (in_body t) bds in
    let bd := match nth_error bds j with Some bd => bd | None => [] end in
    {| sp_body := {| bp_block := b; bp_rule := i; bp_body := j |}; sp_index := index (is_ter t) bd |}.

  Lemma locate_ok : refs_ok locate.
  Proof.
    intros b rs v t (w & bds & bd & H1 & H2 & H3) h Hh. unfold load_terminal, load_symbol, load_body, load_rules, locate.
    cbn [sp_body sp_index bp_block bp_rule bp_body]. rewrite Hh. cbn [mbind]. unfold rules, body in *.
    assert (E3 : is_ter t (Ter t) = true) by apply eqb_refl.
    assert (E2 : in_body t bd = true) by (apply existsb_exists; eauto).
    assert (E1 : in_bodies t (w, bds) = true) by (apply existsb_exists; exists bd; auto).
    destruct (index_found _ _ _ H1 E1) as ((w', bds') & I1 & F1). unfold body in I1. rewrite I1. cbn [snd].
    apply existsb_exists in F1. destruct F1 as (bd1 & G1 & G2). cbn in G1.
    destruct (index_found _ _ _ G1 G2) as (bd2 & I2 & F2). unfold body in I2. rewrite I2. cbn [mbind].
    apply existsb_exists in F2. destruct F2 as (s & S1 & S2).
    destruct (index_found _ _ _ S1 S2) as (s' & I3 & F3). rewrite I3. cbn [mbind]. destruct s'; cbn in F3; try discriminate. apply eqb_eq in F3. subst. reflexivity.
  Qed.
End Locate.

(** ** The invariant *)

Section World.
  Context {V T : Type} {dv : DecEq V} {dt : DecEq T} {ho : HashOrder}.
  Context (show_v : V -> list char) (show_t : T -> list char) (teq : T -> T -> bool).
  Variable refs : nat -> rules V T -> V -> T -> sptr.
  Hypothesis Hrefs : refs_ok refs.

  Definition block_of (o : @pobject V) : option nat :=
    match o with PCfsm b _ _ => Some b | PParser tb => Some (pt_block tb) | PGone => None end.

  Definition robj (h : heap V T) (o : @pobject V) (vo : vobject V T) : Prop :=
    match o, vo with
    | PCfsm b v sts, VCfsm c => h b = Some (g_rules (cf_grammar c)) /\ v = g_start (cf_grammar c) /\ rcfsm (cf_grammar c) b sts c
    | PParser tb, VParser vt => h (pt_block tb) = Some (g_rules (tb_grammar vt)) /\ rtable (tb_grammar vt) (pt_block tb) tb vt
    | PGone, VGone => True
    | _, _ => False
    end.

  Lemma robj_same h h' o vo : (forall b, block_of o = Some b -> h' b = h b) -> robj h o vo -> robj h' o vo.
  Proof.
    destruct o as [b v sts|tb|], vo as [c|vt|]; cbn; auto; intros He (H1 & H2); (split; [|exact H2]); rewrite He; auto.
  Qed.

  Record inv (w : world V T) (l : list (vobject V T)) : Prop := {
    inv_obj : Forall2 (robj (w_heap w)) (w_objects w) l;
    inv_old : forall i b, block_of (nth i (w_objects w) PGone) = Some b -> b < w_next w;
    inv_own : forall i j b, block_of (nth i (w_objects w) PGone) = Some b -> block_of (nth j (w_objects w) PGone) = Some b -> i = j
  }.

  Lemma Forall2_nth {A B} (R : A -> B -> Prop) l vs d dv' i : Forall2 R l vs -> R d dv' -> R (nth i l d) (nth i vs dv').
  Proof. intros Hf Hd. revert i. induction Hf; intros [|i]; cbn; auto. Qed.

  Lemma Forall2_by_nth {A B} (R R2 : A -> B -> Prop) l vs d :
    Forall2 R l vs -> (forall i v, i < length l -> R (nth i l d) v -> R2 (nth i l d) v) -> Forall2 R2 l vs.
  Proof.
    induction 1 as [|a v l vs Ha _ IH]; intros Hs; constructor; [exact (Hs 0 v ltac:(cbn; lia) Ha)|].
    apply IH. intros i v' Hi. exact (Hs (S i) v' ltac:(cbn; lia)).
  Qed.

  (** A new object, with its own block or none. *)
  Lemma inv_push w l h' n' o vo : inv w l -> w_next w <= n' ->
    (forall b, b < w_next w -> h' b = w_heap w b) ->
    (forall b, block_of o = Some b -> b = w_next w /\ w_next w < n') -> robj h' o vo ->
    inv {| w_heap := h'; w_next := n'; w_objects := w_objects w ++ [o] |} (l ++ [vo]).
  Proof.
    intros [Ho Hold Hown] Hn Hh Hb Hr. constructor; cbn.
    - apply Forall2_app; [|constructor; [exact Hr|constructor]]. eapply Forall2_by_nth with (d := PGone); [exact Ho|].
      intros i v _. apply robj_same. intros b Eb. apply Hh. exact (Hold i b Eb).
    - intros i b Ei. destruct (Nat.lt_ge_cases i (length (w_objects w))) as [Hi|Hi].
      + rewrite app_nth1 in Ei by exact Hi. apply Hold in Ei. lia.
      + rewrite app_nth2 in Ei by exact Hi. destruct (i - length (w_objects w)) as [|[|?]]; cbn in Ei; try discriminate. apply Hb in Ei. lia.
    - assert (Hc : forall i b, block_of (nth i (w_objects w ++ [o]) PGone) = Some b ->
        (i < length (w_objects w) /\ block_of (nth i (w_objects w) PGone) = Some b /\ b < w_next w) \/ (i = length (w_objects w) /\ b = w_next w)).
      { intros i b Ei. destruct (Nat.lt_ge_cases i (length (w_objects w))) as [Hi|Hi].
        - left. rewrite app_nth1 in Ei by exact Hi. repeat split; auto. exact (Hold i b Ei).
        - right. rewrite app_nth2 in Ei by exact Hi. destruct (i - length (w_objects w)) as [|[|?]] eqn:Es; cbn in Ei; try discriminate. apply Hb in Ei. lia. }
      intros i j b Ei Ej. apply Hc in Ei. apply Hc in Ej. destruct Ei as [(? & Ei & ?)|(? & ?)], Ej as [(? & Ej & ?)|(? & ?)]; try lia. exact (Hown i j b Ei Ej).
  Qed.

  Lemma set_gone_nth i (l : list (@pobject V)) j : i < length l -> nth j (set_gone i l) PGone = if Nat.eqb j i then PGone else nth j l PGone.
  Proof.
    unfold set_gone. revert i j. induction l as [|o l IH]; intros i j Hi; cbn in Hi; [lia|].
    destruct i as [|i], j as [|j]; cbn; try reflexivity. apply IH. lia.
  Qed.

  Lemma inv_drop w l i b : inv w l -> block_of (nth i (w_objects w) PGone) = Some b ->
    inv {| w_heap := free b (w_heap w); w_next := w_next w; w_objects := set_gone i (w_objects w) |} (firstn i l ++ VGone :: skipn (S i) l).
  Proof.
    intros [Ho Hold Hown] Hi.
    assert (Hlen : i < length (w_objects w)).
    { destruct (Nat.lt_ge_cases i (length (w_objects w))) as [?|Hge]; [assumption|]. rewrite nth_overflow in Hi by exact Hge. discriminate. }
    assert (Hne : forall j b', block_of (nth j (set_gone i (w_objects w)) PGone) = Some b' -> j <> i /\ block_of (nth j (w_objects w) PGone) = Some b').
    { intros j b' Ej. rewrite set_gone_nth in Ej by exact Hlen. destruct (Nat.eqb_spec j i); [discriminate|]. auto. }
    constructor; cbn.
    - apply (Forall2_by_nth (robj (w_heap w)) _ _ _ PGone).
      + unfold set_gone. apply Forall2_app; [apply Forall2_firstn; exact Ho|]. constructor; [exact I|]. exact (Forall2_skipn _ (S i) _ _ Ho).
      + intros j v _. apply robj_same. intros b' Ej. apply Hne in Ej. destruct Ej as (Hj & Ej). unfold free.
        destruct (Nat.eqb_spec b' b) as [->|]; [|reflexivity]. exfalso. apply Hj. exact (Hown j i b Ej Hi).
    - intros j b' Ej. apply Hne in Ej. exact (Hold j b' (proj2 Ej)).
    - intros j k b' Ej Ek. apply Hne in Ej. apply Hne in Ek. exact (Hown j k b' (proj2 Ej) (proj2 Ek)).
  Qed.

  (** ** Printing *)

  Lemma load_cfsm_ok h b v sts c : robj h (PCfsm b v sts) (VCfsm c) -> load_cfsm h b v sts = MVal c.
  Proof.
    cbn. intros (Hb & -> & Es & Hs & _). unfold load_cfsm, load_rules. rewrite Hb. cbn [mbind].
    rewrite (mmap_reads (rstate (cf_grammar c) b) (load_state h) sts (cf_states c)); [|intros st w Hw|exact Hs].
    - cbn. rewrite <- Es. destruct c as [s l [st rs]]; reflexivity.
    - destruct Hw as (Ei & Hi & Ht). unfold load_state. rewrite (mmap_here h _ b Hb _ _ _ Hi). cbn.
      rewrite (mmap_reads (rtrans (cf_grammar c) b) (load_trans h) (pc_trans st) (cs_trans w)); [|intros e x (H1 & H2)|exact Ht].
      + cbn. rewrite Ei. destruct w; reflexivity.
      + unfold load_trans. rewrite (here h _ b Hb _ _ _ H1). cbn. rewrite H2. destruct x; reflexivity.
  Qed.

  Lemma load_table_ok h tb vt : robj h (PParser tb) (VParser vt) -> load_table h tb = MVal (OTable (tb_action vt) (tb_goto vt)).
  Proof.
    cbn. intros (Hb & Ha & Eg & _). unfold load_table.
    rewrite (mmap_reads (Forall2 (rentry (tb_grammar vt) (pt_block tb))) (mmap (load_entry h)) (pt_action tb) (tb_action vt)); [|intros r vr Hr|exact Ha].
    - cbn. rewrite Eg. reflexivity.
    - apply (mmap_reads (rentry (tb_grammar vt) (pt_block tb))); [|exact Hr]. intros e x (H1 & H2).
      unfold load_entry. rewrite (here h _ _ Hb _ _ _ H1). cbn. rewrite H2. destruct x; reflexivity.
  Qed.

  (** ** One operation *)

  Lemma step_ok fuel n o w l : inv w l ->
    fst (p_step show_v show_t teq refs fuel n o w) = safe (fst (v_step show_v show_t teq fuel n o l)) /\
    inv (snd (p_step show_v show_t teq refs fuel n o w)) (snd (v_step show_v show_t teq fuel n o l)).
  Proof.
    intros Hi. destruct o as [cs|cs|i ts|i|i|i]; cbn [p_step v_step].
    - destruct (build (do_calls cs)) as [g| |] eqn:Eb; cbn [bind fst snd].
      + set (h := alloc (g_rules g) w). assert (Hh : h (w_next w) = Some (g_rules g)) by (unfold h, alloc; rewrite Nat.eqb_refl; reflexivity).
        assert (Hold : forall b, b < w_next w -> h b = w_heap w b).
        { intros b Hlt. unfold h, alloc. destruct (Nat.eqb_spec b (w_next w)); [lia|reflexivity]. }
        assert (Hfree : forall b, b < w_next w -> free (w_next w) h b = w_heap w b).
        { intros b Hlt. unfold free. destruct (Nat.eqb_spec b (w_next w)); [lia|auto]. }
        pose proof (from_grammar_ok h g (w_next w) Hh fuel [n]) as Hr.
        destruct (p_from_grammar h (g_start g) (w_next w) fuel [n]) as [sts| | |], (from_grammar fuel [n] g) as [c| |]; cbn in Hr; try contradiction; cbn [fst snd].
        * split; [reflexivity|]. apply inv_push; [exact Hi|lia|exact Hold|cbn; intros b E; injection E as <-; lia|].
          pose proof Hr as (_ & _ & Eg). cbn. rewrite Eg. auto.
        * split; [reflexivity|]. apply inv_push; [exact Hi|lia|exact Hfree|discriminate|exact I].
        * split; [reflexivity|]. apply inv_push; [exact Hi|lia|exact Hfree|discriminate|exact I].
      + split; [reflexivity|]. apply inv_push; [exact Hi|lia|reflexivity|discriminate|exact I].
      + split; [reflexivity|]. apply inv_push; [exact Hi|lia|reflexivity|discriminate|exact I].
    - destruct (build (do_calls cs)) as [g| |] eqn:Eb; cbn [bind fst snd].
      + set (h := alloc (g_rules g) w). assert (Hh : h (w_next w) = Some (g_rules g)) by (unfold h, alloc; rewrite Nat.eqb_refl; reflexivity).
        assert (Hold : forall b, b < w_next w -> h b = w_heap w b).
        { intros b Hlt. unfold h, alloc. destruct (Nat.eqb_spec b (w_next w)); [lia|reflexivity]. }
        assert (Hfree : forall b, b < w_next w -> free (w_next w) h b = w_heap w b).
        { intros b Hlt. unfold free. destruct (Nat.eqb_spec b (w_next w)); [lia|auto]. }
        pose proof (slr_new_ok h g (w_next w) Hh teq (refs (w_next w) (g_rules g))) as Hr. specialize (Hr ltac:(
          intros fuel' p fs v ls t Hf Hm Hin; destruct (follow_occurs g fuel' p fs v ls t (ex_intro _ cs Eb) Hf Hm Hin) as (x & bd & (bds & H1 & H2) & H3);
          exact (Hrefs (w_next w) (g_rules g) v t (ex_intro _ x (ex_intro _ bds (ex_intro _ bd (conj H1 (conj H2 H3)))))))).
        specialize (Hr fuel [n]).
        destruct (p_slr_new h (g_start g) (w_next w) teq (refs (w_next w) (g_rules g)) fuel [n]) as [tb| | |], (slr_new teq fuel [n] g) as [vt| |];
          cbn in Hr; try contradiction; cbn [fst snd].
        * split; [reflexivity|]. pose proof Hr as (_ & _ & _ & Ebl & Eg).
          apply inv_push; [exact Hi|lia|exact Hold|cbn; intros b E; injection E as <-; lia|]. cbn. rewrite Eg, Ebl. auto.
        * split; [reflexivity|]. apply inv_push; [exact Hi|lia|exact Hfree|discriminate|exact I].
        * split; [reflexivity|]. apply inv_push; [exact Hi|lia|exact Hfree|discriminate|exact I].
      + split; [reflexivity|]. apply inv_push; [exact Hi|lia|reflexivity|discriminate|exact I].
      + split; [reflexivity|]. apply inv_push; [exact Hi|lia|reflexivity|discriminate|exact I].
    - split; [|exact Hi]. cbn [fst]. pose proof (Forall2_nth _ _ _ PGone VGone i (inv_obj _ _ Hi) I) as Hr.
      destruct (nth i (w_objects w) PGone) as [b v sts|tb|], (nth i l VGone) as [c|vt|]; try contradiction; try reflexivity.
      destruct Hr as (Hb & Ht). rewrite (p_parse_ok _ _ _ Hb teq tb vt Ht). apply safe_bind. reflexivity.
    - split; [|exact Hi]. cbn [fst]. pose proof (Forall2_nth _ _ _ PGone VGone i (inv_obj _ _ Hi) I) as Hr.
      destruct (nth i (w_objects w) PGone) as [b v sts|tb|], (nth i l VGone) as [c|vt|]; try contradiction; try reflexivity.
      rewrite (load_cfsm_ok _ _ _ _ _ Hr). reflexivity.
    - split; [|exact Hi]. cbn [fst]. pose proof (Forall2_nth _ _ _ PGone VGone i (inv_obj _ _ Hi) I) as Hr.
      destruct (nth i (w_objects w) PGone) as [b v sts|tb|], (nth i l VGone) as [c|vt|]; try contradiction; try reflexivity.
      rewrite (load_table_ok _ _ _ Hr). reflexivity.
    - pose proof (Forall2_nth _ _ _ PGone VGone i (inv_obj _ _ Hi) I) as Hr. pose proof (inv_drop w l i) as Hd.
      destruct (nth i (w_objects w) PGone) as [b v sts|tb|], (nth i l VGone) as [c|vt|]; try contradiction; cbn [fst snd].
      + split; [reflexivity|]. apply Hd; [exact Hi|reflexivity].
      + split; [reflexivity|]. apply Hd; [exact Hi|reflexivity].
      + split; [reflexivity|exact Hi].
  Qed.

  Lemma run_ok fuel os : forall n w l, inv w l ->
    p_run show_v show_t teq refs fuel n os w = map safe (v_run show_v show_t teq fuel n os l).
  Proof.
    induction os as [|o os IH]; intros n w l Hi; cbn [p_run v_run]; [reflexivity|].
    destruct (step_ok fuel n o w l Hi) as (H1 & H2).
    destruct (p_step show_v show_t teq refs fuel n o w) as (out, w'), (v_step show_v show_t teq fuel n o l) as (vout, l'). cbn in H1, H2.
    cbn [map]. rewrite H1. f_equal. apply IH. exact H2.
  Qed.

  Lemma fresh_inv : inv fresh_world [].
  Proof. constructor; [constructor| |]; cbn; intros [|i]; discriminate. Qed.

  Lemma run_fresh fuel os : p_run show_v show_t teq refs fuel 0 os fresh_world = map safe (v_run show_v show_t teq fuel 0 os []).
  Proof. apply run_ok. exact fresh_inv. Qed.

  Lemma run_no_dangling fuel os : ~ In MDangling (p_run show_v show_t teq refs fuel 0 os fresh_world).
  Proof. rewrite run_fresh. intros Hin. apply in_map_iff in Hin. destruct Hin as ([a| |] & E & _); discriminate. Qed.
End World.
