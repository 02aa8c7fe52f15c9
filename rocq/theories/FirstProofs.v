(** FIRST sets: structural characterisation of derivations and correctness of
    the work list. *)
From Verif Require Import Base GrammarModel CfsmModel SlrModel SpecCfg GrammarProofs.

(** ** Derivations *)
Section Derivations.
  Context {V T : Type}.
  Implicit Types (g : grammar V T) (t : T) (v : V).
  Notation sym := (symbol V T).

  Inductive nullb g : list sym -> Prop :=
  | null_nil : nullb g []
  | null_eps : forall r, nullb g r -> nullb g (Eps :: r)
  | null_var : forall v b r, rule g v b -> nullb g b -> nullb g r -> nullb g (Var v :: r).

  Inductive startb g : list sym -> T -> Prop :=
  | start_ter : forall t r, startb g (Ter t :: r) t
  | start_eps : forall t r, startb g r t -> startb g (Eps :: r) t
  | start_in : forall t v b r, rule g v b -> startb g b t -> startb g (Var v :: r) t
  | start_skip : forall t v b r, rule g v b -> nullb g b -> startb g r t -> startb g (Var v :: r) t.

  Lemma null_app g a b : nullb g (a ++ b) <-> nullb g a /\ nullb g b.
  Proof.
    induction a as [|s a IH]; cbn.
    - split; [intros; split; [constructor|auto]|tauto].
    - split.
      + intros H. inversion H; subst; rewrite IH in *; split; try tauto; econstructor; eauto; tauto.
      + intros [H1 H2]. inversion H1; subst; econstructor; eauto; tauto.
  Qed.

  Lemma start_app g a b t : startb g (a ++ b) t <-> startb g a t \/ (nullb g a /\ startb g b t).
  Proof.
    induction a as [|s a IH]; cbn.
    - split; [intros; right; split; [constructor|auto]|]. intros [H|[_ H]]; [inversion H|auto].
    - split.
      + intros H. inversion H; subst.
        * left. constructor.
        * apply IH in H3. destruct H3 as [H3|[H3 H4]]; [left|right; split; auto]; constructor; auto.
        * left. eapply start_in; eauto.
        * apply IH in H5. destruct H5 as [H5|[H5 H6]]; [left; eapply start_skip; eauto|].
          right; split; auto. econstructor; eauto.
      + intros [H|[H1 H2]].
        * inversion H; subst.
          -- constructor.
          -- constructor. apply IH. auto.
          -- eapply start_in; eauto.
          -- eapply start_skip; eauto. apply IH; auto.
        * inversion H1; subst.
          -- constructor. apply IH; auto.
          -- eapply start_skip; eauto. apply IH; auto.
  Qed.

  Lemma steps_trans g x y z : steps g x y -> steps g y z -> steps g x z.
  Proof. intros H1 H2. induction H2 as [|y z w H2 IH H]; auto. eapply steps_next; [apply IH, H1|exact H]. Qed.

  Lemma step_ctx g l r x y : step g x y -> step g (l ++ x ++ r) (l ++ y ++ r).
  Proof.
    intros H. destruct H.
    - replace (l ++ (l0 ++ Var v :: r0) ++ r) with ((l ++ l0) ++ Var v :: (r0 ++ r))
        by (rewrite <- !app_assoc; reflexivity).
      replace (l ++ (l0 ++ bd ++ r0) ++ r) with ((l ++ l0) ++ bd ++ (r0 ++ r))
        by (rewrite <- !app_assoc; reflexivity).
      constructor. auto.
    - replace (l ++ (l0 ++ Eps :: r0) ++ r) with ((l ++ l0) ++ Eps :: (r0 ++ r))
        by (rewrite <- !app_assoc; reflexivity).
      replace (l ++ (l0 ++ r0) ++ r) with ((l ++ l0) ++ (r0 ++ r))
        by (rewrite <- !app_assoc; reflexivity).
      constructor.
  Qed.

  Lemma steps_ctx g l r x y : steps g x y -> steps g (l ++ x ++ r) (l ++ y ++ r).
  Proof. induction 1 as [|x y z H IH H1]; [constructor|]. eapply steps_next; [exact IH|]. apply step_ctx; auto. Qed.

  Lemma steps_back g (P : list sym -> Prop) x y :
    (forall a b, step g a b -> P b -> P a) -> steps g x y -> P y -> P x.
  Proof. intros HP H. induction H; auto. eauto. Qed.

  Lemma step_steps g x y : step g x y -> steps g x y.
  Proof. intros. econstructor; [constructor|auto]. Qed.

  Lemma null_steps g x : nullb g x <-> derives_empty g x.
  Proof.
    unfold derives_empty. split.
    - induction 1.
      + constructor.
      + eapply steps_trans; [|exact IHnullb]. apply step_steps. apply (step_eps g [] r).
      + eapply steps_trans; [apply step_steps, (step_rule g [] v b r); auto|].
        eapply steps_trans; [|exact IHnullb2].
        apply (steps_ctx g [] r b []). auto.
    - intros H. apply (steps_back g (nullb g) x []); [|exact H|constructor].
      intros a b Hs Hn. destruct Hs.
      + rewrite !null_app in Hn. apply null_app. split; [tauto|]. econstructor; eauto; tauto.
      + rewrite null_app in Hn. apply null_app. split; [tauto|]. constructor; tauto.
  Qed.

  Lemma start_steps g x t : startb g x t <-> starts_with g x t.
  Proof.
    unfold starts_with. split.
    - induction 1.
      + eexists; constructor.
      + destruct IHstartb as (r' & IH). exists r'.
        eapply steps_trans; [|exact IH]. apply step_steps. apply (step_eps g [] r).
      + destruct IHstartb as (r' & IH). exists (r' ++ r).
        eapply steps_trans; [apply step_steps, (step_rule g [] v b r); auto|].
        apply (steps_ctx g [] r b (Ter t :: r')). auto.
      + destruct IHstartb as (r' & IH). exists r'.
        eapply steps_trans; [apply step_steps, (step_rule g [] v b r); auto|].
        eapply steps_trans; [|exact IH]. apply null_steps in H0.
        apply (steps_ctx g [] r b []). auto.
    - intros (r & H). apply (steps_back g (fun y => startb g y t) x (Ter t :: r)); [|exact H|constructor].
      intros a b Hs Hn. destruct Hs.
      + rewrite !start_app in Hn. apply start_app.
        destruct Hn as [Hn|[H1 [H2|[H2 H3]]]]; auto; right; (split; [auto|]).
        * eapply start_in; eauto.
        * eapply start_skip; eauto.
      + rewrite start_app in Hn. apply start_app.
        destruct Hn as [Hn|[H1 H2]]; auto. right; split; auto. constructor; auto.
  Qed.

  (** A terminal a derivable string starts with occurs in the body or in a
      rule. *)
  Lemma start_occurs g b t : startb g b t -> In (Ter t) b \/ exists v bd, rule g v bd /\ In (Ter t) bd.
  Proof.
    induction 1; cbn; auto.
    - destruct IHstartb; auto.
    - destruct IHstartb as [IH|IH]; right; eauto.
    - destruct IHstartb as [IH|IH]; auto.
  Qed.
End Derivations.

(** ** The work list *)
Section First.
  Context {V T : Type} {dv : DecEq V} {dt : DecEq T} {ho : HashOrder}.
  Notation sym := (symbol V T).
  Notation bod := (body V T).
  Implicit Types (st : @fstate V T) (o : option V) (v : V) (syms : list sym).
  Variable g : grammar V T.
  Hypothesis Hgood : good g.
  (** The bodies given with owner [None]. *)
  Variable bs0 : list bod.
  Hypothesis Hbs0 : forall b x, In b bs0 -> In (Var x) b -> exists bd, rule g x bd.
  Variable p : list nat.

  Definition own (o : option V) (b : bod) : Prop :=
    match o with Some v => rule g v b | None => In b bs0 end.

  Definition fset (st : @fstate V T) (o : option V) : list sym :=
    match o with
    | Some v => match mget v (f_first st) with Some l => l | None => [] end
    | None => f_result st
    end.

  Definition inmap (o : option V) (s : bod) (m : list (option V * list bod)) : Prop :=
    exists bs, In (o, bs) m /\ In s bs.

  Definition in_deps (st : @fstate V T) (v : V) (o : option V) (s : bod) : Prop :=
    exists ds, mget v (f_deps st) = Some ds /\ inmap o s ds.

  Lemma inmap_update o s o' s' m :
    inmap o' s' (mupdate o [] (fun l => l ++ [s]) m) <-> inmap o' s' m \/ (o' = o /\ s' = s).
  Proof.
    unfold inmap. induction m as [|[k b] m IH]; cbn [mupdate In].
    - split.
      + intros (bs & [E|[]] & Hs). injection E as <- <-. destruct Hs as [<-|[]]. auto.
      + intros [(bs & [] & _)|[-> ->]]. exists [s]. split; auto. left; auto.
    - destruct (eqb_spec o k) as [->|Hne]; cbn [In].
      + split.
        * intros (bs & [E|H] & Hs).
          -- injection E as <- <-. apply in_app_iff in Hs. destruct Hs as [Hs|[<-|[]]]; eauto.
          -- eauto.
        * intros [(bs & [E|H] & Hs)|[-> ->]].
          -- injection E as -> ->. eexists. split; [left; reflexivity|]. apply in_app_iff; auto.
          -- eauto.
          -- eexists. split; [left; reflexivity|]. apply in_app_iff. right; left; auto.
      + split.
        * intros (bs & [E|H] & Hs).
          -- injection E as -> ->. eauto.
          -- destruct (proj1 IH (ex_intro _ bs (conj H Hs))) as [(bs' & H1 & H2)|H1]; eauto.
        * intros [(bs & [E|H] & Hs)|Hx].
          -- injection E as -> ->. eauto.
          -- destruct (proj2 IH (or_introl (ex_intro _ bs (conj H Hs)))) as (bs' & H1 & H2); eauto.
          -- destruct (proj2 IH (or_intror Hx)) as (bs' & H1 & H2); eauto.
  Qed.

  Lemma inmap_app o s m m' : inmap o s (m ++ m') <-> inmap o s m \/ inmap o s m'.
  Proof.
    unfold inmap. split.
    - intros (bs & H & Hs). apply in_app_iff in H. destruct H; [left|right]; eauto.
    - intros [(bs & H & Hs)|(bs & H & Hs)]; exists bs; rewrite in_app_iff; auto.
  Qed.

  Lemma inmap_hash o s k m : inmap o s (hash_at k m) <-> inmap o s m.
  Proof.
    unfold inmap. split; intros (bs & H & Hs); exists bs; split; auto.
    - apply in_hash_at in H; auto.
    - apply in_hash_at; auto.
  Qed.

  (** ** Effects of the primitive updates *)

  Lemma in_deps_add v o s st v' o' s' :
    in_deps (add_dependency v o s st) v' o' s' <-> in_deps st v' o' s' \/ (v' = v /\ o' = o /\ s' = s).
  Proof.
    unfold in_deps, add_dependency. cbn [f_deps]. rewrite mget_mupdate.
    destruct (eqb_spec v' v) as [->|Hne].
    - split.
      + intros (ds & E & H). injection E as <-. apply inmap_update in H.
        destruct H as [H|[-> ->]]; auto. left.
        destruct (mget v (f_deps st)) as [ds|]; [eauto|]. destruct H as (? & [] & _).
      + intros [(ds & E & H)|(_ & -> & ->)]; eexists; (split; [reflexivity|]); apply inmap_update; auto.
        rewrite E. auto.
    - split; [auto|]. intros [?|[? _]]; [auto|congruence].
  Qed.

  (** What [extend_for_variable] does to the sets. *)
  Lemma in_fset_extend o syms st o' x :
    In x (fset (extend_for_variable p o syms st) o') <-> In x (fset st o') \/ (o' = o /\ In x syms).
  Proof.
    unfold extend_for_variable. destruct o as [v|].
    - set (st' := if Nat.eqb _ _ then _ else _).
      assert (Hf : f_first st' = mupdate v [] (set_extend syms) (f_first st)).
      { unfold st'. destruct (Nat.eqb _ _); reflexivity. }
      assert (Hr : f_result st' = f_result st).
      { unfold st'. destruct (Nat.eqb _ _); reflexivity. }
      clearbody st'. unfold fset. destruct o' as [v'|].
      + rewrite Hf, mget_mupdate. destruct (eqb_spec v' v) as [->|Hne].
        * rewrite in_set_extend. destruct (mget v (f_first st)); cbn; intuition.
        * split; [auto|]. intros [?|[E _]]; [auto|congruence].
      + rewrite Hr. split; [auto|]. intros [?|[E _]]; [auto|congruence].
    - unfold fset. destruct o' as [v'|]; cbn [f_first f_result].
      + split; [auto|]. intros [?|[E _]]; [auto|congruence].
      + rewrite in_set_extend. intuition.
  Qed.

  Lemma extend_visited o syms st : f_visited (extend_for_variable p o syms st) = f_visited st.
  Proof. unfold extend_for_variable. destruct o; auto. destruct (Nat.eqb _ _); auto. Qed.

  (** [extend_for_variable] either leaves the queue and the dependencies alone
      and adds no symbol, or moves the dependencies of its variable. *)
  Lemma extend_cases o syms st :
    let st' := extend_for_variable p o syms st in
    (f_pending st' = f_pending st /\ f_deps st' = f_deps st /\
       (forall v, o = Some v -> fset st' o = fset st o /\ first_size (f_first st') = first_size (f_first st)) /\
       (o = None -> f_first st' = f_first st)) \/
    (exists v ds k, o = Some v /\ f_deps st' = mremove v (f_deps st) /\
       ds = match mget v (f_deps st) with Some ds => ds | None => [] end /\
       f_pending st' = f_pending st ++ hash_at k ds /\
       first_size (f_first st) < first_size (f_first st')).
  Proof.
    assert (Hsz : forall v, first_size (mupdate v [] (set_extend syms) (f_first st)) +
                   length (match mget v (f_first st) with Some l => l | None => [] end) =
                  first_size (f_first st) +
                   length (set_extend syms (match mget v (f_first st) with Some l => l | None => [] end))).
    { intros v. unfold first_size, list_sum.
      induction (f_first st) as [|[k l] m IH]; cbn [mupdate map fold_right snd mget length]; [lia|].
      destruct (eqb_spec v k) as [->|Hne]; cbn [map fold_right snd]; lia. }
    cbn. unfold extend_for_variable. destruct o as [v|].
    - destruct (Nat.eqb_spec (length (match mget v (f_first st) with Some l => l | None => [] end))
        (length (set_extend syms (match mget v (f_first st) with Some l => l | None => [] end)))) as [E|E].
      + left. cbn [f_pending f_deps f_first]. split; [auto|]. split; [auto|]. split; [|congruence].
        intros v' E'; injection E' as <-. split.
        * unfold fset. cbn [f_first]. rewrite mget_mupdate_same.
          apply set_extend_same in E. rewrite E. reflexivity.
        * specialize (Hsz v). lia.
      + right. exists v. eexists. eexists. cbn [f_deps f_pending f_first].
        repeat split; try reflexivity.
        * f_equal. destruct (mget v (f_deps st)) as [ds|]; [reflexivity|].
          symmetry. apply Permutation_nil. symmetry. apply hash_at_perm.
        * pose proof (set_extend_length syms (match mget v (f_first st) with Some l => l | None => [] end)).
          specialize (Hsz v). lia.
    - left. cbn [f_pending f_deps f_first]. split; [auto|]. split; [auto|]. split; [congruence|auto].
  Qed.

  (** ** Completeness invariant *)

  (** The suffix [s] of a body of [o] is accounted for: it is still queued (or in
      hand, [X]), or its contribution to the set of [o] is already there and it
      will be queued again when more is known. *)
  Fixpoint settled (X : list (option V * bod)) (st : @fstate V T) (o : option V) (s : bod) : Prop :=
    (inmap o s (f_pending st) \/ In (o, s) X) \/
    match s with
    | [] => True
    | Ter t :: _ => In (Ter t) (fset st o)
    | Eps :: s' => match s' with [] => In Eps (fset st o) | _ => settled X st o s' end
    | Var v :: s' =>
        in_deps st v o s /\ In v (f_visited st) /\
        (forall x, In x (fset st (Some v)) -> x <> Eps \/ s' = [] -> In x (fset st o)) /\
        (In Eps (fset st (Some v)) -> settled X st o s')
    end.

  Lemma settled_now X st o s : inmap o s (f_pending st) \/ In (o, s) X -> settled X st o s.
  Proof. intros H. destruct s as [|[]]; left; auto. Qed.

  Lemma settled_in_hand X st o s o' s' :
    settled ((o, s) :: X) st o' s' -> settled X st o s -> settled X st o' s'.
  Proof.
    intros H Hs. induction s' as [|a s' IH].
    - right. exact I.
    - cbn in H. destruct H as [[H|[H|H]]|H].
      + apply settled_now. auto.
      + injection H as <- <-. auto.
      + apply settled_now. auto.
      + destruct a as [t|v|]; right.
        * auto.
        * destruct H as (H1 & H2 & H3 & H4). repeat split; auto.
        * destruct s'; auto.
  Qed.

  Lemma settled_more X Y st o s : (forall e, In e X -> In e Y) -> settled X st o s -> settled Y st o s.
  Proof.
    intros HX. induction s as [|a s IH]; intros H.
    - right. exact I.
    - cbn in H. destruct H as [[H|H]|H].
      + apply settled_now. auto.
      + apply settled_now. auto.
      + destruct a as [t|v|]; right.
        * auto.
        * destruct H as (H1 & H2 & H3 & H4). repeat split; auto.
        * destruct s; auto.
  Qed.

  Definition keeps (st st' : @fstate V T) : Prop :=
    (forall X o s, settled X st o s -> settled X st' o s) /\
    (forall v, In v (f_visited st) -> In v (f_visited st')).

  Lemma keeps_refl st : keeps st st.
  Proof. split; auto. Qed.

  Lemma keeps_trans a b c : keeps a b -> keeps b c -> keeps a c.
  Proof. intros [H1 H2] [H3 H4]. split; auto. Qed.

  Lemma keeps_add_dependency v o s st : keeps st (add_dependency v o s st).
  Proof.
    split; [|auto]. intros X o' s'. induction s' as [|a s' IH]; intros H.
    - right. exact I.
    - cbn in H. destruct H as [H|H].
      + apply settled_now. auto.
      + destruct a as [t|x|]; right.
        * auto.
        * destruct H as (H1 & H2 & H3 & H4). split; [apply in_deps_add; auto|]. repeat split; auto.
        * destruct s'; auto.
  Qed.

  Lemma keeps_extend o syms st : keeps st (extend_for_variable p o syms st).
  Proof.
    split; [|intros v; rewrite extend_visited; auto].
    intros X o' s'.
    pose proof (extend_cases o syms st) as Hc. cbn zeta in Hc.
    assert (Hpend : forall o s, inmap o s (f_pending st) ->
              inmap o s (f_pending (extend_for_variable p o syms st)) \/ True) by auto.
    assert (Hp : forall a b, inmap a b (f_pending st) -> inmap a b (f_pending (extend_for_variable p o syms st))).
    { intros a b Hab. destruct Hc as [(-> & _)|(v & ds & k & _ & _ & _ & -> & _)]; auto.
      apply inmap_app; auto. }
    clear Hpend.
    induction s' as [|a s' IH]; intros H.
    - right. exact I.
    - cbn in H. destruct H as [[H|H]|H].
      + apply settled_now. auto.
      + apply settled_now. auto.
      + destruct a as [t|v|].
        * right. apply in_fset_extend. auto.
        * destruct H as (H1 & H2 & H3 & H4).
          assert (Hsame : fset (extend_for_variable p o syms st) (Some v) = fset st (Some v) ->
                          in_deps (extend_for_variable p o syms st) v o' (Var v :: s') ->
                          settled X (extend_for_variable p o syms st) o' (Var v :: s')).
          { intros E Hd. right. split; auto. split; [rewrite extend_visited; auto|].
            rewrite E. split; auto. intros x Hx Hx'. apply in_fset_extend. left; auto. }
          destruct Hc as [(Hq & Hd & Hsame1 & Hnone)|(w & ds & k & Ho & Hd & Hds & Hq & _)].
          -- apply Hsame.
             ++ destruct o as [w|].
                ** destruct (eqb_spec w v) as [->|Hne]; [apply (Hsame1 v); auto|].
                   unfold fset. unfold extend_for_variable.
                   destruct (Nat.eqb _ _); cbn [f_first]; rewrite mget_mupdate_other; auto.
                ** unfold fset. rewrite Hnone; auto.
             ++ unfold in_deps. rewrite Hd. auto.
          -- destruct (eqb_spec v w) as [->|Hne].
             ++ apply settled_now. left. rewrite Hq. apply inmap_app. right. apply inmap_hash.
                destruct H1 as (ds' & E & Hin). rewrite E in Hds. subst ds. auto.
             ++ apply Hsame.
                ** subst o. unfold fset. unfold extend_for_variable.
                   destruct (Nat.eqb _ _); cbn [f_first]; rewrite mget_mupdate_other; auto.
                ** unfold in_deps. rewrite Hd, mget_mremove. apply eqb_neq in Hne. rewrite Hne. auto.
        * right. destruct s'; auto. apply in_fset_extend. auto.
  Qed.

  (** ** Soundness and bookkeeping invariant *)

  Definition entry_ok (vis : list V) (o : option V) (s : bod) : Prop :=
    (exists l, own o (l ++ s) /\ nullb g l) /\ match o with Some v => In v vis | None => True end.

  Definition sym_ok (o : option V) (x : sym) : Prop :=
    match x with
    | Ter t => exists b, own o b /\ startb g b t
    | Eps => exists b, own o b /\ nullb g b
    | Var _ => False
    end.

  Record inv (st : @fstate V T) : Prop := {
    i_pend : forall o s, inmap o s (f_pending st) -> entry_ok (f_visited st) o s;
    i_deps : forall v o s, in_deps st v o s -> entry_ok (f_visited st) o s;
    i_sound : forall o x, In x (fset st o) -> sym_ok o x;
    i_vis : NoDup (f_visited st);
    i_rule : forall v, In v (f_visited st) -> exists bd, rule g v bd;
    i_keys : NoDup (map fst (f_first st));
    i_first : forall v, In v (map fst (f_first st)) -> In v (f_visited st);
    i_sets : forall v l, In (v, l) (f_first st) -> NoDup l
  }.

  Lemma inv_add_dependency v o s st :
    inv st -> entry_ok (f_visited st) o s -> inv (add_dependency v o s st).
  Proof.
    intros [] He. split; auto.
    intros v' o' s' H. apply in_deps_add in H. destruct H as [H|(-> & -> & ->)]; eauto.
  Qed.

  Lemma inv_extend o syms st :
    inv st -> (match o with Some v => In v (f_visited st) | None => True end) ->
    (forall x, In x syms -> sym_ok o x) ->
    inv (extend_for_variable p o syms st).
  Proof.
    intros Hi Ho Hsyms. pose proof (extend_cases o syms st) as Hc. cbn zeta in Hc.
    assert (Hd : forall v a s, in_deps (extend_for_variable p o syms st) v a s -> in_deps st v a s).
    { intros v a s (ds & E & Hin). destruct Hc as [(_ & Hd & _)|(w & ds' & k & _ & Hd & _)]; rewrite Hd in E.
      - exists ds; auto.
      - rewrite mget_mremove in E. destruct (eqb v w); [discriminate|]. exists ds; auto. }
    destruct Hi. split; rewrite ?extend_visited; auto.
    - intros a s H. destruct Hc as [(E & _)|(v & ds & k & Ho' & _ & Hds & E & _)]; rewrite E in H; auto.
      apply inmap_app in H. destruct H as [H|H]; auto. rewrite inmap_hash in H.
      destruct (mget v (f_deps st)) as [ds'|] eqn:El; subst ds; [|destruct H as (? & [] & _)].
      apply (i_deps0 v). exists ds'. auto.
    - intros v a s H. eauto.
    - intros a x H. apply in_fset_extend in H. destruct H as [H|[-> H]]; auto.
    - destruct o as [v|]; [|auto]. unfold extend_for_variable.
      destruct (Nat.eqb _ _); cbn [f_first]; apply mupdate_nodup; auto.
    - intros v H. destruct o as [w|]; [|auto]. unfold extend_for_variable in H.
      destruct (Nat.eqb _ _) in H; cbn [f_first] in H; apply in_mupdate_keys in H; destruct H as [->|H]; auto.
    - intros v l H. destruct o as [w|]; [|eauto]. unfold extend_for_variable in H.
      destruct (Nat.eqb _ _) in H; cbn [f_first] in H; apply in_mupdate in H;
        (destruct H as [H|(-> & [->|(b0 & H & ->)])]; [eauto| |]); apply nodup_set_extend; eauto; constructor.
  Qed.

  Definition progress (st : @fstate V T) : nat := length (f_visited st) + first_size (f_first st).

  (** Progress never shrinks, and while it stands still nothing is queued. *)
  Definition advances (st st' : @fstate V T) : Prop :=
    progress st <= progress st' /\ (progress st' = progress st -> f_pending st' = f_pending st).

  Lemma advances_refl st : advances st st.
  Proof. split; auto. Qed.

  Lemma advances_trans a b c : advances a b -> advances b c -> advances a c.
  Proof. intros [H1 H2] [H3 H4]. split; [lia|]. intros H. rewrite H4, H2; auto; lia. Qed.

  Lemma advances_extend o syms st : advances st (extend_for_variable p o syms st).
  Proof.
    pose proof (extend_cases o syms st) as Hc. cbn zeta in Hc. unfold advances, progress.
    rewrite extend_visited.
    destruct Hc as [(Hq & _ & H1 & H2)|(v & ds & k & -> & _ & _ & _ & Hlt)].
    - destruct o as [v|].
      + destruct (H1 v eq_refl) as [_ E]. rewrite E. auto.
      + rewrite H2; auto.
    - lia.
  Qed.

  (** ** One body *)

  Lemma entry_next vis o a s :
    entry_ok vis o (a :: s) -> nullb g [a] -> entry_ok vis o s.
  Proof.
    intros [(l & H1 & H2) H3] Ha. split; auto. exists (l ++ [a]). rewrite <- app_assoc. split; auto.
    apply null_app. auto.
  Qed.

  Lemma entry_rule vis o v s : entry_ok vis o (Var v :: s) -> exists bd, rule g v bd.
  Proof.
    intros [(l & H1 & _) _]. destruct o as [x|]; cbn in H1.
    - eapply (good_closed g Hgood); [exact H1|]. apply in_app_iff. right; left; auto.
    - eapply Hbs0; [exact H1|]. apply in_app_iff. right; left; auto.
  Qed.

  Lemma entry_start vis o s t : entry_ok vis o s -> startb g s t -> sym_ok o (Ter t).
  Proof.
    intros [(l & H1 & H2) _] H. exists (l ++ s). split; auto. apply start_app. auto.
  Qed.

  Lemma entry_null vis o s : entry_ok vis o s -> nullb g s -> sym_ok o Eps.
  Proof.
    intros [(l & H1 & H2) _] H. exists (l ++ s). split; auto. apply null_app. auto.
  Qed.

  Lemma scan_spec X o s : forall st,
    inv st -> (forall v, ~ In v (f_visited st) -> fset st (Some v) = []) ->
    entry_ok (f_visited st) o s ->
    exists st', first_scan p g o s st = Val st' /\
      inv st' /\ keeps st st' /\ advances st st' /\ settled X st' o s /\
      (forall v, In v (f_visited st') -> In v (f_visited st) \/
         forall bd, rule g v bd -> settled X st' (Some v) bd).
  Proof.
    induction s as [|a s IH]; intros st Hi Hf He.
    - exists st. cbn [first_scan]. split; [auto|]. split; [auto|]. split; [apply keeps_refl|].
      split; [apply advances_refl|]. split; [right; exact I|]. auto.
    - assert (Hvis : match o with Some v => In v (f_visited st) | None => True end) by apply He.
      destruct a as [t|v|]; cbn [first_scan].
      + (* terminal *)
        eexists; split; [reflexivity|].
        split. { apply inv_extend; auto. intros x [<-|[]]. eapply entry_start; eauto. constructor. }
        split; [apply keeps_extend|]. split; [apply advances_extend|].
        split. { right. apply in_fset_extend. right. split; auto. left; auto. }
        intros x. rewrite extend_visited. auto.
      + (* variable *)
        set (st1 := add_dependency v o (Var v :: s) st).
        assert (Hi1 : inv st1) by (apply inv_add_dependency; auto).
        assert (Hk1 : keeps st st1) by apply keeps_add_dependency.
        assert (Ha1 : advances st st1) by (split; auto).
        assert (Hd1 : in_deps st1 v o (Var v :: s)) by (apply in_deps_add; auto).
        assert (Hf1 : forall o, fset st1 o = fset st o) by reflexivity.
        destruct (memb v (f_visited st1)) eqn:Evis.
        * apply memb_in in Evis.
          destruct (mget v (f_first st1)) as [fv|] eqn:Efv.
          -- assert (Hfv : fset st1 (Some v) = fv) by (unfold fset; rewrite Efv; reflexivity).
             set (lst := match s with [] => true | _ => false end).
             set (syms := filter (fun x => negb (is_eps x) || lst) fv).
             set (st2 := extend_for_variable p o syms st1).
             assert (Hk2 : keeps st1 st2) by apply keeps_extend.
             assert (Ha2 : advances st1 st2) by apply advances_extend.
             assert (Hnull : In Eps fv -> nullb g [Var v]).
             { intros HE. rewrite <- Hfv in HE. apply (i_sound _ Hi1) in HE.
               destruct HE as (b & Hb1 & Hb2). econstructor; eauto. constructor. }
             assert (Hi2 : inv st2).
             { apply inv_extend; auto. intros x Hx. unfold syms in Hx. apply filter_In in Hx.
               destruct Hx as [Hx Hx']. rewrite <- Hfv in Hx.
               pose proof (i_sound _ Hi1 _ _ Hx) as Hs. destruct x as [t|w|].
               - destruct Hs as (b & Hb1 & Hb2). eapply entry_start; eauto. eapply start_in; eauto.
               - destruct Hs.
               - cbn in Hx'. destruct s; [|discriminate]. eapply entry_null; eauto.
                 apply Hnull. rewrite <- Hfv. auto. }
             assert (Hsyms : forall x, In x fv -> x <> Eps \/ s = [] -> In x (fset st2 o)).
             { intros x Hx Hx'. apply in_fset_extend. right. split; auto. unfold syms.
               apply filter_In. split; auto. unfold lst. destruct Hx' as [Hx'| ->]; [|apply orb_true_r].
               destruct x; try reflexivity. congruence. }
             (* the suffix is settled once the rest is *)
             assert (Hset2 : (In Eps fv -> In (o, s) ((o, s) :: X)) -> settled ((o, s) :: X) st2 o (Var v :: s)).
             { intros _. pose proof (extend_cases o syms st1) as Hc. cbn zeta in Hc.
               assert (Hsame : fset st2 (Some v) = fv -> in_deps st2 v o (Var v :: s) ->
                               settled ((o, s) :: X) st2 o (Var v :: s)).
               { intros E Hd. right. split; auto. split.
                 - unfold st2. rewrite extend_visited. auto.
                 - rewrite E. split; auto. intros _. apply settled_now. right; left; auto. }
               destruct Hc as [(Hq & Hd & Hs1 & Hs2)|(w & ds & k & Ho & Hd & Hds & Hq & _)].
               - apply Hsame.
                 + destruct o as [w|].
                   * destruct (eqb_spec w v) as [->|Hne]; [rewrite <- Hfv; apply (Hs1 v); auto|].
                     rewrite <- Hfv. unfold fset, st2, extend_for_variable.
                     destruct (Nat.eqb _ _); cbn [f_first]; rewrite mget_mupdate_other; auto.
                   * rewrite <- Hfv. unfold fset, st2. rewrite Hs2; auto.
                 + unfold in_deps, st2. rewrite Hd. auto.
               - destruct (eqb_spec v w) as [->|Hne].
                 + apply settled_now. left. unfold st2. rewrite Hq. apply inmap_app. right.
                   apply inmap_hash. destruct Hd1 as (ds' & E & Hin). rewrite E in Hds. subst ds. auto.
                 + apply Hsame.
                   * rewrite <- Hfv. subst o. unfold fset, st2, extend_for_variable.
                     destruct (Nat.eqb _ _); cbn [f_first]; rewrite mget_mupdate_other; auto.
                   * unfold in_deps, st2. rewrite Hd, mget_mremove. apply eqb_neq in Hne. rewrite Hne. auto. }
             destruct (memb Eps fv) eqn:EE.
             ++ apply memb_in in EE.
                destruct (IH st2) as (st3 & E3 & Hi3 & Hk3 & Ha3 & Hs3 & Hn3).
                { auto. }
                { intros w Hw. unfold st2 in Hw. rewrite extend_visited in Hw.
                  destruct (fset st2 (Some w)) as [|x l] eqn:El; auto. exfalso.
                  assert (Hx : In x (fset st2 (Some w))) by (rewrite El; left; auto).
                  apply in_fset_extend in Hx. destruct Hx as [Hx|[<- _]].
                  - rewrite Hf1, Hf in Hx; auto.
                  - apply Hw, Hvis. }
                { unfold st2. rewrite extend_visited. eapply entry_next; [apply He|auto]. }
                exists st3. split; [auto|]. split; [auto|].
                split; [apply (keeps_trans st st1 st3); [exact Hk1|apply (keeps_trans st1 st2 st3); [exact Hk2|exact Hk3]]|].
                split; [apply (advances_trans st st1 st3); [exact Ha1|apply (advances_trans st1 st2 st3); [exact Ha2|exact Ha3]]|].
                split.
                { eapply settled_in_hand; [|exact Hs3]. apply (proj1 Hk3). apply Hset2. intros _; left; auto. }
                intros w Hw. apply Hn3 in Hw. destruct Hw as [Hw|Hw]; auto.
                unfold st2 in Hw. rewrite extend_visited in Hw. auto.
             ++ apply memb_not_in in EE.
                exists st2. split; [auto|]. split; [auto|].
                split; [apply (keeps_trans st st1 st2); [exact Hk1|exact Hk2]|].
                split; [apply (advances_trans st st1 st2); [exact Ha1|exact Ha2]|].
                split.
                { pose proof (Hset2 (fun H => or_introl eq_refl)) as H.
                  cbn in H. destruct H as [[H|[H|H]]|(H1 & H2 & H3 & H4)].
                  - apply settled_now; auto.
                  - injection H as E. exfalso. apply (f_equal (@length _)) in E. cbn in E. lia.
                  - apply settled_now; auto.
                  - right. split; [auto|]. split; [auto|]. split; [auto|].
                    intros HE. exfalso. apply in_fset_extend in HE. destruct HE as [HE|[Eo HE]].
                    + rewrite Hfv in HE. auto.
                    + unfold syms in HE. apply filter_In in HE. tauto. }
                intros w Hw. unfold st2 in Hw. rewrite extend_visited in Hw. auto.
          -- exists st1. split; [auto|]. split; [auto|]. split; [auto|]. split; [auto|].
             split; [|auto].
             right. split; [auto|]. split; [auto|].
             assert (E0 : fset st1 (Some v) = []) by (unfold fset; rewrite Efv; auto).
             rewrite E0. split; [intros x []|intros []].
        * apply memb_not_in in Evis.
          destruct (entry_rule _ _ _ _ He) as (bd & Hbd).
          destruct (get_rule_some g v Hgood (ex_intro _ bd Hbd)) as (bds & Ebds). rewrite Ebds. cbn [of_option bind].
          set (st2 := {| f_result := _ |}).
          assert (Hp2 : forall o' s', inmap o' s' (f_pending st2) <->
                    inmap o' s' (f_pending st1) \/ (o' = Some v /\ In s' bds)).
          { intros o' s'. unfold st2. cbn [f_pending]. rewrite inmap_app. split.
            - intros [H|(bs & [E|[]] & Hin)]; auto. injection E as <- <-. apply in_hash_at in Hin. auto.
            - intros [H|[-> H]]; auto. right. eexists. split; [left; reflexivity|]. apply in_hash_at. auto. }
          assert (Hinv2 : forall w, In w (f_visited st) -> In w (f_visited st2)).
          { intros w Hw. cbn. apply in_app_iff. auto. }
          assert (Hent : forall o' s', entry_ok (f_visited st) o' s' -> entry_ok (f_visited st2) o' s').
          { intros o' s' [H1 H2]. split; auto. destruct o'; auto. }
          assert (Hk2 : keeps st1 st2).
          { split; [|auto]. intros Y o' s'. induction s' as [|b s' IH']; intros H; [right; exact I|].
            cbn in H. destruct H as [[H|H]|H]; [apply settled_now; left; apply Hp2; auto|apply settled_now; auto|].
            destruct b as [t|w|]; right.
            - auto.
            - destruct H as (H1 & H2 & H3 & H4). split; [exact H1|]. split; [apply Hinv2; exact H2|]. split; [exact H3|auto].
            - destruct s'; auto. }
          assert (Hnew : forall b, rule g v b -> settled X st2 (Some v) b).
          { intros b Hb. apply settled_now. left. apply Hp2. right. split; auto.
            apply rule_get in Hb; auto. destruct Hb as (bds' & E & Hin). congruence. }
          exists st2. split; [reflexivity|].
          split.
          { destruct Hi1. split; auto.
            - intros o' s' H. apply Hp2 in H. destruct H as [H|[-> H]].
              + apply Hent. apply i_pend0. auto.
              + split; [|cbn; apply in_app_iff; right; left; auto].
                exists []. split; [|constructor]. cbn. apply rule_get; eauto.
            - intros w o' s' H. apply Hent. eapply i_deps0. exact H.
            - cbn. apply nodup_snoc; auto.
            - intros w Hw. cbn in Hw. apply in_app_iff in Hw. destruct Hw as [Hw|[<-|[]]]; eauto. }
          split; [apply (keeps_trans st st1 st2); [exact Hk1|exact Hk2]|].
          split.
          { unfold advances, progress, st2. cbn [f_visited f_first f_pending].
            rewrite app_length. cbn [length].
            change (f_first st1) with (f_first st). change (f_visited st1) with (f_visited st).
            split; [lia|intros; exfalso; lia]. }
          split.
          { right. split; [exact Hd1|]. split; [cbn; apply in_app_iff; right; left; auto|].
            change (fset st2 (Some v)) with (fset st (Some v)). rewrite Hf by auto.
            split; [intros x []|intros []]. }
          intros w Hw. cbn in Hw. apply in_app_iff in Hw. destruct Hw as [Hw|[<-|[]]]; auto.
      + (* epsilon *)
        assert (Hne : nullb g [Eps]) by (constructor; constructor).
        destruct s as [|a s].
        * eexists; split; [reflexivity|].
          split. { apply inv_extend; auto. intros x [<-|[]]. eapply entry_null; eauto. }
          split; [apply keeps_extend|]. split; [apply advances_extend|].
          split. { right. apply in_fset_extend. right. split; auto. left; auto. }
          intros x. rewrite extend_visited. auto.
        * destruct (IH st) as (st' & E & H1 & H2 & H3 & H4 & H5); auto.
          { eapply entry_next; eauto. }
          exists st'. split; [exact E|]. split; [auto|]. split; [auto|]. split; [auto|]. split; [|auto].
          right. exact H4.
  Qed.

  (** ** One queue entry *)

  Lemma inv_unvisited st v : inv st -> ~ In v (f_visited st) -> fset st (Some v) = [].
  Proof.
    intros Hi Hv. unfold fset. destruct (mget v (f_first st)) as [l|] eqn:E; auto.
    apply mget_some_key in E. apply (i_first _ Hi) in E. tauto.
  Qed.

  Lemma entry_mono st st' o s : keeps st st' -> entry_ok (f_visited st) o s -> entry_ok (f_visited st') o s.
  Proof. intros [_ H] [H1 H2]. split; auto. destruct o; auto. Qed.

  Lemma first_entry_spec X o bs : forall st,
    inv st -> (forall s, In s bs -> entry_ok (f_visited st) o s) ->
    exists st', first_entry p g o bs st = Val st' /\
      inv st' /\ keeps st st' /\ advances st st' /\ (forall s, In s bs -> settled X st' o s) /\
      (forall v, In v (f_visited st') -> In v (f_visited st) \/
         forall bd, rule g v bd -> settled X st' (Some v) bd).
  Proof.
    induction bs as [|s bs IH]; intros st Hi He.
    - exists st. split; [reflexivity|]. split; [auto|]. split; [apply keeps_refl|]. split; [apply advances_refl|].
      split; [intros s []|auto].
    - destruct (scan_spec X o s st Hi) as (st1 & E1 & Hi1 & Hk1 & Ha1 & Hs1 & Hn1).
      { intros v. apply inv_unvisited; auto. }
      { apply He. left; auto. }
      destruct (IH st1) as (st2 & E2 & Hi2 & Hk2 & Ha2 & Hs2 & Hn2).
      { auto. }
      { intros s' Hs'. eapply entry_mono; [exact Hk1|]. apply He. right; auto. }
      exists st2. split; [cbn; rewrite E1; exact E2|]. split; [auto|].
      split; [apply (keeps_trans st st1 st2); auto|].
      split; [apply (advances_trans st st1 st2); auto|].
      split.
      + intros s' [<-|Hs']; auto. apply (proj1 Hk2); auto.
      + intros v Hv. apply Hn2 in Hv. destruct Hv as [Hv|Hv]; auto. apply Hn1 in Hv.
        destruct Hv as [Hv|Hv]; auto. right. intros bd Hbd. apply (proj1 Hk2); auto.
  Qed.

  (** ** The whole loop *)

  Definition complete (st : @fstate V T) : Prop :=
    (forall v bd, In v (f_visited st) -> rule g v bd -> settled [] st (Some v) bd) /\
    (forall b, In b bs0 -> settled [] st None b).

  Definition popped st o bs rest : Prop := f_pending st = (o, bs) :: rest.

  Definition without st rest : @fstate V T :=
    {| f_result := f_result st; f_first := f_first st; f_pending := rest;
       f_deps := f_deps st; f_visited := f_visited st |}.

  Lemma settled_pop st o bs rest o' s' :
    f_pending st = (o, bs) :: rest -> settled [] st o' s' -> settled (map (pair o) bs) (without st rest) o' s'.
  Proof.
    intros E. induction s' as [|a s' IH]; intros H; [right; exact I|].
    cbn in H. destruct H as [[H|[]]|H].
    - apply settled_now. rewrite E in H. destruct H as (bs' & [H|H] & Hs).
      + injection H as <- <-. right. apply in_map. auto.
      + left. exists bs'. auto.
    - destruct a as [t|v|]; right.
      + exact H.
      + destruct H as (H1 & H2 & H3 & H4). split; [exact H1|]. split; [exact H2|]. split; [exact H3|]. auto.
      + destruct s'; auto.
  Qed.

  Lemma settled_discharge st X o' s' :
    (forall o s, In (o, s) X -> settled [] st o s) -> settled X st o' s' -> settled [] st o' s'.
  Proof.
    intros HX H. induction s' as [|a s' IH]; [right; exact I|].
    cbn in H. destruct H as [[H|H]|H].
    - apply settled_now. auto.
    - apply HX; auto.
    - destruct a as [t|v|]; right.
      + exact H.
      + destruct H as (H1 & H2 & H3 & H4). split; [exact H1|]. split; [exact H2|]. split; [exact H3|]. auto.
      + destruct s'; auto.
  Qed.

  Lemma inv_without st o bs rest : f_pending st = (o, bs) :: rest -> inv st ->
    inv (without st rest) /\ forall s, In s bs -> entry_ok (f_visited (without st rest)) o s.
  Proof.
    intros E []. split.
    - split; auto. intros o' s' (bs' & H & Hs). apply i_pend0. rewrite E. exists bs'. split; auto. right; auto.
    - intros s Hs. apply i_pend0. rewrite E. exists bs. split; auto. left; auto.
  Qed.

  (** Bound on progress. *)
  Definition universe : list sym :=
    Eps :: concat bs0 ++ flat_map (fun r => concat (snd r)) (g_rules g).

  Definition bound : nat := length (g_rules g) + length (g_rules g) * length universe.

  Lemma rule_universe v bd x : rule g v bd -> In x bd -> In x universe.
  Proof.
    intros (bds & H1 & H2) Hx. right. apply in_app_iff. right. apply in_flat_map.
    exists (v, bds). split; auto. cbn. apply in_concat. eauto.
  Qed.

  Lemma sym_universe o x : sym_ok o x -> In x universe.
  Proof.
    destruct x as [t|v|]; cbn [sym_ok].
    - intros (b & Hb & Hs). apply start_occurs in Hs. destruct Hs as [Hs|(v & bd & H1 & H2)].
      + destruct o as [v|]; cbn in Hb.
        * eapply rule_universe; eauto.
        * right. apply in_app_iff. left. apply in_concat. eauto.
      + eapply rule_universe; eauto.
    - intros [].
    - intros _. left; auto.
  Qed.

  Lemma progress_bound st : inv st -> progress st <= bound.
  Proof.
    intros Hi. unfold progress, bound.
    assert (Hheads : forall l : list V, NoDup l -> (forall v, In v l -> In v (f_visited st)) ->
                       length l <= length (g_rules g)).
    { intros l Hl Hin. rewrite <- (map_length fst (g_rules g)). apply NoDup_incl_length; auto.
      intros v Hv. apply Hin, (i_rule _ Hi) in Hv. destruct Hv as (bd & bds & H1 & _).
      change v with (fst (v, bds)). apply in_map; auto. }
    assert (H1 : length (f_visited st) <= length (g_rules g)) by (apply Hheads; [apply Hi|auto]).
    assert (H2 : length (f_first st) <= length (g_rules g)).
    { rewrite <- (map_length fst (f_first st)). apply Hheads; apply Hi. }
    assert (H3 : first_size (f_first st) <= length (f_first st) * length universe).
    { assert (Hall : forall v l, In (v, l) (f_first st) -> length l <= length universe).
      { intros v l Hl. apply NoDup_incl_length; [eapply (i_sets _ Hi); eauto|].
        intros x Hx. apply (sym_universe (Some v)). apply (i_sound _ Hi). unfold fset.
        rewrite (in_mget _ _ _ (i_keys _ Hi) Hl). auto. }
      unfold first_size, list_sum. clear -Hall. induction (f_first st) as [|[v l] m IH]; cbn [map fold_right snd length]; [lia|].
      assert (length l <= length universe) by (eapply Hall; left; reflexivity).
      assert (fold_right Nat.add 0 (map (fun e : V * list sym => length (snd e)) m) <= length m * length universe).
      { apply IH. intros v' l' H'. eapply Hall. right. eauto. }
      lia. }
    pose proof (Nat.mul_le_mono_r _ _ (length universe) H2). lia.
  Qed.

  Lemma first_loop_spec n : forall m st,
    inv st -> complete st -> bound - progress st <= n -> length (f_pending st) <= m ->
    exists fuel st', first_loop fuel p g st = Val st' /\ inv st' /\ complete st' /\ f_pending st' = [].
  Proof.
    induction n as [n IHn] using lt_wf_ind. induction m as [|m IHm]; intros st Hi Hc Hn Hm.
    - exists 0, st. cbn. destruct (f_pending st) as [|e r] eqn:E; [auto|]. cbn in Hm. lia.
    - destruct (f_pending st) as [|[o bs] rest] eqn:E.
      + exists 0, st. cbn. rewrite E. auto.
      + destruct (inv_without _ _ _ _ E Hi) as [Hi0 He0].
        destruct (first_entry_spec [] o bs (without st rest) Hi0 He0)
          as (st1 & E1 & Hi1 & Hk1 & Ha1 & Hs1 & Hn1).
        assert (Hc1 : complete st1).
        { assert (Hd : forall o' s', settled [] st o' s' -> settled [] st1 o' s').
          { intros o' s' H. apply (settled_discharge st1 (map (pair o) bs)).
            - intros o2 s2 H2. apply in_map_iff in H2. destruct H2 as (s3 & H2 & H3).
              injection H2 as <- <-. auto.
            - apply (proj1 Hk1). eapply settled_pop; eauto. }
          split.
          - intros v bd Hv Hbd. apply Hn1 in Hv. destruct Hv as [Hv|Hv]; auto. apply Hd. apply Hc; auto.
          - intros b Hb. apply Hd. apply Hc; auto. }
        assert (Hp0 : progress (without st rest) = progress st) by reflexivity.
        pose proof (progress_bound _ Hi1) as Hb1. destruct Ha1 as [Ha1 Ha2].
        assert (Hrec : exists fuel st', first_loop fuel p g st1 = Val st' /\ inv st' /\ complete st' /\ f_pending st' = []).
        { destruct (Nat.eq_dec (progress st1) (progress (without st rest))) as [Ep|Ep].
          - apply IHm; auto; [lia|]. rewrite (Ha2 Ep). cbn. cbn in Hm. lia.
          - eapply (IHn (bound - progress st1)); auto; lia. }
        destruct Hrec as (fuel & st' & Ef & Hr).
        exists (S fuel), st'. cbn [first_loop]. rewrite E. fold (without st rest). rewrite E1. cbn [bind]. auto.
  Qed.

  Lemma first_loop_more fuel : forall st st' k,
    first_loop fuel p g st = Val st' -> first_loop (fuel + k) p g st = Val st'.
  Proof.
    induction fuel as [|fuel IH]; intros st st' k H; cbn in H.
    - destruct (f_pending st) as [|[o bs] rest] eqn:E; [|discriminate].
      destruct k; cbn; rewrite E; auto.
    - cbn. destruct (f_pending st) as [|[o bs] rest] eqn:E; auto.
      destruct (first_entry p g o bs _) as [st1| |]; cbn in *; auto; discriminate.
  Qed.

  (** ** Reading the result *)

  Lemma final_complete st : complete st -> f_pending st = [] ->
    (forall s, nullb g s -> forall o, s <> [] -> settled [] st o s -> In Eps (fset st o)) /\
    (forall s t, startb g s t -> forall o, settled [] st o s -> In (Ter t) (fset st o)).
  Proof.
    intros Hc Hp.
    assert (Hno : forall o s, ~ (inmap o s (f_pending st) \/ In (o, s) [])).
    { intros o s [(bs & H & _)|[]]. rewrite Hp in H. destruct H. }
    assert (Hnull : forall s, nullb g s -> forall o, s <> [] -> settled [] st o s -> In Eps (fset st o)).
    { induction 1 as [|r Hr IH|v b r Hb Hnb IHb Hr IHr]; intros o Hne Hs.
      - congruence.
      - cbn in Hs. destruct Hs as [Hs|Hs]; [destruct (Hno _ _ Hs)|].
        destruct r as [|a r]; auto. apply IH; auto. discriminate.
      - cbn in Hs. destruct Hs as [Hs|(H1 & H2 & H3 & H4)]; [destruct (Hno _ _ Hs)|].
        assert (HE : In Eps (fset st (Some v))).
        { apply (IHb (Some v)). - eapply rule_nonempty; eauto. - apply Hc; auto. }
        destruct r as [|a r]; [apply H3; auto|]. apply IHr; [discriminate|auto]. }
    split; auto.
    induction 1 as [t r|t r Hr IH|t v b r Hb Hs IH|t v b r Hb Hnb Hs IH]; intros o Hset.
    - cbn in Hset. destruct Hset as [H|H]; [destruct (Hno _ _ H)|auto].
    - cbn in Hset. destruct Hset as [H|H]; [destruct (Hno _ _ H)|].
      destruct r; [inversion Hr|auto].
    - cbn in Hset. destruct Hset as [H|(H1 & H2 & H3 & H4)]; [destruct (Hno _ _ H)|].
      apply H3; [|left; discriminate]. apply (IH (Some v)). apply Hc; auto.
    - cbn in Hset. destruct Hset as [H|(H1 & H2 & H3 & H4)]; [destruct (Hno _ _ H)|].
      apply IH. apply H4. apply (Hnull _ Hnb (Some v)); [|apply Hc; auto]. eapply rule_nonempty; eauto.
  Qed.
End First.

(** ** [first_bodies] *)
Section FirstBodies.
  Context {V T : Type} {dv : DecEq V} {dt : DecEq T} {ho : HashOrder}.
  Variable g : grammar V T.
  Hypothesis Hgood : good g.

  (** The set is exactly the symbols some body of a family can start with. *)
  Definition exact_first (own : body V T -> Prop) (l : list (symbol V T)) : Prop :=
    (forall t, In (Ter t) l <-> exists b, own b /\ startb g b t) /\
    (In Eps l <-> exists b, own b /\ nullb g b) /\
    (forall v, ~ In (Var v) l).

  Lemma first_body_exact p bd : bd <> [] ->
    (forall x, In (Var x) bd -> exists b, rule g x b) ->
    exists n l, (forall fuel, n <= fuel -> first_body fuel p g bd = Val l) /\ exact_first (eq bd) l.
  Proof.
    intros Hne Hcl.
    set (st0 := {| f_result := []; f_first := []; f_pending := [(None, [bd])]; f_deps := []; f_visited := [] |}
                : @fstate V T).
    assert (Hbs : forall b x, In b [bd] -> In (Var x) b -> exists b', rule g x b').
    { intros b x [<-|[]]. apply Hcl. }
    assert (Hi : inv g [bd] st0).
    { split; cbn; auto; try (constructor; fail); try tauto.
      - intros o s (bs & [E|[]] & Hs). injection E as <- <-. destruct Hs as [<-|[]].
        split; [|exact I]. exists []. split; [left; auto|constructor].
      - intros v o s (ds & E & _). discriminate.
      - intros [v|] x []. }
    assert (Hc : complete g [bd] st0).
    { split; [intros v b []|]. intros b [<-|[]]. apply settled_now. left. exists [bd]. split; left; auto. }
    destruct (first_loop_spec g Hgood [bd] Hbs p _ _ st0 Hi Hc (le_n _) (le_n _))
      as (n & st & E & Hi' & Hc' & Hp').
    destruct (final_complete g Hgood [bd] st Hc' Hp') as [Hnull Hstart].
    exists n, (f_result st). split.
    - intros fuel Hf. unfold first_body, first_bodies. fold st0.
      replace fuel with (n + (fuel - n)) by lia.
      rewrite (first_loop_more g p n _ _ _ E). reflexivity.
    - assert (Hset : settled [] st None bd) by (apply Hc'; left; auto).
      split; [|split].
      + intros t. split.
        * intros H. apply (i_sound _ _ _ Hi' None) in H. destruct H as (b & [<-|[]] & Hb). eauto.
        * intros (b & <- & Hb). apply (Hstart _ _ Hb None Hset).
      + split.
        * intros H. apply (i_sound _ _ _ Hi' None) in H. destruct H as (b & [<-|[]] & Hb). eauto.
        * intros (b & <- & Hb). apply (Hnull _ Hb None Hne Hset).
      + intros v H. apply (i_sound _ _ _ Hi' None) in H. destruct H.
  Qed.

  Lemma first_exact p v : (exists bd, rule g v bd) ->
    exists n l, (forall fuel, n <= fuel -> first fuel p g v = Val l) /\ exact_first (rule g v) l.
  Proof.
    intros Hv. destruct (get_rule_some g v Hgood Hv) as (bds & Ebds).
    set (bs := hash_at (0 :: p) bds).
    set (st0 := {| f_result := []; f_first := []; f_pending := [(Some v, bs)]; f_deps := []; f_visited := [v] |}
                : @fstate V T).
    assert (Hin : forall b, In b bs <-> rule g v b).
    { intros b. unfold bs. rewrite in_hash_at. rewrite (rule_get g v b Hgood). split.
      - intros H. eauto.
      - intros (bds' & E & H). congruence. }
    assert (Hbs : forall (b : body V T) x, In b [] -> In (Var x) b -> exists b', rule g x b') by (intros b x []).
    assert (Hi : inv g [] st0).
    { split; cbn; auto; try (constructor; fail); try tauto.
      - intros o s (bs' & [E|[]] & Hs). injection E as <- <-.
        split; [|left; auto]. exists []. split; [apply Hin; auto|constructor].
      - intros w o s (ds & E & _). discriminate.
      - intros [w|] x [].
      - constructor; [intros []|constructor].
      - intros w [<-|[]]. auto. }
    assert (Hc : complete g [] st0).
    { split; [|intros b []]. intros w b [<-|[]] Hb. apply settled_now. left. exists bs. split; [left; auto|].
      apply Hin; auto. }
    destruct (first_loop_spec g Hgood [] Hbs p _ _ st0 Hi Hc (le_n _) (le_n _))
      as (n & st & E & Hi' & Hc' & Hp').
    destruct (final_complete g Hgood [] st Hc' Hp') as [Hnull Hstart].
    assert (Hvis : In v (f_visited st)).
    { assert (Hk : forall fuel a b, first_loop fuel p g a = Val b -> inv g [] a ->
                     In v (f_visited a) -> In v (f_visited b)).
      { clear - Hgood Hbs. induction fuel as [|fuel IH]; intros a b H Hi Hv; cbn in H.
        - destruct (f_pending a) as [|[o bs'] rest]; [congruence|discriminate].
        - destruct (f_pending a) as [|[o bs'] rest] eqn:E; [congruence|].
          destruct (inv_without _ _ _ _ _ _ E Hi) as [Hi0 He0].
          destruct (first_entry_spec g Hgood [] Hbs p [] o bs' _ Hi0 He0) as (a1 & E1 & Hi1 & [_ Hk1] & _).
          fold (without a rest) in H. rewrite E1 in H. cbn [bind] in H.
          eapply IH; [exact H|auto|]. apply Hk1. auto. }
      eapply Hk; [exact E|auto|left; auto]. }
    exists n, (fset st (Some v)). split.
    - intros fuel Hf. unfold first, first_bodies. rewrite Ebds. cbn [of_option bind]. fold bs. fold st0.
      replace fuel with (n + (fuel - n)) by lia.
      rewrite (first_loop_more g p n _ _ _ E). reflexivity.
    - split; [|split].
      + intros t. split.
        * intros H. apply (i_sound _ _ _ Hi' (Some v)) in H. auto.
        * intros (b & Hb & Hs). apply (Hstart _ _ Hs (Some v)). apply Hc'; auto.
      + split.
        * intros H. apply (i_sound _ _ _ Hi' (Some v)) in H. auto.
        * intros (b & Hb & Hs). apply (Hnull _ Hs (Some v)); [eapply rule_nonempty; eauto|]. apply Hc'; auto.
      + intros w H. apply (i_sound _ _ _ Hi' (Some v)) in H. destruct H.
  Qed.
End FirstBodies.
