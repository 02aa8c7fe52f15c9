(** Sets, maps and the grammar builder. *)
From Verif Require Import Base GrammarModel CfsmModel SlrModel SpecCfg.

(** ** Sets *)
Section Sets.
  Context {A : Type} {da : DecEq A}.

  Lemma in_set_insert (x y : A) l : In y (set_insert x l) <-> y = x \/ In y l.
  Proof.
    unfold set_insert. destruct (memb x l) eqn:E.
    - apply memb_in in E. split; [auto|]. intros [->|H]; auto.
    - rewrite in_app_iff. cbn. intuition.
  Qed.

  Lemma in_set_extend xs : forall (y : A) l, In y (set_extend xs l) <-> In y xs \/ In y l.
  Proof.
    induction xs as [|x xs IH]; intros y l; cbn.
    - tauto.
    - unfold set_extend in IH |- *. cbn. rewrite IH, in_set_insert. intuition.
  Qed.

  Lemma nodup_snoc (x : A) l : NoDup l -> ~ In x l -> NoDup (l ++ [x]).
  Proof.
    intros Hl Hx. eapply Permutation_NoDup; [apply Permutation_cons_append|]. constructor; auto.
  Qed.

  Lemma nodup_set_insert (x : A) l : NoDup l -> NoDup (set_insert x l).
  Proof.
    intros Hl. unfold set_insert. destruct (memb x l) eqn:E; auto.
    apply nodup_snoc; auto. apply memb_not_in; auto.
  Qed.

  Lemma nodup_set_extend xs : forall (l : list A), NoDup l -> NoDup (set_extend xs l).
  Proof.
    induction xs as [|x xs IH]; intros l Hl; cbn; auto.
    apply IH, nodup_set_insert, Hl.
  Qed.

  Lemma set_insert_length (x : A) l : length l <= length (set_insert x l).
  Proof. unfold set_insert. destruct (memb x l); rewrite ?app_length; cbn; lia. Qed.

  Lemma set_extend_length xs : forall (l : list A), length l <= length (set_extend xs l).
  Proof.
    induction xs as [|x xs IH]; intros l; cbn; auto.
    etransitivity; [apply (set_insert_length x)|apply IH].
  Qed.

  Lemma set_extend_same xs : forall (l : list A),
    length l = length (set_extend xs l) -> set_extend xs l = l.
  Proof.
    induction xs as [|x xs IH]; intros l Hl; cbn in *; auto.
    change (length l = length (set_extend xs (set_insert x l))) in Hl.
    pose proof (set_extend_length xs (set_insert x l)) as H1.
    pose proof (set_insert_length x l) as H2.
    assert (E : set_insert x l = l).
    { unfold set_insert in *. destruct (memb x l); auto. rewrite app_length in *. cbn in *. lia. }
    rewrite E in *. apply IH. auto.
  Qed.

  Lemma set_extend_closed xs : forall (l : list A), (forall x, In x xs -> In x l) -> set_extend xs l = l.
  Proof.
    induction xs as [|x xs IH]; intros l Hl; auto.
    change (set_extend (x :: xs) l) with (set_extend xs (set_insert x l)).
    assert (E : set_insert x l = l).
    { unfold set_insert. rewrite (proj2 (memb_in x l) (Hl x (or_introl eq_refl))). reflexivity. }
    rewrite E. apply IH. intros y Hy. apply Hl. right; auto.
  Qed.
End Sets.

(** ** Maps *)
Section Maps.
  Context {A B : Type} {da : DecEq A}.

  Lemma mget_in k (b : B) m : mget k m = Some b -> In (k, b) m.
  Proof.
    induction m as [|[k' b'] m IH]; cbn; [discriminate|].
    destruct (eqb_spec k k') as [->|Hn]; intros E.
    - injection E as ->. auto.
    - auto.
  Qed.

  Lemma mget_none k (m : list (A * B)) : mget k m = None <-> ~ In k (map fst m).
  Proof.
    induction m as [|[k' b'] m IH]; cbn; [tauto|].
    destruct (eqb_spec k k') as [->|Hn]; split; intros E; try congruence; try tauto.
    rewrite IH in E. intuition.
  Qed.

  Lemma in_mget k (b : B) m : NoDup (map fst m) -> In (k, b) m -> mget k m = Some b.
  Proof.
    induction m as [|[k' b'] m IH]; cbn; intros Hn Hin; [tauto|].
    inversion Hn as [|? ? Hk Hr]; subst.
    destruct (eqb_spec k k') as [->|Hne].
    - destruct Hin as [E|Hin]; [congruence|].
      exfalso. apply Hk. change k' with (fst (k', b)). apply in_map. auto.
    - destruct Hin as [E|Hin]; [congruence|]. auto.
  Qed.

  Lemma mget_some_key k (b : B) m : mget k m = Some b -> In k (map fst m).
  Proof. intros E. apply mget_in in E. change k with (fst (k, b)). apply in_map; auto. Qed.

  Lemma key_mget k (m : list (A * B)) : In k (map fst m) -> exists b, mget k m = Some b.
  Proof.
    intros H. destruct (mget k m) as [b|] eqn:E; [eauto|]. apply mget_none in E. tauto.
  Qed.

  Lemma mget_mupdate_same k d (f : B -> B) m :
    mget k (mupdate k d f m) = Some (f (match mget k m with Some b => b | None => d end)).
  Proof.
    induction m as [|[k' b'] m IH]; cbn.
    - rewrite eqb_refl. reflexivity.
    - destruct (eqb k k') eqn:E; cbn; rewrite E; auto.
  Qed.

  Lemma mget_mupdate_other k k2 d (f : B -> B) m : k2 <> k -> mget k2 (mupdate k d f m) = mget k2 m.
  Proof.
    intros Hne. induction m as [|[k' b'] m IH]; cbn.
    - apply eqb_neq in Hne. rewrite Hne. reflexivity.
    - destruct (eqb_spec k k') as [->|E]; cbn.
      + destruct (eqb_spec k2 k') as [->|]; [congruence|]. reflexivity.
      + rewrite IH. reflexivity.
  Qed.

  Lemma mget_mupdate k k2 d (f : B -> B) m :
    mget k2 (mupdate k d f m) =
    if eqb k2 k then Some (f (match mget k m with Some b => b | None => d end)) else mget k2 m.
  Proof.
    destruct (eqb_spec k2 k) as [->|E]; [apply mget_mupdate_same|apply mget_mupdate_other; auto].
  Qed.

  Lemma mupdate_keys k d (f : B -> B) m :
    map fst (mupdate k d f m) = if memb k (map fst m) then map fst m else map fst m ++ [k].
  Proof.
    induction m as [|[k' b'] m IH]; cbn; [reflexivity|].
    fold (memb k (map fst m)). unfold memb in *. cbn.
    destruct (eqb_spec k k') as [->|E]; cbn; auto.
    rewrite IH. destruct (existsb (eqb k) (map fst m)); reflexivity.
  Qed.

  Lemma mupdate_nodup k d (f : B -> B) m : NoDup (map fst m) -> NoDup (map fst (mupdate k d f m)).
  Proof.
    intros H. rewrite mupdate_keys. destruct (memb k (map fst m)) eqn:E; auto.
    apply nodup_snoc; auto. apply memb_not_in; auto.
  Qed.

  Lemma in_mupdate_keys k k2 d (f : B -> B) m :
    In k2 (map fst (mupdate k d f m)) <-> k2 = k \/ In k2 (map fst m).
  Proof.
    rewrite mupdate_keys. destruct (memb k (map fst m)) eqn:E.
    - apply memb_in in E. intuition. subst; auto.
    - rewrite in_app_iff. cbn. intuition.
  Qed.

  Lemma in_mupdate k d (f : B -> B) m k2 b :
    In (k2, b) (mupdate k d f m) ->
    In (k2, b) m \/ (k2 = k /\ (b = f d \/ exists b0, In (k, b0) m /\ b = f b0)).
  Proof.
    induction m as [|[k' b'] m IH]; cbn.
    - intros [E|[]]. injection E as <- <-. auto.
    - destruct (eqb_spec k k') as [->|E]; cbn.
      + intros [E|H]; [|auto]. injection E as <- <-. right. split; auto. right. eauto.
      + intros [H|H]; [auto|]. apply IH in H. destruct H as [H|(-> & [H|(b0 & H1 & H2)])]; eauto 8.
  Qed.

  Lemma mget_mremove k k2 (m : list (A * B)) :
    mget k2 (mremove k m) = if eqb k2 k then None else mget k2 m.
  Proof.
    unfold mremove. induction m as [|[k' b'] m IH]; cbn.
    - destruct (eqb k2 k); reflexivity.
    - destruct (eqb_spec k k') as [->|E]; cbn.
      + rewrite IH. destruct (eqb_spec k2 k'); reflexivity.
      + rewrite IH. destruct (eqb_spec k2 k') as [->|]; [|reflexivity].
        destruct (eqb_spec k' k); [congruence|reflexivity].
  Qed.
End Maps.

Lemma in_enumerate {A} (l : list A) x : In x (map snd (enumerate l)) <-> In x l.
Proof.
  unfold enumerate. replace (map snd (combine (seq 0 (length l)) l)) with l; [tauto|].
  generalize 0 as n. induction l as [|a l IH]; intros n; cbn; auto. rewrite <- IH. reflexivity.
Qed.

Lemma map_snd_enumerate {A} (l : list A) : map snd (enumerate l) = l.
Proof.
  unfold enumerate. generalize 0 as n.
  induction l as [|a l IH]; intros n; cbn; auto. rewrite IH. reflexivity.
Qed.

(** ** Built grammars *)
Section Build.
  Context {V T : Type} {dv : DecEq V} {dt : DecEq T}.

  Definition good_rules (rs : rules V T) : Prop :=
    NoDup (map fst rs) /\
    forall v bds, In (v, bds) rs -> NoDup bds /\ bds <> [] /\ forall bd, In bd bds -> bd <> [].

  (** What every built grammar satisfies. *)
  Record good (g : grammar V T) : Prop := {
    good_ok : good_rules (g_rules g);
    good_start : exists bd, rule g (g_start g) bd;
    good_closed : forall v bd x, rule g v bd -> In (Var x) bd -> exists bd', rule g x bd'
  }.

  Definition norm_body (bd : body V T) : body V T := match bd with [] => [Eps] | _ => bd end.

  Lemma good_rules_insert rs v bd :
    good_rules rs -> good_rules (mupdate v [] (set_insert (norm_body bd)) rs).
  Proof.
    intros [H1 H2]. split; [apply mupdate_nodup; auto|].
    intros v' bds Hin. apply in_mupdate in Hin.
    assert (Hnb : norm_body bd <> []) by (destruct bd; discriminate).
    assert (Hne : forall l, set_insert (norm_body bd) l <> []).
    { intros l E. assert (Hx : In (norm_body bd) (set_insert (norm_body bd) l)) by (apply in_set_insert; auto).
      rewrite E in Hx. destruct Hx. }
    destruct Hin as [Hin|(-> & [->|(b0 & Hin & ->)])].
    - apply (H2 _ _ Hin).
    - split; [apply nodup_set_insert; constructor|]. split; [auto|].
      intros b' Hb. apply in_set_insert in Hb. destruct Hb as [->|[]]. auto.
    - destruct (H2 _ _ Hin) as (N1 & N2 & N3).
      split; [apply nodup_set_insert; auto|]. split; [auto|].
      intros b' Hb. apply in_set_insert in Hb. destruct Hb as [->|Hb]; auto.
  Qed.

  Definition rrule (rs : rules V T) v bd : Prop := exists bds, In (v, bds) rs /\ In bd bds.

  Lemma rrule_mget rs v bd : NoDup (map fst rs) ->
    rrule rs v bd <-> exists bds, mget v rs = Some bds /\ In bd bds.
  Proof.
    intros Hn. split; intros (bds & H1 & H2); exists bds; split; auto.
    - apply in_mget; auto.
    - apply mget_in; auto.
  Qed.

  Lemma rrule_insert rs v bd v' bd' : NoDup (map fst rs) ->
    rrule (mupdate v [] (set_insert bd) rs) v' bd' <-> (v' = v /\ bd' = bd) \/ rrule rs v' bd'.
  Proof.
    intros Hn. rewrite !rrule_mget by (try apply mupdate_nodup; auto).
    rewrite mget_mupdate. destruct (eqb_spec v' v) as [->|Hne].
    - split.
      + intros (bds & E & Hin). injection E as <-. apply in_set_insert in Hin.
        destruct Hin as [->|Hin]; auto. right. destruct (mget v rs) as [l|]; [eauto|destruct Hin].
      + intros [[_ ->]|(bds & E & Hin)]; (eexists; split; [reflexivity|apply in_set_insert]); auto.
        rewrite E. auto.
    - split; [tauto|]. intros [[? _]|?]; [congruence|auto].
  Qed.

  Lemma do_calls_app cs c : do_calls (V:=V) (T:=T) (cs ++ [c]) =
    match c with
    | CallStart v => set_start_variable v (do_calls cs)
    | CallRule v bd => snd (add_rule v bd (do_calls cs))
    end.
  Proof. unfold do_calls. rewrite fold_left_app. reflexivity. Qed.

  Lemma add_rules_calls cs v bds :
    add_rules v bds (do_calls (V:=V) (T:=T) cs) = do_calls (cs ++ map (CallRule v) bds).
  Proof.
    revert cs. induction bds as [|bd bds IH]; intros cs; [rewrite app_nil_r; reflexivity|].
    cbn [map]. change (CallRule v bd :: map (CallRule v) bds) with ([CallRule v bd] ++ map (CallRule v) bds).
    rewrite app_assoc, <- IH, do_calls_app. reflexivity.
  Qed.

  Lemma do_calls_good (cs : list (call V T)) : good_rules (b_rules (do_calls cs)).
  Proof.
    induction cs as [|c cs IH] using rev_ind; [split; [constructor|intros ? ? []]|].
    rewrite do_calls_app. destruct c as [v|v bd]; cbn; auto. apply good_rules_insert; auto.
  Qed.

  Lemma last_start_app (cs : list (call V T)) c :
    last_start (cs ++ [c]) = match c with CallStart v => Some v | CallRule _ _ => last_start cs end.
  Proof.
    induction cs as [|[v|v bd] cs IH]; cbn.
    - destruct c; reflexivity.
    - rewrite IH. destruct c; reflexivity.
    - rewrite IH. reflexivity.
  Qed.

  Lemma do_calls_start cs : b_start (do_calls (V:=V) (T:=T) cs) = last_start cs.
  Proof.
    induction cs as [|c cs IH] using rev_ind; [reflexivity|].
    rewrite do_calls_app, last_start_app. destruct c; cbn; auto.
  Qed.

  Lemma do_calls_rules cs v bd : rrule (b_rules (do_calls cs)) v bd <-> added cs v bd.
  Proof.
    induction cs as [|c cs IH] using rev_ind.
    - split; [intros (? & [] & _)|intros (? & [] & _)].
    - rewrite do_calls_app. unfold added in *. destruct c as [x|x b]; cbn.
      + rewrite IH. split; intros (b & H1 & H2); exists b; split; auto.
        * apply in_app_iff; auto.
        * apply in_app_iff in H1. destruct H1 as [H1|[H1|[]]]; [auto|discriminate].
      + fold (norm_body b).
        rewrite rrule_insert by (apply do_calls_good). rewrite IH. split.
        * intros [[-> ->]|(b' & H1 & H2)].
          -- exists b. split; [apply in_app_iff; right; left|]; reflexivity.
          -- exists b'. split; auto. apply in_app_iff; auto.
        * intros (b' & H1 & H2). apply in_app_iff in H1. destruct H1 as [H1|[H1|[]]]; [eauto|].
          injection H1 as -> ->. left. auto.
  Qed.

  Lemma head_rule rs v : good_rules rs -> In v (map fst rs) <-> exists bd, rrule rs v bd.
  Proof.
    intros [H1 H2]. split.
    - intros H. apply in_map_iff in H. destruct H as ([v' bds] & <- & Hin). cbn.
      destruct (H2 _ _ Hin) as (_ & Hne & _). destruct bds as [|b bds]; [congruence|].
      exists b, (b :: bds). split; auto. left; auto.
    - intros (bd & bds & Hin & _). change v with (fst (v, bds)). apply in_map; auto.
  Qed.

  Lemma build_closed (cs : list (call V T)) : closed_calls cs <->
    exists s, b_start (do_calls cs) = Some s /\
      forallb (fun v => memb v (map fst (b_rules (do_calls cs))))
        (s :: flat_map (fun r => flat_map body_variables (snd r)) (b_rules (do_calls cs))) = true.
  Proof.
    pose proof (do_calls_good cs) as Hg.
    assert (Hh : forall v, memb v (map fst (b_rules (do_calls cs))) = true <-> has_rule cs v).
    { intros v. rewrite memb_in, head_rule by auto. unfold has_rule.
      split; intros (bd & H); exists bd; apply do_calls_rules; auto. }
    unfold closed_calls. rewrite do_calls_start.
    split; intros (s & Hs & H); exists s; (split; [auto|]).
    - destruct H as [H1 H2]. rewrite forallb_forall. intros v [<-|Hin]; [apply Hh; auto|].
      apply Hh. apply in_flat_map in Hin. destruct Hin as ([h bds] & Hr & Hin). cbn in Hin.
      apply in_flat_map in Hin. destruct Hin as (bd & Hbd & Hin).
      unfold body_variables in Hin. apply in_flat_map in Hin. destruct Hin as (x & Hx & Hin).
      destruct x; try destruct Hin as []; subst. 2: contradiction.
      eapply (H2 h bd v); auto. apply do_calls_rules. exists bds. auto.
    - rewrite forallb_forall in H. split.
      + apply Hh, H. left; auto.
      + intros v bd x Ha Hx. apply Hh, H. right. apply do_calls_rules in Ha.
        destruct Ha as (bds & H1 & H2). apply in_flat_map. exists (v, bds). split; auto. cbn.
        apply in_flat_map. exists bd. split; auto. unfold body_variables. apply in_flat_map.
        exists (Var x). split; auto. left; auto.
  Qed.

  Lemma build_val (cs : list (call V T)) g : build (do_calls cs) = Val g ->
    closed_calls cs /\ last_start cs = Some (g_start g) /\ g_rules g = b_rules (do_calls cs).
  Proof.
    rewrite build_closed. unfold build. rewrite <- do_calls_start.
    destruct (b_start (do_calls cs)) as [s|]; [|discriminate]. cbn [of_option bind].
    match goal with |- context [if ?c then _ else _] => destruct c eqn:E end; [|discriminate].
    intros H. injection H as <-. cbn. split; [|auto]. exists s. auto.
  Qed.

  Theorem build_ok (cs : list (call V T)) : closed_calls cs <-> exists g, build (do_calls cs) = Val g.
  Proof.
    split.
    - intros H. apply build_closed in H. destruct H as (s & Hs & H).
      eexists. unfold build. rewrite Hs. cbn [of_option bind]. rewrite H. reflexivity.
    - intros (g & H). apply build_val in H. tauto.
  Qed.

  Lemma build_never_diverges (b : gbuilder V T) : build b <> Diverge.
  Proof.
    unfold build. destruct (b_start b) as [s|]; cbn [of_option bind]; [|discriminate].
    match goal with |- context [if ?c then _ else _] => destruct c end; discriminate.
  Qed.

  Lemma build_exact (cs : list (call V T)) :
    (closed_calls cs -> exists g, build (do_calls cs) = Val g) /\
    (~ closed_calls cs -> build (do_calls cs) = Panic).
  Proof.
    split; [apply build_ok|]. intros H. destruct (build (do_calls cs)) as [g| |] eqn:E; auto.
    - destruct H. apply build_ok. eauto.
    - destruct (build_never_diverges _ E).
  Qed.

  Theorem build_rules (cs : list (call V T)) g : build (do_calls cs) = Val g ->
    last_start cs = Some (g_start g) /\ (forall v bd, rule g v bd <-> added cs v bd).
  Proof.
    intros H. apply build_val in H. destruct H as (_ & Hs & Hr). split; auto.
    intros v bd. rewrite <- do_calls_rules, <- Hr. reflexivity.
  Qed.

  Lemma build_contents (cs : list (call V T)) g : build (do_calls cs) = Val g ->
    last_start cs = Some (g_start g) /\ (forall v bd, rule g v bd <-> added cs v bd) /\
    NoDup (map fst (g_rules g)) /\ (forall v bds, In (v, bds) (g_rules g) -> NoDup bds /\ bds <> []).
  Proof.
    intros H. destruct (build_rules _ _ H) as [H1 H2]. split; [auto|]. split; [auto|].
    apply build_val in H. destruct H as (_ & _ & Hr). rewrite Hr.
    destruct (do_calls_good cs) as [H3 H4]. split; [auto|]. intros v bds Hin. destruct (H4 _ _ Hin) as (A & B & _). auto.
  Qed.

  Lemma built_good g : built g -> good g.
  Proof.
    intros (cs & H). pose proof (build_rules _ _ H) as [Hs Hrule].
    apply build_val in H. destruct H as ((s & H1 & H2 & H3) & _ & Hr).
    rewrite Hs in H1. injection H1 as <-.
    split.
    - rewrite Hr. apply do_calls_good.
    - destruct H2 as (bd & H2). exists bd. apply Hrule; auto.
    - intros v bd x Hb Hx. apply Hrule in Hb. destruct (H3 _ _ _ Hb Hx) as (bd' & H').
      exists bd'. apply Hrule; auto.
  Qed.

  Lemma rule_get g v bd : good g -> rule g v bd <-> exists bds, get_rule_bodies g v = Some bds /\ In bd bds.
  Proof. intros [[Hg _] _ _]. apply (rrule_mget (g_rules g) v bd Hg). Qed.

  Lemma get_rule_some g v : good g -> (exists bd, rule g v bd) -> exists bds, get_rule_bodies g v = Some bds.
  Proof. intros Hg (bd & H). apply rule_get in H; auto. destruct H as (bds & H & _). eauto. Qed.

  Lemma get_rule_in g v bds bd : good g -> get_rule_bodies g v = Some bds -> In bd bds -> rule g v bd.
  Proof. intros Hg H1 H2. apply rule_get; eauto. Qed.

  Lemma rule_nonempty g v bd : good g -> rule g v bd -> bd <> [].
  Proof. intros [[_ H] _ _] (bds & H1 & H2). apply (H _ _ H1); auto. Qed.
End Build.
