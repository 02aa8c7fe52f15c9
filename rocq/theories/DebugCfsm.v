(** The [Debug] text of an automaton determines it. *)
From Verif Require Import Base RegexModel NfaModel DotModel GrammarModel CfsmModel SlrModel DebugModel SpecDebug.
From Verif Require Import GrammarProofs DebugProofs DebugTypes.

Section Cfsm.
  Context {V T : Type} {dv : DecEq V} (dbg_v : V -> dbg) (dbg_t : T -> dbg).
  Hypothesis Hv : telling dbg_v.
  Hypothesis Ht : telling dbg_t.

  Lemma items_map_step m (it : item V T) v ib :
    (exists l, In (v, l) (mupdate (fst it) [] (fun l => l ++ [snd it]) m) /\ In ib l) <->
    (exists l, In (v, l) m /\ In ib l) \/ it = (v, ib).
  Proof.
    destruct it as [h x]. cbn [fst snd]. induction m as [|[u l] m IH]; cbn [mupdate].
    - split.
      + intros [l [[E|[]] Hi]]. injection E as <- <-. destruct Hi as [<-|[]]. right. reflexivity.
      + intros [[l [[] _]]|E]. injection E as -> ->. exists [ib]. split; left; reflexivity.
    - destruct (eqb h u) eqn:E.
      + apply eqb_eq in E. subst u. split.
        * intros [l' [[E|Hi] Hb]].
          -- injection E as <- <-. apply in_app_iff in Hb. destruct Hb as [Hb|[<-|[]]]; [|right; reflexivity].
             left. exists l. split; [left; reflexivity|assumption].
          -- left. exists l'. split; [right; assumption|assumption].
        * intros [[l' [[E|Hi] Hb]]|E].
          -- injection E as <- <-. exists (l ++ [x]). split; [left; reflexivity|]. apply in_app_iff. left. assumption.
          -- exists l'. split; [right; assumption|assumption].
          -- injection E as -> ->. exists (l ++ [ib]). split; [left; reflexivity|]. apply in_app_iff. right. left. reflexivity.
      + split.
        * intros [l' [[E'|Hi] Hb]].
          -- left. exists l'. split; [left; assumption|assumption].
          -- destruct (proj1 IH) as [[l2 [H1 H2]]|E2]; [exists l'; split; assumption| |right; assumption].
             left. exists l2. split; [right; assumption|assumption].
        * intros [[l' [[E'|Hi] Hb]]|E'].
          -- exists l'. split; [left; assumption|assumption].
          -- destruct (proj2 IH) as [l2 [H1 H2]]; [left; exists l'; split; assumption|]. exists l2. split; [right; assumption|assumption].
          -- destruct (proj2 IH) as [l2 [H1 H2]]; [right; assumption|]. exists l2. split; [right; assumption|assumption].
  Qed.

  Lemma items_map_in (its : item_set V T) v ib : (exists l, In (v, l) (items_map its) /\ In ib l) <-> In (v, ib) its.
  Proof.
    unfold items_map.
    assert (G : forall m, (exists l, In (v, l) (fold_left (fun m it => mupdate (fst it) [] (fun l => l ++ [snd it]) m) its m) /\ In ib l) <->
                          (exists l, In (v, l) m /\ In ib l) \/ In (v, ib) its).
    { induction its as [|it its IH]; intros m; cbn [fold_left In]; [tauto|]. rewrite IH, items_map_step. tauto. }
    rewrite G. split; [intros [[l [[] _]]|H]; assumption|auto].
  Qed.

  Lemma telling_item_body : telling (dbg_item_body dbg_v dbg_t).
  Proof.
    destruct (telling_body dbg_v dbg_t Hv Ht) as [B1 B2]. destruct telling_nat as [N1 N2]. split.
    - intros ib. unfold dbg_item_body. apply tame_struct; [discriminate|word|]. tames; [apply B1|apply N1].
    - intros [b n] [b' n'] E. unfold dbg_item_body, dstruct in E. cbn [map fst snd ib_body ib_cursor] in E.
      assert (b = b') as -> by (apply B2; congruence). assert (n = n') as -> by (apply N2; congruence). reflexivity.
  Qed.

  (** A map to sets, as it is written, and what it says. *)
  Lemma sets_same {A} (f : A -> dbg) (ho ho' : HashOrder) (p p' : list nat) (h h' : nat -> list nat) (m m' : list (V * list A)) :
    (forall x y, f x = f y -> x = y) ->
    map (fun e => (dbg_v (fst (snd e)), dset (map f (hash_at (HashOrder := ho) (h (fst e)) (snd (snd e))))))
        (enumerate (hash_at (HashOrder := ho) p m)) =
    map (fun e => (dbg_v (fst (snd e)), dset (map f (hash_at (HashOrder := ho') (h' (fst e)) (snd (snd e))))))
        (enumerate (hash_at (HashOrder := ho') p' m')) ->
    forall v x, (exists l, In (v, l) m /\ In x l) -> (exists l, In (v, l) m' /\ In x l).
  Proof.
    intros Hf E v x [l [Hi Hx]]. apply (in_hash_at (H := ho) p) in Hi. rewrite <- map_snd_enumerate in Hi. apply in_map_iff in Hi.
    destruct Hi as [[i e] [Ee Hi]]. cbn [snd] in Ee. subst e.
    apply (in_map (fun e => (dbg_v (fst (snd e)), dset (map f (hash_at (HashOrder := ho) (h (fst e)) (snd (snd e))))))) in Hi.
    rewrite E in Hi. apply in_map_iff in Hi. destruct Hi as [[j [v' l']] [Ej Hi]]. cbn [fst snd] in Ej. injection Ej as E1 E2.
    apply (proj2 Hv) in E1. subst v'. apply map_inj in E2; [|intros ? ? _ K; congruence].
    apply map_inj in E2; [|intros a b _; apply Hf].
    apply (in_map snd) in Hi. rewrite map_snd_enumerate in Hi. apply in_hash_at in Hi.
    exists l'. split; [assumption|]. rewrite <- (in_hash_at (H := ho') (h' j)). rewrite E2. apply in_hash_at. assumption.
  Qed.

  (** The trees with the symbols in the form of their surroundings. *)
  Definition tree_cstate {ho : HashOrder} (p : list nat) (st : cstate V T) : dbg :=
    dstruct (str "State")
      [(str "id", dbg_nat (cs_id st));
       (str "item_set",
        dstruct (str "ItemSet")
          [(str "items",
            dmap (map (fun e => (dbg_v (fst (snd e)),
                                 dset (map (dbg_item_body dbg_v dbg_t) (hash_at (fst e :: 1 :: cs_id st :: p) (snd (snd e))))))
                      (enumerate (hash_at (0 :: cs_id st :: p) (items_map (cs_items st))))))]);
       (str "transitions",
        dmap (map (fun e => (dbg_symbol dbg_v dbg_t (fst e), dbg_nat (snd e))) (hash_at (2 :: cs_id st :: p) (cs_trans st))))].
  Definition tree_cfsm {ho : HashOrder} (p : list nat) (c : cfsm V T) : dbg :=
    dstruct (str "Cfsm")
      [(str "start_state", dbg_nat (cf_start c));
       (str "states", dset (map (tree_cstate (0 :: p)) (cf_states c)));
       (str "grammar", dbg_grammar dbg_v dbg_t (1 :: p) (cf_grammar c));
       (str "_pin", Atom (str "PhantomPinned"))].

  Lemma items_tame (ho : HashOrder) p (st : cstate V T) :
    tame (dstruct (str "ItemSet")
          [(str "items",
            dmap (map (fun e => (dbg_v (fst (snd e)),
                                 dset (map (dbg_item_body dbg_v dbg_t) (hash_at (fst e :: 1 :: cs_id st :: p) (snd (snd e))))))
                      (enumerate (hash_at (0 :: cs_id st :: p) (items_map (cs_items st))))))]).
  Proof.
    destruct Hv as [V1 _]. destruct telling_item_body as [I1 _].
    apply tame_struct; [discriminate|word|]. tames. apply tame_map. apply Forall_forall. intros e He. apply in_map_iff in He.
    destruct He as [x [<- _]]. cbn [fst snd]. split; [apply V1|]. apply tame_set. apply Forall_forall. intros d Hd. apply in_map_iff in Hd.
    destruct Hd as [y [<- _]]. apply I1.
  Qed.

  Lemma bare_cstate (ho : HashOrder) p (st : cstate V T) : bare (dbg_cstate dbg_v dbg_t p st) = tree_cstate p st.
  Proof.
    destruct telling_nat as [N1 _]. destruct (telling_symbol dbg_v dbg_t Hv Ht) as [S1 _].
    unfold dbg_cstate, tree_cstate, dstruct at 1 3. cbn [map fst snd]. rewrite !bare_group. cbn [map bare_entry].
    rewrite (tame_bare _ (items_tame ho p st)). do 8 f_equal. unfold dmap. rewrite bare_group. f_equal. rewrite !map_map. apply map_ext.
    intros [s k]. cbn [fst snd bare_entry]. change (bare (Flat ?x)) with (bare x). rewrite (tame_bare _ (S1 s)), (tame_bare _ (N1 k)). reflexivity.
  Qed.

  Lemma mild_cstate (ho : HashOrder) p (st : cstate V T) : mild (dbg_cstate dbg_v dbg_t p st).
  Proof.
    destruct telling_nat as [N1 _]. destruct (telling_symbol dbg_v dbg_t Hv Ht) as [S1 _]. unfold dbg_cstate, dstruct at 1.
    assert (W : forall w, w <> [] -> Forall word_char w -> mild (Atom w)) by (intros; apply mild_word; assumption).
    apply mild_group; [word|discriminate| |].
    - cbn [map fst snd In]. intros l v [E|[E|[E|[]]]]; injection E as <- <-.
      + apply tame_mild, N1.
      + apply tame_mild. apply items_tame.
      + apply mild_group; [constructor|discriminate| |].
        * intros l v Hi. rewrite map_map in Hi. apply in_map_iff in Hi. destruct Hi as (e & E & _). injection E as <- <-. apply tame_mild, N1.
        * intros l v Hi. rewrite map_map in Hi. apply in_map_iff in Hi. destruct Hi as (e & E & _). injection E as <- <-. apply mild_flat, S1.
    - cbn [map fst snd In]. intros l v [E|[E|[E|[]]]]; injection E as <- <-; apply W; try discriminate; word.
  Qed.

  Lemma bare_cfsm (ho : HashOrder) p (c : cfsm V T) : bare (dbg_cfsm dbg_v dbg_t p c) = tree_cfsm p c.
  Proof.
    destruct telling_nat as [N1 _]. unfold dbg_cfsm, tree_cfsm, dstruct. cbn [map fst snd]. rewrite !bare_group. cbn [map bare_entry].
    rewrite (tame_bare _ (tame_grammar dbg_v dbg_t Hv Ht ho (1 :: p) (cf_grammar c))). unfold dset. rewrite bare_group, !map_map.
    rewrite (map_ext (fun x => bare_entry bare (None, dbg_cstate dbg_v dbg_t (0 :: p) x)) (fun x => (None, tree_cstate (0 :: p) x))); [reflexivity|].
    intros st. cbn [bare_entry]. rewrite bare_cstate. reflexivity.
  Qed.

  Lemma mild_cfsm (ho : HashOrder) p (c : cfsm V T) : mild (dbg_cfsm dbg_v dbg_t p c).
  Proof.
    destruct telling_nat as [N1 _]. unfold dbg_cfsm, dstruct.
    assert (W : forall w, w <> [] -> Forall word_char w -> mild (Atom w)) by (intros; apply mild_word; assumption).
    apply mild_group; [word|discriminate| |].
    - cbn [map fst snd In]. intros l v [E|[E|[E|[E|[]]]]]; injection E as <- <-.
      + apply tame_mild, N1.
      + apply mild_group; [constructor|discriminate| |].
        * intros l v Hi. rewrite map_map in Hi. apply in_map_iff in Hi. destruct Hi as (e & E & _). injection E as <- <-. apply mild_cstate.
        * intros l v Hi. rewrite map_map in Hi. apply in_map_iff in Hi. destruct Hi as (e & E & _). discriminate.
      + apply tame_mild. apply tame_grammar; assumption.
      + apply W; [discriminate|word].
    - cbn [map fst snd In]. intros l v [E|[E|[E|[E|[]]]]]; injection E as <- <-; apply W; try discriminate; word.
  Qed.

  Lemma cstate_dbg_inj (ho ho' : HashOrder) p p' (x y : cstate V T) :
    tree_cstate (ho := ho) p x = tree_cstate (ho := ho') p' y -> same_state x y.
  Proof.
    intros E. unfold tree_cstate, dstruct in E. cbn [map fst snd] in E.
    destruct telling_nat as [_ N2]. destruct telling_item_body as [_ I2]. destruct (telling_symbol dbg_v dbg_t Hv Ht) as [_ S2].
    injection E as E1 E2 E3.
    assert (E1' : cs_id x = cs_id y) by (apply N2; unfold dbg_nat; f_equal; exact E1).
    apply map_inj in E2; [|intros [x1 x2] [y1 y2] _ K; cbn in K; congruence].
    apply map_inj in E3; [|intros [x1 x2] [y1 y2] _ K; cbn in K; congruence].
    apply map_inj in E3; [|intros [x1 x2] [y1 y2] _ K; cbn [fst snd] in K; f_equal; [apply S2; congruence|apply N2; congruence]].
    split; [assumption|]. split.
    - intros [v ib]. rewrite <- !items_map_in. split.
      + exact (sets_same _ ho ho' _ _ (fun i => i :: 1 :: cs_id x :: p) (fun i => i :: 1 :: cs_id y :: p') _ _ I2 E2 v ib).
      + exact (sets_same _ ho' ho _ _ (fun i => i :: 1 :: cs_id y :: p') (fun i => i :: 1 :: cs_id x :: p) _ _ I2 (eq_sym E2) v ib).
    - intros e. rewrite <- (in_hash_at (H := ho) (2 :: cs_id x :: p)), E3. apply in_hash_at.
  Qed.

  Lemma cfsm_dbg_inj (ho ho' : HashOrder) p p' (c c' : cfsm V T) :
    tree_cfsm (ho := ho) p c = tree_cfsm (ho := ho') p' c' -> same_cfsm c c'.
  Proof.
    intros E. unfold tree_cfsm, dstruct in E. cbn [map fst snd] in E. destruct telling_nat as [_ N2].
    assert (E1 : dbg_nat (cf_start c) = dbg_nat (cf_start c')) by congruence.
    assert (E2 : dset (map (tree_cstate (ho := ho) (0 :: p)) (cf_states c)) = dset (map (tree_cstate (ho := ho') (0 :: p')) (cf_states c'))) by congruence.
    assert (E3 : dbg_grammar (ho := ho) dbg_v dbg_t (1 :: p) (cf_grammar c) = dbg_grammar (ho := ho') dbg_v dbg_t (1 :: p') (cf_grammar c')) by congruence.
    split; [apply N2; assumption|]. split; [|exact (grammar_dbg_inj dbg_v dbg_t Hv Ht ho ho' _ _ _ _ E3)].
    apply items_inj in E2. revert E2. generalize (cf_states c) (cf_states c'). clear E E1 E3.
    intros l. induction l as [|x l IH]; intros [|y l'] E; cbn [map] in E; try discriminate; constructor.
    - apply (cstate_dbg_inj ho ho' (0 :: p) (0 :: p')). congruence.
    - apply IH. congruence.
  Qed.

  Lemma cfsm_texts (ho ho' : HashOrder) p p' (c c' : cfsm V T) :
    (plain (dbg_cfsm (ho := ho) dbg_v dbg_t p c) = plain (dbg_cfsm (ho := ho') dbg_v dbg_t p' c') -> same_cfsm c c') /\
    (pretty (dbg_cfsm (ho := ho) dbg_v dbg_t p c) = pretty (dbg_cfsm (ho := ho') dbg_v dbg_t p' c') -> same_cfsm c c').
  Proof.
    split; intros E; apply (cfsm_dbg_inj ho ho' p p'); rewrite <- !bare_cfsm; [apply plain_same|apply pretty_same]; auto using mild_cfsm.
  Qed.
End Cfsm.
