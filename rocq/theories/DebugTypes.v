(** The [Debug] texts of parse results, grammars and parsers determine them. *)
From Verif Require Import Base RegexModel NfaModel DotModel GrammarModel CfsmModel SlrModel DebugModel SpecErrors SpecCfg SpecDebug.
From Verif Require Import GrammarProofs ErrorTextProofs TableProofs DebugProofs.

(** ** Builders *)

Lemma is_word w : forallb (fun c => negb (existsb (N.eqb c) ([34; 10]%N ++ str " ,:()[]{}'"))) w = true -> Forall word_char w.
Proof.
  intros H. rewrite forallb_forall in H. apply Forall_forall. intros c Hc. specialize (H c Hc).
  apply negb_true_iff in H.
  assert (K : ~ In c ([34; 10]%N ++ str " ,:()[]{}'")).
  { intros K. rewrite (proj2 (existsb_exists _ _)) in H; [discriminate|]. exists c. split; [assumption|]. apply N.eqb_refl. }
  split; [|split].
  - intros X. apply K. apply in_app_iff. right. assumption.
  - intros ->. apply K. left. reflexivity.
  - intros ->. apply K. right. left. reflexivity.
Qed.
Ltac word := apply is_word; reflexivity.

Lemma tame_struct n fields : n <> [] -> Forall word_char n ->
  Forall (fun f => fst f <> [] /\ Forall word_char (fst f) /\ tame (snd f)) fields -> tame (dstruct n fields).
Proof.
  intros Hn Hw Hf. rewrite Forall_forall in Hf. constructor; try assumption; [intros; assumption| |].
  - intros l v Hi. apply in_map_iff in Hi. destruct Hi as [f [E Hi]]. injection E as <- <-. apply (Hf f Hi).
  - intros l v Hi. apply in_map_iff in Hi. destruct Hi as [f [E Hi]]. injection E as <- <-. destruct (Hf f Hi) as (H1 & H2 & _).
    constructor; assumption.
Qed.
Lemma tame_items n b l : b <> Fields -> Forall word_char n -> Forall tame l -> tame (Group n b (map (fun d => (None, d)) l)).
Proof.
  intros Hb Hn Hl. rewrite Forall_forall in Hl. constructor; try assumption; [intros; contradiction| |].
  - intros x v Hi. apply in_map_iff in Hi. destruct Hi as [d [E Hi]]. injection E as <- <-. apply Hl. assumption.
  - intros x v Hi. apply in_map_iff in Hi. destruct Hi as [d [E Hi]]. discriminate.
Qed.
Lemma tame_tuple n l : Forall word_char n -> Forall tame l -> tame (dtuple n l).
Proof. intros. apply tame_items; try assumption. discriminate. Qed.
Lemma tame_list l : Forall tame l -> tame (dlist l).
Proof. intros. apply tame_items; try assumption; [discriminate|constructor]. Qed.
Lemma tame_set l : Forall tame l -> tame (dset l).
Proof. intros. apply tame_items; try assumption; [discriminate|constructor]. Qed.
Lemma tame_map l : Forall (fun e => tame (fst e) /\ tame (snd e)) l -> tame (dmap l).
Proof.
  intros Hl. rewrite Forall_forall in Hl. constructor; [constructor|discriminate| |].
  - intros x v Hi. apply in_map_iff in Hi. destruct Hi as [d [E Hi]]. injection E as <- <-. apply (Hl d Hi).
  - intros x v Hi. apply in_map_iff in Hi. destruct Hi as [d [E Hi]]. injection E as <- <-. apply (Hl d Hi).
Qed.

Lemma map_inj {A B} (f : A -> B) l : (forall x y, In x l -> f x = f y -> x = y) ->
  forall l', map f l = map f l' -> l = l'.
Proof.
  induction l as [|x l IH]; intros Hf [|y l'] E; try discriminate; [reflexivity|].
  cbn [map] in E. injection E as E1 E2. f_equal; [apply Hf; [left; reflexivity|assumption]|].
  apply IH; [|assumption]. intros a b Ha. apply Hf. right. assumption.
Qed.
Lemma items_inj n b l l' : Group n b (map (fun d => (None, d)) l) = Group n b (map (fun d => (None, d)) l') -> l = l'.
Proof. intros E. injection E as E. apply map_inj in E; [assumption|]. intros x y _ H. congruence. Qed.
Lemma dmap_inj l l' : dmap l = dmap l' -> l = l'.
Proof. intros E. injection E as E. apply map_inj in E; [assumption|]. intros [x1 x2] [y1 y2] _ H. cbn in H. congruence. Qed.
Lemma telling_list {A} (f : A -> dbg) n b : b <> Fields -> Forall word_char n -> telling f ->
  telling (fun l => Group n b (map (fun d => (None, d)) (map f l))).
Proof.
  intros Hb Hn [Ht Hi]. split.
  - intros l. apply tame_items; try assumption. apply Forall_forall. intros d Hd. apply in_map_iff in Hd. destruct Hd as [x [<- _]]. apply Ht.
  - intros l l' E. apply items_inj in E. apply map_inj in E; [assumption|]. intros x y _. apply Hi.
Qed.

Lemma show_id_word n : show_id n <> [] /\ Forall word_char (show_id n).
Proof.
  unfold show_id. split.
  - destruct (show_num_read (N.of_nat n)) as [_ Hv]. intros E. rewrite E in Hv. cbn in Hv.
    assert (n = 0) as -> by lia. discriminate.
  - destruct (show_num_read (N.of_nat n)) as [Hd _]. revert Hd. apply Forall_impl. intros c Hc. unfold is_digit in Hc.
    split; [|lia]. cbn. intuition (subst; lia).
Qed.
Lemma telling_nat : telling dbg_nat.
Proof.
  split.
  - intros n. destruct (show_id_word n). constructor; assumption.
  - intros x y E. injection E as E. unfold show_id in E.
    destruct (show_num_read (N.of_nat x)) as [_ Hx]. destruct (show_num_read (N.of_nat y)) as [_ Hy]. rewrite E in Hx. lia.
Qed.

Ltac tames := repeat first [apply Forall_nil | apply Forall_cons | split; [discriminate|split; [word|cbn [snd]]]].

Section Types.
  Context {V T : Type} (dbg_v : V -> dbg) (dbg_t : T -> dbg).
  Hypothesis Hv : telling dbg_v.
  Hypothesis Ht : telling dbg_t.

  Lemma telling_symbol : telling (dbg_symbol dbg_v dbg_t).
  Proof.
    destruct Hv as [Hv1 Hv2], Ht as [Ht1 Ht2]. split.
    - intros [t|v|]; cbn [dbg_symbol]; [apply tame_tuple; [word|]; tames; auto|apply tame_tuple; [word|]; tames; auto|].
      constructor; [discriminate|word].
    - intros [t|v|] [t'|v'|] E; try discriminate; try reflexivity; injection E as E; f_equal; auto.
  Qed.

  (** Induction on trees. *)
  Lemma node_induction (P : node V T -> Prop) :
    (forall s ns, Forall P ns -> P (Node s ns)) -> forall n, P n.
  Proof.
    intros H. fix IH 1. intros [s ns]. apply H. induction ns as [|n ns IHns]; constructor; [apply IH|assumption].
  Qed.

  Lemma telling_node : telling (dbg_node dbg_v dbg_t).
  Proof.
    destruct telling_symbol as [Hs1 Hs2]. split.
    - apply node_induction. intros s ns H. cbn [dbg_node]. apply tame_struct; [discriminate|word|]. tames; [apply Hs1|].
      apply tame_list. apply Forall_forall. intros d Hd. apply in_map_iff in Hd. destruct Hd as [n [<- Hn]].
      rewrite Forall_forall in H. apply H. assumption.
    - apply (node_induction (fun x => forall y, dbg_node dbg_v dbg_t x = dbg_node dbg_v dbg_t y -> x = y)).
      intros s ns H [s' ns'] E. cbn [dbg_node] in E. injection E as E1 E2. apply Hs2 in E1. subst s'. f_equal.
      rewrite Forall_forall in H. apply map_inj in E2; [|intros ? ? _ K; congruence].
      revert E2. apply map_inj. intros x y Hx. apply H. assumption.
  Qed.

  Lemma telling_result : telling (dbg_result dbg_v dbg_t).
  Proof.
    destruct telling_node as [Hn1 Hn2]. split.
    - intros [n|]; cbn [dbg_result]; apply tame_tuple; try word; tames.
      + apply tame_struct; [discriminate|word|]. tames. apply Hn1.
      + apply tame_tuple; constructor.
    - intros [n|] [n'|] E; try discriminate; [|reflexivity]. injection E as E. f_equal. apply Hn2. assumption.
  Qed.

  Lemma result_texts (r r' : option (node V T)) :
    (plain (dbg_result dbg_v dbg_t r) = plain (dbg_result dbg_v dbg_t r') -> r = r') /\
    (pretty (dbg_result dbg_v dbg_t r) = pretty (dbg_result dbg_v dbg_t r') -> r = r') /\
    (firstn 4 (plain (dbg_result dbg_v dbg_t r)) = str "Err(" <-> r = None) /\
    (firstn 4 (pretty (dbg_result dbg_v dbg_t r)) = str "Err(" <-> r = None).
  Proof.
    destruct telling_result as [H1 H2].
    split; [intros E; apply H2; exact (plain_inj _ _ (H1 r) (H1 r') E)|].
    split; [intros E; apply H2; exact (pretty_inj _ _ (H1 r) (H1 r') E)|].
    split; (split; [|intros ->; reflexivity]); (destruct r as [n|]; [|reflexivity]); intros E; exfalso; discriminate E.
  Qed.

  Lemma telling_body : telling (dbg_body dbg_v dbg_t).
  Proof. apply (telling_list (dbg_symbol dbg_v dbg_t) [] Square); [discriminate|constructor|exact telling_symbol]. Qed.

  (** ** Grammars *)

  Lemma tame_grammar (ho : HashOrder) p (g : grammar V T) : tame (dbg_grammar dbg_v dbg_t p g).
  Proof.
    destruct Hv as [Hv1 _]. destruct telling_body as [Hb1 _]. unfold dbg_grammar. apply tame_struct; [discriminate|word|]. tames; [apply Hv1|].
    apply tame_map. apply Forall_forall. intros e He. apply in_map_iff in He. destruct He as [x [<- _]]. cbn [fst snd].
    split; [apply Hv1|]. apply tame_set. apply Forall_forall. intros d Hd. apply in_map_iff in Hd. destruct Hd as [bd [<- _]]. apply Hb1.
  Qed.

  (** The entries of the map, with each set in the order it is written in. *)
  Definition listed {ho : HashOrder} (p : list nat) (g : grammar V T) : list (V * list (body V T)) :=
    map (fun e => (fst (snd e), hash_at (fst e :: 1 :: p) (snd (snd e)))) (enumerate (hash_at (0 :: p) (g_rules g))).

  Lemma listed_in {ho : HashOrder} p g v :
    (In v (map fst (listed p g)) <-> In v (map fst (g_rules g))) /\
    forall bd, (exists bs, In (v, bs) (listed p g) /\ In bd bs) <-> (exists bs, In (v, bs) (g_rules g) /\ In bd bs).
  Proof.
    assert (A : forall i v bs, In (i, (v, bs)) (enumerate (hash_at (0 :: p) (g_rules g))) -> In (v, bs) (g_rules g)).
    { intros i u bs Hi. apply (in_map snd) in Hi. rewrite map_snd_enumerate in Hi. apply in_hash_at in Hi. assumption. }
    assert (B : forall v bs, In (v, bs) (g_rules g) -> exists i, In (i, (v, bs)) (enumerate (hash_at (0 :: p) (g_rules g)))).
    { intros u bs Hi. apply (in_hash_at (0 :: p)) in Hi. rewrite <- map_snd_enumerate in Hi. apply in_map_iff in Hi.
      destruct Hi as [[i x] [<- Hi]]. exists i. assumption. }
    split; [|intros bd]; split.
    - intros Hi. apply in_map_iff in Hi. destruct Hi as [[u bs] [<- Hi]]. unfold listed in Hi. apply in_map_iff in Hi.
      destruct Hi as [[i [u' bs']] [E Hi]]. injection E as <- <-. apply A in Hi. apply in_map_iff. exists (u', bs'). split; [reflexivity|assumption].
    - intros Hi. apply in_map_iff in Hi. destruct Hi as [[u bs] [<- Hi]]. destruct (B _ _ Hi) as [i Hi'].
      apply in_map_iff. exists (u, hash_at (i :: 1 :: p) bs). split; [reflexivity|]. unfold listed. apply in_map_iff.
      exists (i, (u, bs)). split; [reflexivity|assumption].
    - intros [bs [Hi Hb]]. unfold listed in Hi. apply in_map_iff in Hi. destruct Hi as [[i [u bs']] [E Hi]]. injection E as <- <-.
      exists bs'. split; [exact (A _ _ _ Hi)|]. apply in_hash_at in Hb. assumption.
    - intros [bs [Hi Hb]]. destruct (B _ _ Hi) as [i Hi']. exists (hash_at (i :: 1 :: p) bs). split.
      + unfold listed. apply in_map_iff. exists (i, (v, bs)). split; [reflexivity|assumption].
      + apply in_hash_at. assumption.
  Qed.

  Lemma grammar_dbg_inj (ho ho' : HashOrder) p p' (g g' : grammar V T) :
    dbg_grammar (ho := ho) dbg_v dbg_t p g = dbg_grammar (ho := ho') dbg_v dbg_t p' g' -> same_grammar g g'.
  Proof.
    intros E. unfold dbg_grammar, dstruct in E. cbn [map fst snd] in E. injection E as E1 E2.
    destruct Hv as [_ Hv2]. destruct telling_body as [_ Hb2].
    assert (El : listed (ho := ho) p g = listed (ho := ho') p' g').
    { apply map_inj in E2; [|intros [x1 x2] [y1 y2] _ K; cbn in K; congruence].
      apply (map_inj (fun e : V * list (body V T) => (dbg_v (fst e), dset (map (dbg_body dbg_v dbg_t) (snd e))))).
      - intros [x1 x2] [y1 y2] _ K. cbn [fst snd] in K. injection K as K1 K2. f_equal; [apply Hv2; assumption|].
        apply map_inj in K2; [|intros ? ? _ K; congruence]. revert K2. apply map_inj. intros x y _. apply Hb2.
      - unfold listed. rewrite !map_map. exact E2. }
    split; [apply Hv2; assumption|]. split.
    - intros v. rewrite <- (proj1 (listed_in (ho := ho) p g v)), <- (proj1 (listed_in (ho := ho') p' g' v)), El. reflexivity.
    - intros v bd. rewrite <- (proj2 (listed_in (ho := ho) p g v)), <- (proj2 (listed_in (ho := ho') p' g' v)), El. reflexivity.
  Qed.
End Types.

(** ** The example examples/expr.rs *)

From Verif Require Import ExprModel.

(** expr.rs:4-14: derived for [Variables] and [Terminals] (names of variables the
    example does not have are made up). *)
Definition expr_v (v : nat) : dbg := Atom (match v with 0 => str "Expr" | S n => str "Expr" ++ show_id n end).
Definition expr_t (t : terminals) : dbg :=
  match t with
  | Mul => Atom (str "Mul")
  | Plus => Atom (str "Plus")
  | Num n => dtuple (str "Val") [dbg_nat n]
  end.

Lemma telling_expr_v : telling expr_v.
Proof.
  split.
  - intros [|n]; constructor; try discriminate; [word|]. apply Forall_app. split; [word|]. apply show_id_word.
  - intros [|n] [|m] E; try reflexivity; injection E as E.
    + destruct (show_id_word m) as [H _]. congruence.
    + destruct (show_id_word n) as [H _]. congruence.
    + f_equal. apply (proj2 telling_nat). unfold dbg_nat. congruence.
Qed.
Lemma telling_expr_t : telling expr_t.
Proof.
  destruct telling_nat as [Hn1 Hn2]. split.
  - intros [| |n]; cbn [expr_t]; try (constructor; [discriminate|word]). apply tame_tuple; [word|]. tames. apply Hn1.
  - intros [| |n] [| |m] E; try discriminate; try reflexivity. unfold expr_t, dtuple in E. cbn [map] in E. f_equal. apply Hn2. congruence.
Qed.
