(** The code with pointers does what the code with values does. *)
From Verif Require Import Base GrammarModel CfsmModel SlrModel PtrModel.

(** ** Refinement *)

Definition refines {A B} (R : A -> B -> Prop) (x : mem A) (y : res B) : Prop :=
  match x, y with
  | MVal a, Val b => R a b
  | MPanic, Panic => True
  | MDiverge, Diverge => True
  | _, _ => False
  end.

Lemma refines_bind {A B C D} (R : A -> B -> Prop) (S : C -> D -> Prop) x y f g :
  refines R x y -> (forall a b, R a b -> refines S (f a) (g b)) -> refines S (mbind x f) (bind y g).
Proof. destruct x, y; cbn; try contradiction; auto. Qed.

(** A step that is no step of the code with values. *)
Lemma refines_load {A C D} (S : C -> D -> Prop) (x : mem A) a f y :
  x = MVal a -> refines S (f a) y -> refines S (mbind x f) y.
Proof. intros ->. auto. Qed.

Lemma refines_pure {A B C D} (R : A -> B -> Prop) (S : C -> D -> Prop) x b f y :
  refines R x (Val b) -> (forall a, R a b -> refines S (f a) y) -> refines S (mbind x f) y.
Proof. destruct x; cbn; try contradiction; auto. Qed.

Lemma refines_safe {A} (r : res A) : refines eq (safe r) r.
Proof. destruct r; reflexivity. Qed.

Lemma refines_option {A B} (R : A -> B -> Prop) (o : option A) (o' : option B) :
  match o, o' with Some a, Some b => R a b | None, None => True | _, _ => False end ->
  refines R (safe (of_option o)) (of_option o').
Proof. destruct o, o'; cbn; auto. Qed.

Lemma refines_impl {A B} (R S : A -> B -> Prop) x y : refines R x y -> (forall a b, R a b -> S a b) -> refines S x y.
Proof. destruct x, y; cbn; auto. Qed.

(** [ld] reads the value [v] through [a] in every memory that has the rules [rs] in
    the block [b], whatever is in the other blocks. *)
Definition points {V T A B} (b : nat) (rs : rules V T) (ld : heap V T -> A -> mem B) (a : A) (v : B) : Prop :=
  forall h, h b = Some rs -> ld h a = MVal v.

Lemma mmap_reads {A B} (R : A -> B -> Prop) (ld : A -> mem B) l vs :
  (forall a v, R a v -> ld a = MVal v) -> Forall2 R l vs -> mmap ld l = MVal vs.
Proof. intros Hr Hf. induction Hf as [|a v l vs Ha _ IH]; cbn; [reflexivity|]. rewrite (Hr a v Ha). cbn. rewrite IH. reflexivity. Qed.

Lemma mmap_refines {A B C D} (R : A -> B -> Prop) (S : C -> D -> Prop) (f : A -> mem C) (g : B -> D) l vs :
  Forall2 R l vs -> (forall a v, R a v -> refines S (f a) (Val (g v))) -> refines (Forall2 S) (mmap f l) (Val (map g vs)).
Proof.
  intros Hf Hs. induction Hf as [|a v l vs Ha _ IH]; cbn; [constructor|].
  specialize (Hs a v Ha). destruct (f a); cbn in Hs; try contradiction. cbn.
  destruct (mmap f l); cbn in IH; try contradiction. cbn. constructor; assumption.
Qed.

Lemma combine_reads {A B} (R : A -> B -> Prop) l vs v a :
  Forall2 R l vs -> In (v, a) (combine vs l) -> R a v.
Proof.
  intros Hf. induction Hf as [|a' v' l vs Ha _ IH]; cbn; [contradiction|].
  intros [E|Hin]; [injection E as -> ->; exact Ha|]. apply IH. exact Hin.
Qed.

Lemma combine_found {A B} (R : A -> B -> Prop) l vs v : Forall2 R l vs -> In v vs -> exists a, In (v, a) (combine vs l).
Proof.
  intros Hf. induction Hf as [|a' v' l vs Ha _ IH]; cbn; [contradiction|].
  intros [->|Hin]; [exists a'; auto|]. destruct (IH Hin) as (a & Hi). exists a. auto.
Qed.

Lemma reorder_reads {A B} `{DecEq B} (R : A -> B -> Prop) l vs ord :
  Forall2 R l vs -> incl ord vs -> Forall2 R (reorder vs l ord) ord.
Proof.
  intros Hf. induction ord as [|v ord IH]; intros Hi; cbn; [constructor|].
  destruct (combine_found R l vs v Hf (Hi v (or_introl eq_refl))) as (a & Ha).
  destruct (find (fun e => eqb (fst e) v) (combine vs l)) as [[v' a']|] eqn:Ef.
  - cbn. apply find_some in Ef. cbn in Ef. destruct Ef as (Hin & E). apply eqb_eq in E. subst v'.
    constructor; [exact (combine_reads R l vs v a' Hf Hin)|]. apply IH. intros x Hx. apply Hi. right. exact Hx.
  - exfalso. apply (find_none _ _ Ef) in Ha. cbn in Ha. rewrite eqb_refl in Ha. discriminate.
Qed.

Lemma reorder_hash {A B} `{DecEq B} {ho : HashOrder} (R : A -> B -> Prop) k l vs :
  Forall2 R l vs -> Forall2 R (reorder vs l (hash_at k vs)) (hash_at k vs).
Proof. intros Hf. apply reorder_reads; [exact Hf|]. intros x Hx. apply in_hash_at in Hx. exact Hx. Qed.

Lemma Forall2_map_l {A B C} (R : C -> B -> Prop) (f : A -> C) l vs :
  Forall2 (fun a v => R (f a) v) l vs -> Forall2 R (map f l) vs.
Proof. induction 1; cbn; constructor; auto. Qed.

Lemma Forall2_impl2 {A B} (R S : A -> B -> Prop) l vs : (forall a v, R a v -> S a v) -> Forall2 R l vs -> Forall2 S l vs.
Proof. intros Hi. induction 1; constructor; auto. Qed.

Lemma Forall2_map_both {A B C D} (R : C -> D -> Prop) (f : A -> C) (g : B -> D) (S : A -> B -> Prop) l vs :
  (forall a v, S a v -> R (f a) (g v)) -> Forall2 S l vs -> Forall2 R (map f l) (map g vs).
Proof. intros Hi. induction 1; cbn; constructor; auto. Qed.

Definition numbered {A B} (R : A -> B -> Prop) (x : nat * A) (y : nat * B) : Prop := fst x = fst y /\ R (snd x) (snd y).

Lemma Forall2_combine {A B} (R : A -> B -> Prop) l vs s :
  Forall2 R l vs -> Forall2 (numbered R) (combine s l) (combine s vs).
Proof.
  intros Hf. revert s. induction Hf as [|a v l vs Ha _ IH]; intros [|n s]; cbn; constructor; [split; auto|apply IH].
Qed.

Lemma Forall2_len {A B} (R : A -> B -> Prop) l vs : Forall2 R l vs -> length l = length vs.
Proof. induction 1; cbn; auto. Qed.

Lemma enumerate_reads {A B} (R : A -> B -> Prop) l vs :
  Forall2 R l vs -> Forall2 (numbered R) (enumerate l) (enumerate vs).
Proof. intros Hf. unfold enumerate. rewrite (Forall2_len _ _ _ Hf). apply Forall2_combine. exact Hf. Qed.

Section Proofs.
  Context {V T : Type} {dv : DecEq V} {dt : DecEq T} {ho : HashOrder}.
  Variable h : heap V T.
  Variable g : grammar V T.
  Variable b : nat.
  Hypothesis Hb : h b = Some (g_rules g).
  Notation rbody := (points b (g_rules g) load_body).
  Notation rib := (points b (g_rules g) load_item_body).
  Notation ritem := (points b (g_rules g) load_item).
  Notation rsym := (points b (g_rules g) load_symbol).

  Lemma here {A B} (ld : heap V T -> A -> mem B) a v : points b (g_rules g) ld a v -> ld h a = MVal v.
  Proof. intros Hp. exact (Hp h Hb). Qed.

  Lemma mmap_here {A B} (ld : heap V T -> A -> mem B) l vs : Forall2 (points b (g_rules g) ld) l vs -> mmap (ld h) l = MVal vs.
  Proof. apply mmap_reads. intros a v. apply here. Qed.

  Lemma rib_inv ib v : rib ib v <-> rbody (fst ib) (ib_body v) /\ snd ib = ib_cursor v.
  Proof.
    unfold points, load_item_body. split.
    - intros Hp. split; [intros h' Hh'; specialize (Hp h' Hh')|specialize (Hp h Hb)];
        (destruct (load_body _ (fst ib)); cbn in Hp; try discriminate; injection Hp as <-; reflexivity).
    - intros (Hp & Ec) h' Hh'. rewrite (Hp h' Hh'). cbn. rewrite Ec. destruct v; reflexivity.
  Qed.

  Lemma ritem_inv it v : ritem it v <-> fst it = fst v /\ rib (snd it) (snd v).
  Proof.
    unfold points at 1, load_item. split.
    - intros Hp. split; [specialize (Hp h Hb)|intros h' Hh'; specialize (Hp h' Hh')];
        (destruct (load_item_body _ (snd it)); cbn in Hp; try discriminate; injection Hp as <-; reflexivity).
    - intros (E & Hp) h' Hh'. rewrite (Hp h' Hh'). cbn. rewrite E. destruct v; reflexivity.
  Qed.

  (** ** Items *)

  Lemma item_from_ok p bd : rbody p bd -> refines rib (p_item_from h p) (Val (item_from bd)).
  Proof. intros E. unfold p_item_from. rewrite (here _ _ _ E). cbn. apply rib_inv. cbn. auto. Qed.

  Lemma cursor_symbol_ok ib v : rib ib v ->
    exists o, p_cursor_symbol h ib = MVal o /\
      match o, cursor_symbol v with
      | Some (ps, s), Some s' => s = s' /\ rsym ps s
      | None, None => True
      | _, _ => False
      end.
  Proof.
    intros Hr. apply rib_inv in Hr. destruct Hr as (E & Ec). unfold p_cursor_symbol, cursor_symbol. rewrite (here _ _ _ E). cbn. rewrite Ec.
    destruct (nth_error (ib_body v) (ib_cursor v)) as [s|] eqn:En; eexists; (split; [reflexivity|]); cbn; [|exact I].
    split; [reflexivity|]. intros h' Hh'. unfold load_symbol. cbn. rewrite (E h' Hh'). cbn. rewrite En. reflexivity.
  Qed.

  Lemma cursor_variable_ok ib v : rib ib v -> refines eq (p_cursor_variable h ib) (cursor_variable v).
  Proof.
    intros Hr. destruct (cursor_symbol_ok ib v Hr) as (o & E & Ho). unfold p_cursor_variable, cursor_variable. rewrite E. cbn.
    destruct o as [(ps, s)|], (cursor_symbol v) as [s'|]; try contradiction; [|reflexivity].
    destruct Ho as [<- _]. destruct s; reflexivity.
  Qed.

  Lemma advance_ok ib v : rib ib v -> refines rib (p_advance h ib) (Val (advance v)).
  Proof.
    intros Hr. apply rib_inv in Hr. destruct Hr as (E & Ec). unfold p_advance, advance. rewrite (here _ _ _ E). cbn. rewrite Ec.
    apply rib_inv. cbn. auto.
  Qed.

  Lemma memb_ok it v l vs : ritem it v -> Forall2 ritem l vs -> p_memb h it l = MVal (memb v vs).
  Proof.
    intros Hi Hl. unfold p_memb. rewrite (here _ _ _ Hi). cbn. rewrite (mmap_here _ _ _ Hl). reflexivity.
  Qed.

  Lemma set_insert_ok it v l vs : ritem it v -> Forall2 ritem l vs -> refines (Forall2 ritem) (p_set_insert h it l) (Val (set_insert v vs)).
  Proof.
    intros Hi Hl. unfold p_set_insert. rewrite (memb_ok it v l vs Hi Hl). cbn. unfold set_insert. destruct (memb v vs); [exact Hl|].
    apply Forall2_app; [exact Hl|]. constructor; [exact Hi|constructor].
  Qed.

  Lemma set_extend_ok its vs' : Forall2 ritem its vs' -> forall l vs, Forall2 ritem l vs ->
    refines (Forall2 ritem) (p_set_extend h its l) (Val (set_extend vs' vs)).
  Proof.
    induction 1 as [|it v its vs' Hi _ IH]; intros l vs Hl; cbn; [exact Hl|].
    eapply refines_pure; [exact (set_insert_ok it v l vs Hi Hl)|]. intros l' Hl'. apply IH. exact Hl'.
  Qed.

  Lemma iter_ok k l vs : Forall2 ritem l vs -> exists l', p_iter h k l = MVal l' /\ Forall2 ritem l' (hash_at k vs).
  Proof.
    intros Hl. unfold p_iter. rewrite (mmap_here _ _ _ Hl). cbn. eexists. split; [reflexivity|]. apply reorder_hash. exact Hl.
  Qed.

  Lemma same_items_ok x y vx vy : Forall2 ritem x vx -> Forall2 ritem y vy -> p_same_items h x y = MVal (same_items vx vy).
  Proof.
    intros Hx Hy. unfold p_same_items. rewrite (mmap_here _ _ _ Hx). cbn. rewrite (mmap_here _ _ _ Hy). reflexivity.
  Qed.

  (** ** Item sets *)

  Lemma rule_index_spec v (rs : rules V T) :
    match rule_index v rs, mget v rs with
    | Some (i, n), Some bds => n = length bds /\ exists v', nth_error rs i = Some (v', bds)
    | None, None => True
    | _, _ => False
    end.
  Proof.
    induction rs as [|(v', bds) rs IH]; cbn; [exact I|]. destruct (eqb v v'); [split; [reflexivity|exists v'; reflexivity]|].
    destruct (rule_index v rs) as [(i, n)|], (mget v rs) as [bds'|]; auto.
  Qed.

  Lemma rule_bodies_ok v : exists o, p_rule_bodies h b v = MVal o /\
    match o, get_rule_bodies g v with
    | Some ps, Some bds => Forall2 rbody ps bds
    | None, None => True
    | _, _ => False
    end.
  Proof.
    unfold p_rule_bodies, load_rules. rewrite Hb. cbn. eexists. split; [reflexivity|]. unfold get_rule_bodies.
    pose proof (rule_index_spec v (g_rules g)) as Hs.
    destruct (rule_index v (g_rules g)) as [(i, n)|], (mget v (g_rules g)) as [bds|]; auto.
    destruct Hs as (-> & v' & Hi).
    assert (Hgen : forall pre l, pre ++ l = bds ->
      Forall2 rbody (map (fun j => {| bp_block := b; bp_rule := i; bp_body := j |}) (seq (length pre) (length l))) l).
    { intros pre l. revert pre. induction l as [|bd l IH]; intros pre E; cbn; constructor.
      - intros h' Hh'. unfold load_body, load_rules. cbn. rewrite Hh'. cbn. rewrite Hi. rewrite <- E, nth_error_app2, Nat.sub_diag by lia. reflexivity.
      - specialize (IH (pre ++ [bd])). rewrite app_length in IH. cbn in IH. rewrite Nat.add_1_r in IH. apply IH. rewrite <- app_assoc. exact E. }
    exact (Hgen [] bds eq_refl).
  Qed.

  Lemma iter_bodies_ok k ps bds : Forall2 rbody ps bds -> exists ps', p_iter_bodies h k ps = MVal ps' /\ Forall2 rbody ps' (hash_at k bds).
  Proof.
    intros Hl. unfold p_iter_bodies. rewrite (mmap_here _ _ _ Hl). cbn. eexists. split; [reflexivity|]. apply reorder_hash. exact Hl.
  Qed.

  Definition rpair {A B C D} (R : A -> B -> Prop) (S : C -> D -> Prop) (x : A * C) (y : B * D) : Prop :=
    R (fst x) (fst y) /\ S (snd x) (snd y).

  Lemma closure_insert_ok head ibs vs : Forall2 rib ibs vs -> forall queue vq items vi,
    Forall2 rib queue vq -> Forall2 ritem items vi ->
    refines (rpair (Forall2 rib) (Forall2 ritem)) (p_closure_insert h head ibs queue items) (Val (closure_insert head vs vq vi)).
  Proof.
    induction 1 as [|ib v ibs vs Hi _ IH]; intros queue vq items vi Hq Hl; cbn [p_closure_insert closure_insert]; [split; assumption|].
    assert (Hit : ritem (head, ib) (head, v)) by (apply ritem_inv; auto).
    rewrite (memb_ok _ _ _ _ Hit Hl). cbn [mbind].
    match goal with |- context [if ?m then p_closure_insert _ _ _ _ _ else _] =>
      match goal with |- context [if ?m' then closure_insert _ _ _ _ else _] => change m' with m; destruct m end end; apply IH; auto;
      apply Forall2_app; auto; constructor; auto; constructor.
  Qed.

  Lemma items_loop_ok p fuel : forall k queue vq items vi, Forall2 rib queue vq -> Forall2 ritem items vi ->
    refines (Forall2 ritem) (p_items_loop h b fuel k p queue items) (items_loop fuel k p g vq vi).
  Proof.
    induction fuel as [|fuel IH]; intros k queue vq items vi Hq Hl; (destruct Hq as [|ib v queue vq Hi Hq]; [exact Hl|]); [exact I|].
    cbn [p_items_loop items_loop]. eapply refines_bind; [exact (cursor_variable_ok ib v Hi)|]. intros cv ? <-.
    destruct cv as [head|]; [|apply IH; auto].
    destruct (rule_bodies_ok head) as (o & Eo & Ho). eapply refines_load; [exact Eo|].
    eapply refines_bind; [apply refines_option; exact Ho|]. intros ps bds Hps.
    destruct (iter_bodies_ok (k :: 1 :: p) ps bds Hps) as (ps' & Ei & Hps'). eapply refines_load; [exact Ei|].
    eapply refines_pure; [exact (mmap_refines _ _ _ _ _ _ Hps' item_from_ok)|]. intros ibs Hibs.
    eapply refines_pure; [exact (closure_insert_ok head ibs _ Hibs queue vq items vi Hq Hl)|].
    intros (queue', items'). destruct (closure_insert head _ vq vi) as (vq', vi'). intros (H1 & H2). apply IH; assumption.
  Qed.

  Lemma ritems_snd l vs : Forall2 ritem l vs -> Forall2 rib (map snd l) (map snd vs).
  Proof. apply Forall2_map_both. intros a v Ha. apply ritem_inv in Ha. tauto. Qed.

  Lemma from_incomplete_map_ok fuel p items vi : Forall2 ritem items vi ->
    refines (Forall2 ritem) (p_from_incomplete_map h b fuel p items) (from_incomplete_map fuel p vi g).
  Proof.
    intros Hl. unfold p_from_incomplete_map, from_incomplete_map. destruct (iter_ok (0 :: p) items vi Hl) as (its & E & Hits).
    eapply refines_load; [exact E|]. apply items_loop_ok; [|exact Hl]. apply ritems_snd. exact Hits.
  Qed.

  Lemma item_set_from_rules_ok fuel p head ps bds : Forall2 rbody ps bds ->
    refines (Forall2 ritem) (p_item_set_from_rules h b fuel p head ps) (item_set_from_rules fuel p head bds g).
  Proof.
    intros Hps. unfold p_item_set_from_rules, item_set_from_rules.
    eapply refines_pure; [exact (mmap_refines _ _ _ _ _ _ Hps item_from_ok)|]. intros ibs Hibs.
    apply from_incomplete_map_ok. rewrite <- (map_map item_from (pair head)). revert Hibs. apply Forall2_map_both.
    intros a v Ha. apply ritem_inv. auto.
  Qed.

  Definition rgroup : sptr * list (pitem V) -> symbol V T * item_set V T -> Prop := rpair rsym (Forall2 ritem).

  Lemma rgroup_here e v : rgroup e v -> load_group h e = MVal v.
  Proof.
    intros (H1 & H2). unfold load_group. rewrite (here _ _ _ H1). cbn. rewrite (mmap_here _ _ _ H2). destruct v; reflexivity.
  Qed.

  Lemma group_insert_ok ps s it v groups vg : rsym ps s -> ritem it v -> Forall2 rgroup groups vg ->
    refines (Forall2 rgroup) (p_group_insert h ps s it groups) (Val (mupdate s [] (set_insert v) vg)).
  Proof.
    intros Hs Hi Hg. induction Hg as [|(ps', its) (s', vs) groups vg (H1 & H2) Hr IH]; cbn [p_group_insert mupdate].
    - eapply refines_pure; [exact (set_insert_ok it v [] [] Hi ltac:(constructor))|]. intros l Hl. cbn. constructor; [split; assumption|constructor].
    - cbn in H1, H2. rewrite (here _ _ _ H1). cbn [mbind]. destruct (eqb s s').
      + eapply refines_pure; [exact (set_insert_ok it v its vs Hi H2)|]. intros l Hl. cbn. constructor; [split; assumption|assumption].
      + eapply refines_pure; [exact IH|]. intros l Hl. cbn. constructor; [split; assumption|assumption].
  Qed.

  Lemma group_loop_ok items vi : Forall2 ritem items vi -> forall groups vg, Forall2 rgroup groups vg ->
    refines (Forall2 rgroup) (p_group_loop h items groups)
      (Val (fold_left (fun groups it => match cursor_symbol (snd it) with
                                        | None => groups
                                        | Some s => mupdate s [] (set_insert it) groups
                                        end) vi vg)).
  Proof.
    induction 1 as [|it v items vi Hi _ IH]; intros groups vg Hg; cbn [p_group_loop fold_left]; [exact Hg|].
    pose proof Hi as Hi'. apply ritem_inv in Hi'. destruct Hi' as (_ & Hib). destruct (cursor_symbol_ok _ _ Hib) as (o & Eo & Ho).
    rewrite Eo. cbn [mbind]. destruct o as [(ps, s)|], (cursor_symbol (snd v)) as [s'|]; try contradiction; [|apply IH; exact Hg].
    destruct Ho as (<- & Hs). eapply refines_pure; [exact (group_insert_ok ps s it v groups vg Hs Hi Hg)|]. intros l Hl. apply IH. exact Hl.
  Qed.

  Lemma group_items_ok p items vi : Forall2 ritem items vi ->
    refines (Forall2 rgroup) (p_group_items h p items) (Val (group_items p vi)).
  Proof.
    intros Hl. unfold p_group_items, group_items. destruct (iter_ok (0 :: p) items vi Hl) as (its & E & Hits). eapply refines_load; [exact E|].
    eapply refines_pure; [exact (group_loop_ok its _ Hits [] [] ltac:(constructor))|]. intros groups Hg.
    eapply refines_load; [exact (mmap_reads _ _ _ _ rgroup_here Hg)|]. cbn. apply reorder_hash. exact Hg.
  Qed.

  (** ** Automaton *)

  Definition rtrans : sptr * nat -> symbol V T * nat -> Prop := rpair rsym eq.
  Definition rstate (st : pstate V) (v : cstate V T) : Prop :=
    pc_id st = cs_id v /\ Forall2 ritem (pc_items st) (cs_items v) /\ Forall2 rtrans (pc_trans st) (cs_trans v).

  Lemma trans_insert_ok ps s d tr vt : rsym ps s -> Forall2 rtrans tr vt ->
    refines (Forall2 rtrans) (p_trans_insert h ps d tr) (Val (mupdate s 0 (fun _ => d) vt)).
  Proof.
    intros Hs Ht. induction Ht as [|(ps', d') (s', e) tr vt (H1 & H2) Hr IH]; cbn [p_trans_insert mupdate].
    - constructor; [split; auto|constructor].
    - cbn in H1, H2. subst e. rewrite (here _ _ _ Hs). cbn [mbind]. rewrite (here _ _ _ H1). cbn [mbind]. destruct (eqb s s').
      + constructor; [split; auto|assumption].
      + eapply refines_pure; [exact IH|]. intros l Hl. constructor; [split; auto|assumption].
  Qed.

  Lemma trans_get_ok ps s tr vt : rsym ps s -> Forall2 rtrans tr vt -> p_trans_get h ps tr = MVal (mget s vt).
  Proof.
    intros Hs Ht. induction Ht as [|(ps', d') (s', e) tr vt (H1 & H2) Hr IH]; cbn [p_trans_get mget]; [reflexivity|].
    cbn in H1, H2. subst e. rewrite (here _ _ _ Hs). cbn [mbind]. rewrite (here _ _ _ H1). cbn [mbind]. destruct (eqb s s'); [reflexivity|exact IH].
  Qed.

  Lemma add_state_ok st v l vs : rstate st v -> Forall2 rstate l vs -> Forall2 rstate (p_add_state st l) (add_state v vs).
  Proof.
    intros Hs Hl. induction Hl as [|x vx l vs Hx Hl IH]; cbn [p_add_state add_state]; [constructor; [exact Hs|constructor]|].
    pose proof Hs as (Ei & _). pose proof Hx as (Ex & _). rewrite Ei, Ex.
    destruct (Nat.eqb (cs_id v) (cs_id vx)); [constructor; assumption|].
    destruct (Nat.ltb (cs_id v) (cs_id vx)); [constructor; [assumption|constructor; assumption]|constructor; assumption].
  Qed.

  Lemma find_state_ok items vi l vs : Forall2 ritem items vi -> Forall2 rstate l vs ->
    p_find_state h items l = MVal (option_map cs_id (find (fun st => same_items (cs_items st) vi) vs)).
  Proof.
    intros Hi Hl. induction Hl as [|x vx l vs Hx Hl IH]; cbn [p_find_state find]; [reflexivity|].
    destruct Hx as (Ex & Hx & _). rewrite (same_items_ok _ _ _ _ Hx Hi). cbn [mbind]. destruct (same_items (cs_items vx) vi); [cbn; rewrite Ex; reflexivity|exact IH].
  Qed.

  Lemma advance_item_ok it v : ritem it v -> refines ritem (p_advance_item h it) (Val (fst v, advance (snd v))).
  Proof.
    intros Hi. apply ritem_inv in Hi. destruct Hi as (E & Hib). unfold p_advance_item.
    eapply refines_pure; [exact (advance_ok _ _ Hib)|]. intros ib Hib'. cbn. apply ritem_inv. auto.
  Qed.

  Definition rgroups_out : list (sptr * nat) * nat * list (pstate V) -> list (symbol V T * nat) * nat * list (cstate V T) -> Prop :=
    rpair (rpair (Forall2 rtrans) eq) (Forall2 rstate).

  Lemma cfsm_groups_ok fuel p added vadd : Forall2 rstate added vadd -> forall groups vg,
    Forall2 (numbered rgroup) groups vg ->
    forall trans vt next pending vp, Forall2 rtrans trans vt -> Forall2 rstate pending vp ->
    refines rgroups_out (p_cfsm_groups h b fuel p added groups trans next pending) (cfsm_groups fuel p g vadd vg vt next vp).
  Proof.
    intros Ha groups vg. induction 1 as [|(i, (ps, group)) (i', (s, vgroup)) groups vg (E & Hs & Hg) _ IH]; intros trans vt next pending vp Ht Hp;
      cbn [p_cfsm_groups cfsm_groups]; [repeat split; assumption|].
    cbn in E, Hs, Hg. subst i'. eapply refines_pure; [exact (mmap_refines _ _ _ _ _ _ Hg advance_item_ok)|]. intros moved Hm.
    eapply refines_pure; [exact (set_extend_ok _ _ Hm [] [] ltac:(constructor))|]. intros kernel Hk.
    eapply refines_bind; [exact (from_incomplete_map_ok fuel (i :: 2 :: p) kernel _ Hk)|]. intros items vi Hi.
    rewrite (find_state_ok items vi added vadd Hi Ha). cbn [mbind].
    destruct (find (fun st => same_items (cs_items st) vi) vadd) as [st|]; cbn [option_map].
    - eapply refines_pure; [exact (trans_insert_ok ps s (cs_id st) trans vt Hs Ht)|]. intros trans' Ht'. apply IH; assumption.
    - eapply refines_pure; [exact (trans_insert_ok ps s next trans vt Hs Ht)|]. intros trans' Ht'. apply IH; [assumption|].
      apply Forall2_app; [assumption|]. constructor; [|constructor]. repeat split; cbn; [assumption|constructor].
  Qed.

  Lemma cfsm_loop_ok p fuel : forall k added vadd next pending vp, Forall2 rstate added vadd -> Forall2 rstate pending vp ->
    refines (Forall2 rstate) (p_cfsm_loop h b fuel k p added next pending) (cfsm_loop fuel k p g vadd next vp).
  Proof.
    induction fuel as [|fuel IH]; intros k added vadd next pending vp Ha Hp; (destruct Hp as [|st v pending vp Hs Hp]; [exact Ha|]); [exact I|].
    cbn [p_cfsm_loop cfsm_loop]. destruct Hs as (Ei & Hi & Ht).
    eapply refines_pure; [exact (group_items_ok (k :: 3 :: p) _ _ Hi)|]. intros groups Hg.
    eapply refines_bind; [exact (cfsm_groups_ok fuel (k :: 3 :: p) added vadd Ha _ _ (enumerate_reads _ _ _ Hg) _ _ next pending vp Ht Hp)|].
    intros ((trans, next'), pending') ((vt, vnext), vp') ((H1 & H2) & H3). cbn in H1, H2, H3. subst vnext. apply IH; [|assumption].
    apply add_state_ok; [|assumption]. repeat split; assumption.
  Qed.

  Lemma rstates_ids l vs : Forall2 rstate l vs -> map pc_id l = map cs_id vs.
  Proof. induction 1 as [|st v l vs (E & _) _ IH]; cbn; congruence. Qed.

  Lemma rtrans_dests l vs : Forall2 rtrans l vs -> map snd l = map snd vs.
  Proof. induction 1 as [|st v l vs (_ & E) _ IH]; cbn; congruence. Qed.

  Lemma rstates_dests l vs : Forall2 rstate l vs -> flat_map (fun st => map snd (pc_trans st)) l = flat_map (fun st => map snd (cs_trans st)) vs.
  Proof. induction 1 as [|st v l vs (_ & _ & Ht) _ IH]; cbn; [reflexivity|]. rewrite IH, (rtrans_dests _ _ Ht). reflexivity. Qed.

  (** [from_grammar]: the same outcome and the same automaton. *)
  Definition rcfsm (sts : list (pstate V)) (c : cfsm V T) : Prop :=
    cf_start c = 0 /\ Forall2 rstate sts (cf_states c) /\ cf_grammar c = g.

  Lemma from_grammar_ok fuel p : refines rcfsm (p_from_grammar h (g_start g) b fuel p) (from_grammar fuel p g).
  Proof.
    unfold p_from_grammar, from_grammar. destruct (rule_bodies_ok (g_start g)) as (o & Eo & Ho). eapply refines_load; [exact Eo|].
    eapply refines_bind; [apply refines_option; exact Ho|]. intros ps bds Hps.
    eapply refines_bind; [exact (item_set_from_rules_ok fuel (4 :: p) (g_start g) ps bds Hps)|]. intros items vi Hi.
    eapply refines_bind.
    { apply (cfsm_loop_ok p fuel 0 [] [] 1 _ [{| cs_id := 0; cs_items := vi; cs_trans := [] |}]); [constructor|].
      constructor; [|constructor]. repeat split; cbn; [exact Hi|constructor]. }
    intros sts vs Hs. unfold p_cfsm_build, cfsm_build. rewrite (rstates_ids _ _ Hs), (rstates_dests _ _ Hs).
    destruct (memb 0 (map cs_id vs)); [|exact I]. destruct (forallb _ _); [|exact I]. repeat split. exact Hs.
  Qed.

  (** ** Parse table *)

  Context (teq : T -> T -> bool).

  Notation rkey := (points b (g_rules g) load_key).
  Definition rentry : pkey * action V -> key T * action V -> Prop := rpair rkey eq.
  Definition ractions : list (list (pkey * action V)) -> list (list (key T * action V)) -> Prop := Forall2 (Forall2 rentry).

  Lemma rkey_ter ps t : rsym ps (Ter t) -> rkey (Some ps) (Some t).
  Proof. intros Hp h' Hh'. unfold load_key, load_terminal. rewrite (Hp h' Hh'). reflexivity. Qed.

  Lemma row_get_ok k row vr : Forall2 rentry row vr -> p_row_get h teq k row = MVal (row_get teq k vr).
  Proof.
    induction 1 as [|(k', a) (v, a') row vr (H1 & H2) _ IH]; cbn [p_row_get row_get]; [reflexivity|].
    cbn in H1, H2. subst a'. rewrite (here _ _ _ H1). cbn [mbind]. destruct (key_eq teq k v); [reflexivity|exact IH].
  Qed.

  Lemma ractions_resize n tb vt : ractions tb vt -> ractions (resize n tb) (resize n vt).
  Proof.
    intros Ht. unfold resize. rewrite (Forall2_len _ _ _ Ht). apply Forall2_app; [exact Ht|].
    induction (S n - length vt) as [|m IH]; cbn; constructor; [constructor|exact IH].
  Qed.

  Lemma ractions_nth n tb vt : ractions tb vt -> Forall2 rentry (nth n tb []) (nth n vt []).
  Proof. intros Ht. revert n. induction Ht as [|r vr tb vt Hr _ IH]; intros [|n]; cbn; auto. Qed.

  Lemma Forall2_firstn {A B} (R : A -> B -> Prop) n l vs : Forall2 R l vs -> Forall2 R (firstn n l) (firstn n vs).
  Proof. intros Hf. revert n. induction Hf; intros [|n]; cbn; constructor; auto. Qed.

  Lemma Forall2_skipn {A B} (R : A -> B -> Prop) n l vs : Forall2 R l vs -> Forall2 R (skipn n l) (skipn n vs).
  Proof. intros Hf. revert n. induction Hf; intros [|n]; cbn; auto. Qed.

  Lemma ractions_set n row vr tb vt : Forall2 rentry row vr -> ractions tb vt -> ractions (set_row n row tb) (set_row n vr vt).
  Proof.
    intros Hr Ht. unfold set_row. apply Forall2_app; [apply Forall2_firstn; exact Ht|]. constructor; [exact Hr|]. apply Forall2_skipn. exact Ht.
  Qed.

  Definition ropt {A B} (R : A -> B -> Prop) (x : option A) (y : option B) : Prop :=
    match x, y with Some a, Some b => R a b | None, None => True | _, _ => False end.

  Lemma insert_action_ok s k v a tb vt : rkey k v -> ractions tb vt ->
    refines (ropt ractions) (p_insert_action h teq s k a tb) (Val (insert_action teq s v a vt)).
  Proof.
    intros Hk Ht. unfold p_insert_action, insert_action. rewrite (here _ _ _ Hk). cbn [mbind].
    pose proof (ractions_resize s tb vt Ht) as Hz. pose proof (ractions_nth s _ _ Hz) as Hn.
    rewrite (row_get_ok v _ _ Hn). cbn [mbind]. destruct (row_get teq v (nth s (resize s vt) [])); [exact I|]. cbn [refines ropt].
    apply ractions_set; [|exact Hz]. apply Forall2_app; [exact Hn|]. constructor; [split; [exact Hk|reflexivity]|constructor].
  Qed.

  Variable refs : V -> T -> sptr.

  Lemma insert_reduces_ok s head amount follow : (forall t, In (Ter t) follow -> rkey (Some (refs head t)) (Some t)) -> forall tb vt, ractions tb vt ->
    refines (ropt ractions) (p_insert_reduces h teq refs s head amount follow tb) (insert_reduces teq s head amount follow vt).
  Proof.
    induction follow as [|[t|v|] follow IH]; intros Hf tb vt Ht; cbn [p_insert_reduces insert_reduces].
    - exact Ht.
    - eapply refines_pure; [exact (insert_action_ok s _ _ (Reduce head amount) tb vt (Hf t (or_introl eq_refl)) Ht)|]. intros o Ho.
      destruct o as [tb'|], (insert_action teq s (Some t) (Reduce head amount) vt) as [vt'|]; cbn in Ho; try contradiction; [|exact I].
      apply IH; [|exact Ho]. intros t' Hin. apply Hf. right. exact Hin.
    - exact I.
    - apply IH; [|exact Ht]. intros t' Hin. apply Hf. right. exact Hin.
  Qed.

  Definition rtables : list (list (pkey * action V)) * list (list (V * nat)) -> list (list (key T * action V)) * list (list (V * nat)) -> Prop :=
    rpair ractions eq.

  Variable fs : list (V * list (symbol V T)).
  Hypothesis Hfs : forall v l t, mget v fs = Some l -> In (Ter t) l -> rkey (Some (refs v t)) (Some t).

  Lemma table_items_ok p st v items vi : rstate st v -> Forall2 (numbered ritem) items vi -> forall tbs vtbs, rtables tbs vtbs ->
    refines (ropt rtables) (p_table_items h (g_start g) teq refs p fs st items tbs) (table_items teq p g fs v vi vtbs).
  Proof.
    intros (Ei & _ & Ht). induction 1 as [|(i, (head, ib)) (i', (head', vib)) items vi (E & Hit) _ IH]; intros (ac, gt) (vac, vgt) (Ha & Eg); cbn in Ha, Eg; subst vgt.
    - split; [exact Ha|reflexivity].
    - cbn in E, Hit. subst i'. apply ritem_inv in Hit. cbn in Hit. destruct Hit as (<- & Hib).
      cbn [p_table_items table_items]. destruct (cursor_symbol_ok ib vib Hib) as (o & Eo & Ho). rewrite Eo. cbn [mbind].
      destruct o as [(ps, s)|], (cursor_symbol vib) as [s'|]; try contradiction.
      + destruct Ho as (<- & Hs). destruct s as [t|x|]; [| |exact I].
        * rewrite (trans_get_ok ps (Ter t) _ _ Hs Ht). cbn [mbind]. eapply refines_bind; [apply refines_safe|]. intros d ? <-.
          rewrite Ei. eapply refines_pure; [exact (insert_action_ok (cs_id v) _ _ (Shift d) ac vac (rkey_ter _ _ Hs) Ha)|]. intros o Ho.
          cbn [fst snd]. destruct o as [tb'|], (insert_action teq (cs_id v) (Some t) (Shift d) vac) as [vt'|]; cbn in Ho; try contradiction; [|exact I].
          apply IH. split; [exact Ho|reflexivity].
        * rewrite (trans_get_ok ps (Var x) _ _ Hs Ht). cbn [mbind]. eapply refines_bind; [apply refines_safe|]. intros d ? <-.
          rewrite Ei. cbn [fst snd]. eapply refines_bind; [apply refines_safe|]. intros gt' ? <-. apply IH. split; [exact Ha|reflexivity].
      + destruct (mget head fs) as [follow|] eqn:Ef; [|apply IH; split; [exact Ha|reflexivity]].
        pose proof Hib as Hbd. apply rib_inv in Hbd. destruct Hbd as (Hbd & _). rewrite (here _ _ _ Hbd). cbn [mbind]. cbn [fst snd]. rewrite Ei.
        eapply refines_bind.
        { apply insert_reduces_ok; [|exact Ha]. intros t Hin. apply in_hash_at in Hin. exact (Hfs head follow t Ef Hin). }
        intros o o' Ho'. destruct o as [ac1|], o' as [vac1|]; cbn in Ho'; try contradiction; [|exact I].
        destruct (eqb head (g_start g)); [|apply IH; split; [exact Ho'|reflexivity]].
        eapply refines_pure; [exact (insert_action_ok (cs_id v) None None (Accept head (length (ib_body vib))) ac1 vac1 (fun _ _ => eq_refl) Ho')|]. intros o Ho2.
        destruct o as [tb'|], (insert_action teq (cs_id v) None (Accept head (length (ib_body vib))) vac1) as [vt'|]; cbn in Ho2; try contradiction; [|exact I].
        apply IH. split; [exact Ho2|reflexivity].
  Qed.

  Lemma table_states_ok p sts vs : Forall2 rstate sts vs -> forall tbs vtbs, rtables tbs vtbs ->
    refines (ropt rtables) (p_table_states h (g_start g) teq refs p fs sts tbs) (table_states teq p g fs vs vtbs).
  Proof.
    induction 1 as [|st v sts vs Hs _ IH]; intros tbs vtbs Ht; cbn [p_table_states table_states]; [exact Ht|].
    pose proof Hs as (Ei & Hi & _). rewrite Ei. destruct (iter_ok (0 :: cs_id v :: p) _ _ Hi) as (its & E & Hits). eapply refines_load; [exact E|].
    eapply refines_bind; [exact (table_items_ok (1 :: cs_id v :: p) st v _ _ Hs (enumerate_reads _ _ _ Hits) tbs vtbs Ht)|].
    intros o o' Ho. destruct o, o'; cbn in Ho; try contradiction; [|exact I]. apply IH. exact Ho.
  Qed.
End Proofs.

Section Parse.
  Context {V T : Type} {dv : DecEq V} {dt : DecEq T} {ho : HashOrder}.
  Variable h : heap V T.
  Variable g : grammar V T.
  Variable b : nat.
  Hypothesis Hb : h b = Some (g_rules g).
  Context (teq : T -> T -> bool).
  Variable refs : V -> T -> sptr.
  Hypothesis Hrefs : forall fuel p fs v l t, follow_set fuel p g = Val fs -> mget v fs = Some l -> In (Ter t) l ->
    points b (g_rules g) load_terminal (refs v t) t.

  Definition rtable (tb : ptable V) (v : table V T) : Prop :=
    ractions g b (pt_action tb) (tb_action v) /\ pt_goto tb = tb_goto v /\ pt_start tb = g_start (tb_grammar v) /\ pt_block tb = b /\ tb_grammar v = g.

  Lemma new_slr_ok fuel p sts c : rcfsm g b sts c ->
    refines (ropt rtable) (p_new_slr h (g_start g) b teq refs fuel p sts) (new_slr teq fuel p c).
  Proof.
    intros (_ & Hs & Eg). unfold p_new_slr, new_slr, load_rules. rewrite Hb, Eg. cbn [mbind].
    replace {| g_start := g_start g; g_rules := g_rules g |} with g by (destruct g; reflexivity).
    destruct (follow_set fuel (0 :: p) g) as [fs| |] eqn:Ef; [|exact I|exact I]. cbn [safe mbind bind].
    eapply refines_bind.
    - apply (table_states_ok h g b Hb teq refs fs) with (tbs := ([], [])) (vtbs := ([], [])); [|exact Hs|split; [constructor|reflexivity]].
      intros v l t Hg Hin h' Hh'. unfold load_key. rewrite (Hrefs _ _ _ _ _ _ Ef Hg Hin h' Hh'). reflexivity.
    - intros o o' Ho. destruct o as [(ac, gt)|], o' as [(vac, vgt)|]; cbn in Ho; try contradiction; [|exact I].
      destruct Ho as (H1 & H2). cbn in H1, H2. subst vgt. repeat split; cbn; auto.
  Qed.

  (** [Slr::new]. *)
  Lemma slr_new_ok fuel p : refines rtable (p_slr_new h (g_start g) b teq refs fuel p) (slr_new teq fuel p g).
  Proof.
    unfold p_slr_new, slr_new. eapply refines_bind; [exact (from_grammar_ok h g b Hb fuel (0 :: p))|]. intros sts c Hc.
    eapply refines_bind; [exact (new_slr_ok fuel (1 :: p) sts c Hc)|]. intros o o' Ho. apply refines_option. exact Ho.
  Qed.

  (** ** Parsing *)

  Variable tb : ptable V.
  Variable v : table V T.
  Hypothesis Htb : rtable tb v.

  Lemma handle_token_ok token stack cur : p_handle_token h teq tb token stack cur = safe (handle_token teq v token stack cur).
  Proof.
    destruct Htb as (Ha & Eg & _). unfold p_handle_token, handle_token. rewrite Eg.
    assert (Hrow : match nth_error (pt_action tb) cur, nth_error (tb_action v) cur with
                   | Some r, Some vr => Forall2 (rentry g b) r vr | None, None => True | _, _ => False end).
    { unfold ractions in Ha. revert Ha. generalize (pt_action tb) (tb_action v) cur. clear. intros l vl cur Ha. revert cur.
      induction Ha as [|r vr l vl Hr _ IH]; intros [|cur]; cbn; auto. apply IH. }
    destruct (nth_error (pt_action tb) cur) as [r|], (nth_error (tb_action v) cur) as [vr|]; try contradiction; [|reflexivity].
    cbn [of_option safe mbind bind]. rewrite (row_get_ok h g b Hb teq token r vr Hrow). cbn [mbind].
    destruct (row_get teq token vr) as [[d|x n|x n]|]; [| | |reflexivity].
    - destruct token; reflexivity.
    - destruct (drain n stack) as [(popped, rest)| |]; cbn [safe mbind bind]; [|reflexivity|reflexivity].
      destruct (hd_error rest) as [top|]; cbn [of_option safe mbind bind]; [|reflexivity].
      destruct (nth_error (tb_goto v) (snd top)) as [grow|]; cbn [of_option safe mbind bind]; [|reflexivity].
      destruct (mget x grow); reflexivity.
    - destruct (drain n stack) as [(popped, rest)| |]; reflexivity.
  Qed.

  Lemma safe_bind {A B} (r : res A) (f : A -> mem B) (k : A -> res B) : (forall a, f a = safe (k a)) -> mbind (safe r) f = safe (bind r k).
  Proof. intros Hf. destruct r; cbn; auto. Qed.

  Lemma eof_loop_ok fuel : forall stack cur, p_eof_loop h teq fuel tb stack cur = safe (eof_loop teq fuel v stack cur).
  Proof.
    induction fuel as [|fuel IH]; intros stack cur; cbn [p_eof_loop eof_loop]; [reflexivity|].
    rewrite handle_token_ok. apply safe_bind. intros [[[[tok st] pn] acc]|]; [|reflexivity]. destruct acc; [reflexivity|]. apply IH.
  Qed.

  Lemma parse_loop_ok fuel : forall inp tok stack cur,
    p_parse_loop h teq fuel tb inp tok stack cur = safe (parse_loop teq next_of_list fuel v inp tok stack cur).
  Proof.
    induction fuel as [|fuel IH]; intros inp tok stack cur; cbn [p_parse_loop parse_loop]; [reflexivity|].
    replace (match tok with Some t => MVal (Some t, inp) | None => safe (next_of_list inp) end)
      with (safe (match tok with Some t => Val (Some t, inp) | None => next_of_list inp end)) by (destruct tok; reflexivity).
    apply safe_bind. intros ([t|], inp'); [|apply eof_loop_ok].
    rewrite handle_token_ok. apply safe_bind. intros [[[[tok2 st] pn] acc]|]; [|reflexivity]. destruct acc; [reflexivity|]. apply IH.
  Qed.

  Lemma p_parse_ok fuel ts : p_parse h teq fuel tb ts = safe (parse teq fuel v ts).
  Proof. unfold p_parse, parse, parse_from. destruct Htb as (_ & _ & Es & _). rewrite Es. apply parse_loop_ok. Qed.
End Parse.
