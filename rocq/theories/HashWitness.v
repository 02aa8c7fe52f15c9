(** Hashers and searches for the examples about HashModel.v, and the proofs of its
    claims. *)
From Verif Require Import Base GrammarModel CfsmModel SlrModel PtrModel ExprModel HashModel SpecHash HashProofs HashSlrProofs.

Definition code (w : word) : N := match w with W32 n => 2 * n + 1 | W64 n => 2 * n end.
(** A hasher that keeps apart what the examples write. *)
Definition wide (_ : bool) (s : nat) (l : list word) : N := fold_left (fun a w => a * 100 + code w)%N l (N.of_nat s + 1)%N.
(** One that makes everything collide. *)
Definition flat (_ : bool) (_ : nat) (_ : list word) : N := 0%N.

(** The entries with the hash. *)
Definition equal_hash (hs : list N) (h : N) : list nat := filter (fun i => N.eqb (nth i hs 0%N) h) (seq 0 (length hs)).
(** All entries, the last first. *)
Definition everything (hs : list N) (_ : N) : list nat := rev (seq 0 (length hs)).

Lemma equal_hash_finds : finds equal_hash.
Proof.
  intros hs h i E. apply filter_In. split.
  - apply in_seq. assert (i < length hs) by (apply nth_error_Some; congruence). lia.
  - rewrite (nth_error_nth hs i 0%N E). apply N.eqb_refl.
Qed.
Lemma equal_hash_only : finds_only equal_hash.
Proof.
  intros hs h h' i Hi E. apply filter_In in Hi. destruct Hi as [_ Hi]. apply N.eqb_eq in Hi.
  rewrite (nth_error_nth hs i 0%N E) in Hi. exact Hi.
Qed.
Lemma everything_finds : finds everything.
Proof.
  intros hs h i E. unfold everything. apply in_rev. rewrite rev_involutive.
  apply in_seq. assert (i < length hs) by (apply nth_error_Some; congruence). lia.
Qed.

Lemma word_eq_dec (x y : word) : {x = y} + {x <> y}.
Proof. decide equality; apply N.eq_dec. Defined.

(** ** The contract *)

Lemma map_contract_if K B (keq : K -> K -> bool) W (w : K -> W) (H : W -> N) probe (ops : list (K * option (option B))) :
  equivalence keq -> agrees keq w -> finds probe ->
  h_run keq (fun k => H (w k)) probe [] ops = map_run keq (fun _ => None) ops.
Proof.
  intros Eq A F. apply (h_run_ok keq keq); auto.
  - intros k k' E. split; [|exact E]. f_equal. now apply A.
  - apply hwf_nil.
Qed.

Lemma map_contract K B (b : B) (keq : K -> K -> bool) (w : K -> list word) : equivalence keq ->
  (agrees keq w <->
   forall (H : list word -> N) probe, finds probe -> forall ops : list (K * option (option B)),
     h_run keq (fun k => H (w k)) probe [] ops = map_run keq (fun _ => None) ops).
Proof.
  intros Eq. split.
  - intros A H probe F ops. now apply map_contract_if.
  - intros C x y Exy. destruct (list_eq_dec word_eq_dec (w x) (w y)) as [E|N]; [exact E|exfalso].
    specialize (C (fun l => if list_eq_dec word_eq_dec l (w x) then 0%N else 1%N) equal_hash equal_hash_finds
                  [(x, Some (Some b)); (y, None)]).
    cbn in C. rewrite Exy in C. unfold h_get, h_insert, h_find in C. cbn in C.
    destruct (list_eq_dec word_eq_dec (w x) (w x)) as [_|N1]; [|congruence].
    destruct (list_eq_dec word_eq_dec (w y) (w x)) as [E2|_]; [congruence|].
    cbn in C. discriminate.
Qed.

Section Pointers.
  Context {V T : Type} {dv : DecEq V} {dt : DecEq T} (wv : V -> list word) (wt : T -> list word) (h : heap V T).

  Lemma item_body_agrees x y : item_body_eq h x y = MVal true -> write_item_body wv wt h x = write_item_body wv wt h y.
  Proof.
    unfold item_body_eq, write_item_body. destruct (load_body h (fst x)) as [bx| | |]; cbn [mbind]; try discriminate.
    destruct (load_body h (fst y)) as [b'| | |]; cbn [mbind]; try discriminate.
    intros E. injection E as E. apply andb_prop in E. destruct E as [E1 E2].
    change (eqb bx b' = true) in E1. apply eqb_eq in E1. apply Nat.eqb_eq in E2. subst. rewrite E2. reflexivity.
  Qed.
  Lemma wsymbol_agrees x y : wsymbol_eq h x y = MVal true -> write_wsymbol wv wt h x = write_wsymbol wv wt h y.
  Proof.
    unfold wsymbol_eq, write_wsymbol. destruct (load_symbol h x) as [bx| | |]; cbn [mbind]; try discriminate.
    destruct (load_symbol h y) as [b'| | |]; cbn [mbind]; try discriminate.
    intros E. injection E as E. change (eqb bx b' = true) in E. apply eqb_eq in E. now subst.
  Qed.
  Lemma key_agrees (teq : T -> T -> bool) x y k k' : agrees teq wt -> load_key h x = MVal k -> load_key h y = MVal k' ->
    key_eq teq k k' = true -> write_pkey wt h x = write_pkey wt h y.
  Proof.
    intros A Ex Ey E. unfold write_pkey. rewrite Ex, Ey. cbn. f_equal.
    destruct k as [a|], k' as [b|]; cbn in *; try discriminate; auto.
  Qed.
End Pointers.

(** ** The parser *)

Definition same_parser {V T} {dv : DecEq V} (teq teq1 : T -> T -> bool) (wt : T -> list word) (wv : V -> list word) H probe
    (x : res (h_table V T)) (y : res (table V T)) : Prop :=
  match x, y with
  | Val tb, Val tb' => forall L (next : L -> res (option T * L)) fuel inp,
      h_parse_from teq wt wv H probe next fuel tb inp = parse_from teq1 next fuel tb' inp
  | Panic, Panic | Diverge, Diverge => True
  | _, _ => False
  end.

Section Parser.
  Context {V T : Type} {dv : DecEq V} {dt : DecEq T} {ho : HashOrder}.
  Context (teq : T -> T -> bool) (wt : T -> list word) (wv : V -> list word).
  Context (H : bool -> nat -> list word -> N) (probe : list N -> N -> list nat).

  Lemma parser_agrees : equivalence teq -> agrees teq wt -> finds probe -> forall fuel p g,
    same_parser teq teq wt wv H probe (h_slr_new teq wt wv H probe fuel p g) (slr_new teq fuel p g).
  Proof.
    intros Eq A F fuel p g.
    assert (HA : forall s k k', key_eq teq k k' = true -> key_hash wt H s k = key_hash wt H s k' /\ key_eq teq k k' = true).
    { intros s [x|] [y|] E; cbn in E; try discriminate; split; auto.
      unfold key_hash, write_key. rewrite (A x y E). reflexivity. }
    pose proof (slr_new_ok teq teq wt wv H probe F Eq HA (fun _ _ _ _ _ _ _ E => E) fuel p g) as R.
    unfold same_parser. destruct (h_slr_new _ _ _ _ _ _ _ _), (slr_new _ _ _ _); cbn in R; auto.
    intros L next fu inp. apply (parse_from_ok teq teq wt wv H probe F Eq HA (fun _ _ _ _ _ _ _ E => E)). exact R.
  Qed.

  Lemma parser_finer (teq1 : T -> T -> bool) : equivalence teq ->
    (forall x y, teq1 x y = true <-> teq x y = true /\ wt x = wt y) ->
    (forall s x y, H false s (wt x) = H false s (wt y) -> wt x = wt y) -> finds probe -> finds_only probe -> forall fuel p g,
    same_parser teq teq1 wt wv H probe (h_slr_new teq wt wv H probe fuel p g) (slr_new teq1 fuel p g).
  Proof.
    intros Eq A Inj F F1 fuel p g.
    assert (Eq1 : equivalence teq1).
    { destruct Eq as [R [S Tr]]. repeat split.
      - intros x. apply A. auto.
      - intros x y E. apply A in E. apply A. destruct E. auto.
      - intros x y z E1 E2. apply A in E1, E2. apply A. destruct E1, E2. split; [eauto|congruence]. }
    assert (HA : forall s k k', key_eq teq1 k k' = true -> key_hash wt H s k = key_hash wt H s k' /\ key_eq teq k k' = true).
    { intros s [x|] [y|] E; cbn in E; try discriminate; split; auto; apply A in E; destruct E as [E1 E2]; auto.
      unfold key_hash, write_key. rewrite E2. reflexivity. }
    assert (HB : forall s hs k k' i, In i (probe hs (key_hash wt H s k)) -> nth_error hs i = Some (key_hash wt H s k') ->
                 key_eq teq k k' = true -> key_eq teq1 k k' = true).
    { intros s hs [x|] [y|] i Hi E Ek; cbn in Ek |- *; try discriminate; auto.
      apply A. split; [exact Ek|]. pose proof (F1 _ _ _ _ Hi E) as Eh. symmetry. exact (Inj s y x Eh). }
    pose proof (slr_new_ok teq teq1 wt wv H probe F Eq1 HA HB fuel p g) as R.
    unfold same_parser. destruct (h_slr_new _ _ _ _ _ _ _ _), (slr_new _ _ _ _); cbn in R; auto.
    intros L next fu inp. apply (parse_from_ok teq teq1 wt wv H probe F Eq1 HA HB). exact R.
  Qed.
End Parser.

Lemma terminal_eq_equivalence : equivalence terminal_eq.
Proof.
  repeat split.
  - intros [| |n]; reflexivity.
  - intros [| |n] [| |m]; cbn; auto.
  - intros [| |n] [| |m] [| |l]; cbn; auto.
Qed.
Lemma terminal_hash_iff x y : terminal_eq x y = true <-> terminal_hash x = terminal_hash y.
Proof. destruct x as [| |n], y as [| |m]; cbn; split; intros E; auto; discriminate. Qed.

(** The example, from the tokens on, with hash tables. *)
Definition hashed_expr (wt : terminals -> list word) H probe (ts : list terminals) : res (option (node nat terminals)) :=
  let! g := build expr_builder in
  let! tb := h_slr_new (ho := id_order) terminal_eq wt write_usize H probe 100 [] g in
  h_parse_from terminal_eq wt write_usize H probe next_of_list 100 tb ts.
Definition plain_expr (ts : list terminals) : res (option (node nat terminals)) :=
  let! g := build expr_builder in
  let! tb := slr_new (ho := id_order) terminal_eq 100 [] g in
  parse terminal_eq 100 tb ts.

Lemma wide_apart s x y : wide false s (write_terminals x) = wide false s (write_terminals y) -> write_terminals x = write_terminals y.
Proof.
  destruct x as [| |n], y as [| |m]; cbn [write_terminals write_variant write_usize wide fold_left app code]; intros E; try reflexivity; try (exfalso; lia).
  repeat f_equal. lia.
Qed.
