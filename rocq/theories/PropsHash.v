(** Properties of the hash tables. *)
From Verif Require Import Base GrammarModel CfsmModel SlrModel PtrModel ExprModel HashModel SpecHash HashWitness.

(** A hash table whose keys are compared with an equivalence answers every
    sequence of uses as a map does, whatever the hasher and wherever else its
    searches look, exactly when equal keys write the same into the hasher. *)
Theorem C106_map : forall K B (b : B) (keq : K -> K -> bool) (w : K -> list word), equivalence keq ->
  (agrees keq w <->
   forall (H : list word -> N) probe, finds probe -> forall ops : list (K * option (option B)),
     h_run keq (fun k => H (w k)) probe [] ops = map_run keq (fun _ => None) ops).
Proof. exact map_contract. Qed.
Print Assumptions C106_map.

Definition C106_ops : list (terminals * option (option nat)) :=
  [(Num 1, Some (Some 5)); (Plus, Some (Some 6)); (Num 2, None); (Num 3, Some (Some 7)); (Plus, Some None); (Plus, None); (Num 0, None); (Mul, None)].
Example C106_sample :
  equivalence terminal_eq /\ agrees terminal_eq terminal_hash /\ finds equal_hash /\ finds everything /\
  h_run terminal_eq (fun k => wide false 0 (terminal_hash k)) equal_hash [] C106_ops =
    [None; None; Some 5; Some 5; Some 6; None; Some 7; None] /\
  h_run terminal_eq (fun k => flat false 0 (terminal_hash k)) everything [] C106_ops =
    [None; None; Some 5; Some 5; Some 6; None; Some 7; None] /\
  h_run terminal_eq (fun k => wide false 0 (write_terminals k)) equal_hash [] C106_ops =
    [None; None; None; None; Some 6; None; None; None].
Proof.
  split; [exact terminal_eq_equivalence|]. split; [intros x y; apply terminal_hash_iff|].
  split; [exact equal_hash_finds|]. split; [exact everything_finds|].
  repeat split; vm_compute; reflexivity.
Qed.

(** The keys that are pointers: keys that are equal write the same, wherever they
    point to. *)
Theorem C106_pointers : forall (V T : Type) (dv : DecEq V) (dt : DecEq T) (wv : V -> list word) (wt : T -> list word) (h : heap V T),
  (forall x y, item_body_eq h x y = MVal true -> write_item_body wv wt h x = write_item_body wv wt h y) /\
  (forall x y, wsymbol_eq h x y = MVal true -> write_wsymbol wv wt h x = write_wsymbol wv wt h y) /\
  (forall teq x y k k', agrees teq wt -> load_key h x = MVal k -> load_key h y = MVal k' -> key_eq teq k k' = true ->
     write_pkey wt h x = write_pkey wt h y).
Proof.
  intros V T dv dt wv wt h.
  exact (conj (item_body_agrees wv wt h) (conj (wsymbol_agrees wv wt h) (fun teq x y k k' => key_agrees wt h teq x y k k'))).
Qed.
Print Assumptions C106_pointers.

(** Two bodies of two variables that look the same. *)
Definition C106_heap : heap nat terminals := fun b => if Nat.eqb b 0 then Some [(0, [[Ter Plus; Var 1]]); (1, [[Ter Mul]; [Ter Plus; Var 1]])] else None.
Definition C106_x : bptr := {| bp_block := 0; bp_rule := 0; bp_body := 0 |}.
Definition C106_y : bptr := {| bp_block := 0; bp_rule := 1; bp_body := 1 |}.
Example C106_pointers_sample :
  C106_x <> C106_y /\ item_body_eq C106_heap (C106_x, 1) (C106_y, 1) = MVal true /\
  item_body_eq C106_heap (C106_x, 1) (C106_y, 0) = MVal false /\
  write_item_body write_usize write_terminals C106_heap (C106_y, 1) = MVal [W64 2; W64 0; W64 1; W64 1; W64 1; W64 1] /\
  wsymbol_eq C106_heap {| sp_body := C106_x; sp_index := 0 |} {| sp_body := C106_y; sp_index := 0 |} = MVal true /\
  write_wsymbol write_usize write_terminals C106_heap {| sp_body := C106_x; sp_index := 0 |} = MVal [W64 0; W64 1].
Proof. repeat split; try (vm_compute; reflexivity). discriminate. Qed.

(** If [terminal_eq] is an equivalence and terminals equal for it write the same in
    [terminal_hash], then the parser does what the one with lists of entries does:
    it is built or not, and gives the same result on every lexer. *)
Theorem C106_parser : forall (V T : Type) (dv : DecEq V) (dt : DecEq T) (ho : HashOrder)
    (teq : T -> T -> bool) (wt : T -> list word) (wv : V -> list word)
    (H : bool -> nat -> list word -> N) (probe : list N -> N -> list nat),
  equivalence teq -> agrees teq wt -> finds probe -> forall fuel p g,
  match h_slr_new teq wt wv H probe fuel p g, slr_new teq fuel p g with
  | Val tb, Val tb' => forall L (next : L -> res (option T * L)) fuel' inp,
      h_parse_from teq wt wv H probe next fuel' tb inp = parse_from teq next fuel' tb' inp
  | Panic, Panic | Diverge, Diverge => True
  | _, _ => False
  end.
Proof. exact @parser_agrees. Qed.
Print Assumptions C106_parser.

(** If terminals equal for [terminal_eq] write different words, and the hasher and
    the searches keep them apart, then the parser is the one of the finer equality. *)
Theorem C106_finer : forall (V T : Type) (dv : DecEq V) (dt : DecEq T) (ho : HashOrder)
    (teq : T -> T -> bool) (wt : T -> list word) (wv : V -> list word)
    (H : bool -> nat -> list word -> N) (probe : list N -> N -> list nat) (teq1 : T -> T -> bool),
  equivalence teq -> (forall x y, teq1 x y = true <-> teq x y = true /\ wt x = wt y) ->
  (forall s x y, H false s (wt x) = H false s (wt y) -> wt x = wt y) -> finds probe -> finds_only probe -> forall fuel p g,
  match h_slr_new teq wt wv H probe fuel p g, slr_new teq1 fuel p g with
  | Val tb, Val tb' => forall L (next : L -> res (option T * L)) fuel' inp,
      h_parse_from teq wt wv H probe next fuel' tb inp = parse_from teq1 next fuel' tb' inp
  | Panic, Panic | Diverge, Diverge => True
  | _, _ => False
  end.
Proof. exact @parser_finer. Qed.
Print Assumptions C106_finer.

(** The example meets the contract, and only terminals equal for [terminal_eq] write
    the same. *)
Theorem C106_example : equivalence terminal_eq /\ forall x y, terminal_eq x y = true <-> terminal_hash x = terminal_hash y.
Proof. exact (conj terminal_eq_equivalence terminal_hash_iff). Qed.
Print Assumptions C106_example.

Definition C106_tree : node nat terminals :=
  Node (Var 0) [Node (Ter (Num 2)) []; Node (Ter Plus) []; Node (Var 0) [Node (Ter (Num 1)) []]].
Example C106_parses :
  hashed_expr terminal_hash wide equal_hash [Num 1; Plus; Num 2] = Val (Some C106_tree) /\
  hashed_expr terminal_hash flat everything [Num 1; Plus; Num 2] = Val (Some C106_tree) /\
  hashed_expr terminal_hash flat equal_hash [Num 1; Plus; Plus] = Val None.
Proof. repeat split; vm_compute; reflexivity. Qed.

(** Without the contract it fails: were the derived [Hash] the [terminal_hash] of the
    example, then whether [1 + 2] is parsed would depend on the searches. *)
Theorem C106_needed :
  equivalence terminal_eq /\ ~ agrees terminal_eq write_terminals /\ finds equal_hash /\ finds everything /\
  plain_expr [Num 1; Plus; Num 2] = Val (Some C106_tree) /\
  hashed_expr write_terminals flat everything [Num 1; Plus; Num 2] = Val (Some C106_tree) /\
  hashed_expr write_terminals wide equal_hash [Num 1; Plus; Num 2] = Val None.
Proof.
  split; [exact terminal_eq_equivalence|]. split; [intros A; discriminate (A (Num 0) (Num 1) eq_refl)|].
  split; [exact equal_hash_finds|]. split; [exact everything_finds|].
  repeat split; vm_compute; reflexivity.
Qed.
Print Assumptions C106_needed.

Example C106_finer_sample : finds_only equal_hash /\
  (forall s x y, wide false s (write_terminals x) = wide false s (write_terminals y) -> write_terminals x = write_terminals y) /\
  hashed_expr write_terminals wide equal_hash [Num 0; Plus; Num 0] =
    Val (Some (Node (Var 0) [Node (Ter (Num 0)) []; Node (Ter Plus) []; Node (Var 0) [Node (Ter (Num 0)) []]])).
Proof. split; [exact equal_hash_only|]. split; [exact wide_apart|]. vm_compute. reflexivity. Qed.
