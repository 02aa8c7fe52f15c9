(** Model of the hash tables of the standard library, of what the keys of
    /repo write into a hasher, and of pango-parser/src/parser with an action table
    and a goto table that are such hash tables.  SlrModel.v has lists of entries
    in their place. *)
From Verif Require Import Base GrammarModel CfsmModel SlrModel PtrModel ExprModel.

(** ** What is written into a hasher *)

(** [Hasher::write_u32] and [write_usize]; [write_i32] writes as many bits as the
    former, [write_isize] and [write_length_prefix] as many as the latter. *)
Inductive word := W32 (n : N) | W64 (n : N).

Definition word_eqb (x y : word) : bool :=
  match x, y with
  | W32 a, W32 b | W64 a, W64 b => N.eqb a b
  | _, _ => false
  end.

Definition write_usize (n : nat) : list word := [W64 (N.of_nat n)].
(** A derived [Hash] of an enum writes the number of the variant first. *)
Definition write_variant (n : N) : list word := [W64 n].
(** A [Vec] or a slice writes its length first. *)
Definition write_list {A} (w : A -> list word) (l : list A) : list word := write_usize (length l) ++ flat_map w l.

Section Writes.
  Context {V T : Type}.
  (** [Hash] of the variables and of the terminals. *)
  Context (wv : V -> list word) (wt : T -> list word).

  (** lib.rs:15-20, derived. *)
  Definition write_symbol (s : symbol V T) : list word :=
    match s with
    | Ter t => write_variant 0 ++ wt t
    | Var v => write_variant 1 ++ wv v
    | Eps => write_variant 2
    end.
  Definition write_body (b : body V T) : list word := write_list write_symbol b.

  (** cfsm/item.rs:229-238 [Hash for ItemBody]: what is pointed to is written. *)
  Definition write_item_body (h : heap V T) (ib : pitem_body) : mem (list word) :=
    let* bd := load_body h (fst ib) in MVal (write_body bd ++ write_usize (snd ib)).
  (** cfsm/item.rs:219-226 [PartialEq for ItemBody]. *)
  Definition item_body_eq {dv : DecEq V} {dt : DecEq T} (h : heap V T) (x y : pitem_body) : mem bool :=
    let* bx := load_body h (fst x) in
    let* by_ := load_body h (fst y) in
    MVal (eqb bx by_ && Nat.eqb (snd x) (snd y)).

  (** cfsm/state.rs:105-112 [Hash for WSymbol], 94-101 [PartialEq]. *)
  Definition write_wsymbol (h : heap V T) (p : sptr) : mem (list word) :=
    let* s := load_symbol h p in MVal (write_symbol s).
  Definition wsymbol_eq {dv : DecEq V} {dt : DecEq T} (h : heap V T) (x y : sptr) : mem bool :=
    let* sx := load_symbol h x in
    let* sy := load_symbol h y in
    MVal (eqb sx sy).

  (** parser/table.rs:236-248 [Hash for Terminal]; [0.hash(state)] writes an [i32].
      [wt] is [terminal_hash] here. *)
  Definition write_key (k : key T) : list word :=
    match k with Some t => wt t | None => [W32 0] end.
  Definition write_pkey (h : heap V T) (k : pkey) : mem (list word) :=
    let* k := load_key h k in MVal (write_key k).
End Writes.

(** examples/expr.rs:9-14, derived. *)
Definition write_terminals (t : terminals) : list word :=
  match t with
  | Mul => write_variant 0
  | Plus => write_variant 1
  | Num n => write_variant 2 ++ write_usize n
  end.
(** examples/expr.rs:25-37 [terminal_hash]. *)
Definition terminal_hash (t : terminals) : list word :=
  match t with Num _ => write_terminals (Num 0) | _ => write_terminals t end.

(** ** Hash tables *)

(** The entries of a [HashMap] in the order they were inserted in, each with the
    hash it was put in its slot with.  Which slots a search looks at, and in which
    order, depends on the hashes in the table and on the hash of the key:
    [probe] gives the numbers of the entries looked at.  (A search of the standard
    library looks at every entry with the same hash, and may look at others.) *)
Notation hmap K B := (list (N * (K * B))) (only parsing).

Section Map.
  Context {K B : Type} (keq : K -> K -> bool) (hash : K -> N) (probe : list N -> N -> list nat).

  (** [HashMap::get]: the first entry looked at whose key is equal. *)
  Fixpoint h_search (k : K) (m : hmap K B) (is : list nat) : option nat :=
    match is with
    | [] => None
    | i :: r =>
        match nth_error m i with
        | Some (_, (k', _)) => if keq k k' then Some i else h_search k m r
        | None => h_search k m r
        end
    end.
  Definition h_find (k : K) (m : hmap K B) : option nat := h_search k m (probe (map fst m) (hash k)).
  Definition h_get (k : K) (m : hmap K B) : option B :=
    match h_find k m with
    | Some i => match nth_error m i with Some (_, (_, b)) => Some b | None => None end
    | None => None
    end.

  (** [HashMap::insert]: the key of an entry that is there stays. *)
  Definition h_insert (k : K) (b : B) (m : hmap K B) : hmap K B :=
    match h_find k m with
    | Some i => firstn i m ++ match nth_error m i with Some (h, (k', _)) => [(h, (k', b))] | None => [] end ++ skipn (S i) m
    | None => m ++ [(hash k, (k, b))]
    end.
  (** [HashMap::remove]. *)
  Definition h_remove (k : K) (m : hmap K B) : hmap K B :=
    match h_find k m with
    | Some i => firstn i m ++ skipn (S i) m
    | None => m
    end.

  (** Any uses of a table: [None] is [get], [Some None] is [remove] and
      [Some (Some b)] is [insert], all of which answer with the value there was. *)
  Fixpoint h_run (m : hmap K B) (ops : list (K * option (option B))) : list (option B) :=
    match ops with
    | [] => []
    | (k, None) :: r => h_get k m :: h_run m r
    | (k, Some None) :: r => h_get k m :: h_run (h_remove k m) r
    | (k, Some (Some b)) :: r => h_get k m :: h_run (h_insert k b m) r
    end.
End Map.

(** ** The parser *)

Notation h_actions V T := (list (hmap (key T) (action V))) (only parsing).
Notation h_gotos V := (list (hmap V nat)) (only parsing).

Section HashedSlr.
  Context {V T : Type} {dv : DecEq V} {dt : DecEq T}.
  Context (teq : T -> T -> bool).
  (** [terminal_hash] and [Hash] of the variables. *)
  Context (wt : T -> list word) (wv : V -> list word).
  (** Every [HashMap] has a hasher with keys of its own: [H false s] is the one of row
      [s] of the action table, [H true s] of the goto table. *)
  Context (H : bool -> nat -> list word -> N) (probe : list N -> N -> list nat).
  Context {ho : HashOrder}.

  Record h_table := { ht_action : h_actions V T; ht_goto : h_gotos V; ht_grammar : grammar V T }.

  Definition key_hash (s : nat) (k : key T) : N := H false s (write_key wt k).
  Definition var_hash (s : nat) (v : V) : N := H true s (wv v).

  Definition h_row_get (s : nat) (k : key T) (row : hmap (key T) (action V)) : option (action V) := h_get (key_eq teq) (key_hash s) probe k row.
  Definition h_goto_get (s : nat) (v : V) (row : hmap V nat) : option nat := h_get eqb (var_hash s) probe v row.

  (** parser/table.rs:140-164 [insert_action]: [entry(..).or_insert_with(..)]. *)
  Definition h_insert_action (s : nat) (k : key T) (a : action V) (tb : h_actions V T) : option (h_actions V T) :=
    let tb := resize s tb in
    let row := nth s tb [] in
    match h_row_get s k row with
    | Some _ => None
    | None => Some (set_row s (row ++ [(key_hash s k, (k, a))]) tb)
    end.

  (** parser/table.rs:171-190 [insert_goto]. *)
  Definition h_insert_goto (s : nat) (v : V) (d : nat) (tb : h_gotos V) : res (h_gotos V) :=
    let tb := resize s tb in
    let row := nth s tb [] in
    let tb' := set_row s (h_insert eqb (var_hash s) probe v d row) tb in
    match h_goto_get s v row with
    | Some d' => if Nat.eqb d' d then Val tb' else Panic
    | None => Val tb'
    end.

  (** The rest is as in SlrModel.v. *)
  Fixpoint h_insert_reduces (s : nat) (head : V) (amount : nat) (follow : list (symbol V T)) (tb : h_actions V T)
      : res (option (h_actions V T)) :=
    match follow with
    | [] => Val (Some tb)
    | Ter t :: r =>
        match h_insert_action s (Some t) (Reduce head amount) tb with
        | Some tb' => h_insert_reduces s head amount r tb'
        | None => Val None
        end
    | Var _ :: _ => Panic
    | Eps :: r => h_insert_reduces s head amount r tb
    end.

  Fixpoint h_table_items (p : list nat) (g : grammar V T) (fs : list (V * list (symbol V T))) (st : cstate V T)
      (items : list (nat * item V T)) (tbs : h_actions V T * h_gotos V) : res (option (h_actions V T * h_gotos V)) :=
    match items with
    | [] => Val (Some tbs)
    | (i, (head, ib)) :: r =>
        match cursor_symbol ib with
        | Some (Ter t) =>
            let! d := of_option (mget (Ter t) (cs_trans st)) in
            match h_insert_action (cs_id st) (Some t) (Shift d) (fst tbs) with
            | Some ac => h_table_items p g fs st r (ac, snd tbs)
            | None => Val None
            end
        | Some (Var v) =>
            let! d := of_option (mget (Var v) (cs_trans st)) in
            let! gt := h_insert_goto (cs_id st) v d (snd tbs) in
            h_table_items p g fs st r (fst tbs, gt)
        | None =>
            match mget head fs with
            | None => h_table_items p g fs st r tbs
            | Some follow =>
                let! ac := h_insert_reduces (cs_id st) head (length (ib_body ib)) (hash_at (i :: p) follow) (fst tbs) in
                match ac with
                | None => Val None
                | Some ac =>
                    if eqb head (g_start g) then
                      match h_insert_action (cs_id st) None (Accept head (length (ib_body ib))) ac with
                      | Some ac' => h_table_items p g fs st r (ac', snd tbs)
                      | None => Val None
                      end
                    else h_table_items p g fs st r (ac, snd tbs)
                end
            end
        | Some Eps => Panic
        end
    end.

  Fixpoint h_table_states (p : list nat) (g : grammar V T) (fs : list (V * list (symbol V T)))
      (sts : list (cstate V T)) (tbs : h_actions V T * h_gotos V) : res (option (h_actions V T * h_gotos V)) :=
    match sts with
    | [] => Val (Some tbs)
    | st :: r =>
        let! o := h_table_items (1 :: cs_id st :: p) g fs st
                    (enumerate (hash_at (0 :: cs_id st :: p) (cs_items st))) tbs in
        match o with
        | None => Val None
        | Some tbs' => h_table_states p g fs r tbs'
        end
    end.

  Definition h_new_slr (fuel : nat) (p : list nat) (c : cfsm V T) : res (option h_table) :=
    let! fs := follow_set fuel (0 :: p) (cf_grammar c) in
    let! o := h_table_states (1 :: p) (cf_grammar c) fs (cf_states c) ([], []) in
    match o with
    | None => Val None
    | Some (ac, gt) => Val (Some {| ht_action := ac; ht_goto := gt; ht_grammar := cf_grammar c |})
    end.

  Definition h_slr_new (fuel : nat) (p : list nat) (g : grammar V T) : res h_table :=
    let! c := from_grammar fuel (0 :: p) g in
    let! o := h_new_slr fuel (1 :: p) c in
    of_option o.

  Definition h_handle_token (tb : h_table) (token : option T) (stack : list (parse_node V T)) (cur : nat)
      : res (option (option T * list (parse_node V T) * parse_node V T * bool)) :=
    let! row := of_option (nth_error (ht_action tb) cur) in
    match h_row_get cur token row with
    | None => Val None
    | Some (Shift d) =>
        let! t := of_option token in
        Val (Some (None, stack, (Node (Ter t) [], d), false))
    | Some (Reduce v amount) =>
        let! (popped, rest) := drain amount stack in
        let! top := of_option (hd_error rest) in
        let! grow := of_option (nth_error (ht_goto tb) (snd top)) in
        match h_goto_get (snd top) v grow with
        | None => Val None
        | Some d => Val (Some (token, rest, (Node (Var v) (map fst popped), d), false))
        end
    | Some (Accept v amount) =>
        let! (popped, rest) := drain amount stack in
        Val (Some (token, rest, (Node (Var v) (map fst popped), 0), true))
    end.

  Fixpoint h_eof_loop (fuel : nat) (tb : h_table) (stack : list (parse_node V T)) (cur : nat) : res (option (node V T)) :=
    match fuel with
    | 0 => Diverge
    | S fuel' =>
        let! o := h_handle_token tb None stack cur in
        match o with
        | None => Val None
        | Some (_, stack', pn, accept) =>
            if accept then Val (Some (fst pn)) else h_eof_loop fuel' tb (pn :: stack') (snd pn)
        end
    end.

  Fixpoint h_parse_loop {L} (next : L -> res (option T * L)) (fuel : nat) (tb : h_table) (inp : L) (tok : option T)
      (stack : list (parse_node V T)) (cur : nat) : res (option (node V T)) :=
    match fuel with
    | 0 => Diverge
    | S fuel' =>
        let! (tok', inp') := match tok with Some t => Val (Some t, inp) | None => next inp end in
        match tok' with
        | None => h_eof_loop fuel' tb stack cur
        | Some t =>
            let! o := h_handle_token tb (Some t) stack cur in
            match o with
            | None => Val None
            | Some (tok2, stack', pn, accept) =>
                if accept then Val (Some (fst pn))
                else h_parse_loop next fuel' tb inp' tok2 (pn :: stack') (snd pn)
            end
        end
    end.

  Definition h_parse_from {L} (next : L -> res (option T * L)) (fuel : nat) (tb : h_table) (inp : L)
      : res (option (node V T)) :=
    h_parse_loop next fuel tb inp None [(Node (Var (g_start (ht_grammar tb))) [], 0)] 0.
End HashedSlr.
Arguments h_table : clear implicits.
