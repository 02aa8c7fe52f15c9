(** Model of pango-parser/src/cfsm: items, item sets, states, the automaton
    and the textual form of items. *)
From Verif Require Import Base GrammarModel.

Section Cfsm.
  Context {V T : Type} {dv : DecEq V} {dt : DecEq T}.

  (** ** Items *)

  (** cfsm/item.rs:14-17 [ItemBody]; the pointer is its pointee, which is what
      [PartialEq] and [Hash] look at (lines 219-238). *)
  Record item_body := { ib_body : body V T; ib_cursor : nat }.

  (** A head with one of its item bodies. *)
  Definition item : Type := V * item_body.

  (** Number of leading epsilons. *)
  Fixpoint eps_count (l : list (symbol V T)) : nat :=
    match l with
    | Eps :: r => S (eps_count r)
    | _ => 0
    end.

  (** cfsm/item.rs:172-186 [From<&Body> for ItemBody]. *)
  Definition item_from (bd : body V T) : item_body := {| ib_body := bd; ib_cursor := eps_count bd |}.

  (** cfsm/item.rs:37-39 [get_cursor_symbol]. *)
  Definition cursor_symbol (ib : item_body) : option (symbol V T) := nth_error (ib_body ib) (ib_cursor ib).

  (** cfsm/item.rs:43-49 [get_cursor_variable], with its [unreachable!]. *)
  Definition cursor_variable (ib : item_body) : res (option V) :=
    match cursor_symbol ib with
    | Some (Var v) => Val (Some v)
    | Some (Ter _) => Val None
    | Some Eps => Panic
    | None => Val None
    end.

  (** cfsm/item.rs:53-59 [get_cursor_terminal]. *)
  Definition cursor_terminal (ib : item_body) : res (option T) :=
    match cursor_symbol ib with
    | Some (Ter t) => Val (Some t)
    | Some (Var _) => Val None
    | Some Eps => Panic
    | None => Val None
    end.

  (** cfsm/item.rs:63-75 [advance]. *)
  Definition advance (ib : item_body) : item_body :=
    let c := ib_cursor ib + (1 + eps_count (skipn (ib_cursor ib + 1) (ib_body ib))) in
    {| ib_body := ib_body ib; ib_cursor := Nat.min c (length (ib_body ib)) |}.

  (** ** Item sets *)

  #[global] Instance item_body_deceq : DecEq item_body.
  Proof.
    refine {| eqb := fun x y => eqb (ib_body x) (ib_body y) && eqb (ib_cursor x) (ib_cursor y) |}.
    intros [a b] [a' b']; split; intros E; cbn [ib_body ib_cursor] in *.
    - apply andb_prop in E. destruct E as [E1 E2]. apply eqb_eq in E1. apply eqb_eq in E2. congruence.
    - injection E as -> ->. rewrite !eqb_refl. reflexivity.
  Defined.

  (** cfsm/item.rs:24-26 [ItemSet]: the map from heads to sets of item bodies as
      one duplicate free list of items (no head has an empty set: heads are
      only added together with an item body). *)
  Definition item_set := list item.

  (** cfsm/item.rs:203-211 [PartialEq for ItemSet]. *)
  Definition same_items (x y : item_set) : bool :=
    forallb (fun i => memb i y) x && forallb (fun i => memb i x) y.

  Context {ho : HashOrder}.

  (** cfsm/item.rs:150-158: insert the initial items, queue the new ones. *)
  Fixpoint closure_insert (head : V) (ibs : list item_body) (queue : list item_body) (items : item_set)
      : list item_body * item_set :=
    match ibs with
    | [] => (queue, items)
    | ib :: r =>
        if memb (head, ib) items then closure_insert head r queue items
        else closure_insert head r (queue ++ [ib]) (items ++ [(head, ib)])
    end.

  (** cfsm/item.rs:140-159, the work list; [k] counts the iterations. *)
  Fixpoint items_loop (fuel : nat) (k : nat) (p : list nat) (g : grammar V T) (queue : list item_body)
      (items : item_set) : res item_set :=
    match queue with
    | [] => Val items
    | ib :: rest =>
        match fuel with
        | 0 => Diverge
        | S fuel' =>
            let! cv := cursor_variable ib in
            match cv with
            | None => items_loop fuel' (S k) p g rest items
            | Some head =>
                let! bs := of_option (get_rule_bodies g head) in
                let '(queue', items') :=
                  closure_insert head (map item_from (hash_at (k :: 1 :: p) bs)) rest items in
                items_loop fuel' (S k) p g queue' items'
            end
        end
    end.

  (** cfsm/item.rs:133-162 [from_incomplete_map]. *)
  Definition from_incomplete_map (fuel : nat) (p : list nat) (items : item_set) (g : grammar V T) : res item_set :=
    items_loop fuel 0 p g (map snd (hash_at (0 :: p) items)) items.

  (** cfsm/item.rs:245-248 [ItemSet::from] of a variable and its bodies. *)
  Definition item_set_from_rules (fuel : nat) (p : list nat) (head : V) (bds : list (body V T)) (g : grammar V T)
      : res item_set :=
    from_incomplete_map fuel p (map (fun bd => (head, item_from bd)) bds) g.

  (** cfsm/item.rs:85-110 [iter_by_cursor_symbol]: the groups, in hash
      order. *)
  Definition group_items (p : list nat) (items : item_set) : list (symbol V T * item_set) :=
    hash_at (1 :: p)
      (fold_left (fun groups it =>
         match cursor_symbol (snd it) with
         | None => groups
         | Some s => mupdate s [] (set_insert it) groups
         end) (hash_at (0 :: p) items) []).

  (** ** Automaton *)

  (** cfsm/state.rs:12-19 [State]. *)
  Record cstate := { cs_id : nat; cs_items : item_set; cs_trans : list (symbol V T * nat) }.

  (** cfsm/mod.rs:25-33 [Cfsm]. *)
  Record cfsm := { cf_start : nat; cf_states : list cstate; cf_grammar : grammar V T }.

  (** cfsm/mod.rs:161-163 [add_state]: [BTreeSet::insert], ordered by id. *)
  Fixpoint add_state (s : cstate) (l : list cstate) : list cstate :=
    match l with
    | [] => [s]
    | x :: r =>
        if Nat.eqb (cs_id s) (cs_id x) then l
        else if Nat.ltb (cs_id s) (cs_id x) then s :: l
        else x :: add_state s r
    end.

  (** cfsm/mod.rs:84-118: the successors of the state being processed.  [added]
      are the states of the builder, [next_id] the id generator, [pending] the
      queue. *)
  Fixpoint cfsm_groups (fuel : nat) (p : list nat) (g : grammar V T) (added : list cstate)
      (groups : list (nat * (symbol V T * item_set))) (trans : list (symbol V T * nat))
      (next_id : nat) (pending : list cstate)
      : res (list (symbol V T * nat) * nat * list cstate) :=
    match groups with
    | [] => Val (trans, next_id, pending)
    | (i, (s, group)) :: r =>
        let kernel := set_extend (map (fun it => (fst it, advance (snd it))) group) [] in
        let! items := from_incomplete_map fuel (i :: 2 :: p) kernel g in
        match find (fun st => same_items (cs_items st) items) added with
        | Some st => cfsm_groups fuel p g added r (mupdate s 0 (fun _ => cs_id st) trans) next_id pending
        | None =>
            cfsm_groups fuel p g added r (mupdate s 0 (fun _ => next_id) trans) (S next_id)
              (pending ++ [{| cs_id := next_id; cs_items := items; cs_trans := [] |}])
        end
    end.

  (** cfsm/mod.rs:75-121, the work list; [k] counts the iterations. *)
  Fixpoint cfsm_loop (fuel : nat) (k : nat) (p : list nat) (g : grammar V T) (added : list cstate)
      (next_id : nat) (pending : list cstate) : res (list cstate) :=
    match pending with
    | [] => Val added
    | st :: rest =>
        match fuel with
        | 0 => Diverge
        | S fuel' =>
            let! (trans, next_id', pending') :=
              cfsm_groups fuel' (k :: 3 :: p) g added (enumerate (group_items (k :: 3 :: p) (cs_items st)))
                (cs_trans st) next_id rest in
            cfsm_loop fuel' (S k) p g
              (add_state {| cs_id := cs_id st; cs_items := cs_items st; cs_trans := trans |} added)
              next_id' pending'
        end
    end.

  (** cfsm/mod.rs:181-221 [CfsmBuilder::build], with its assertions; the sets
      are only compared. *)
  Definition cfsm_build (start : nat) (states : list cstate) (g : grammar V T) : res cfsm :=
    let ids := map cs_id states in
    let dests := flat_map (fun st => map snd (cs_trans st)) states in
    if memb start ids then
      if forallb (fun i => memb i ids) (start :: dests)
      then Val {| cf_start := start; cf_states := states; cf_grammar := g |}
      else Panic
    else Panic.

  (** cfsm/mod.rs:60-124 [from_grammar], with grammar.rs:385-390
      [get_start_variable_rules]. *)
  Definition from_grammar (fuel : nat) (p : list nat) (g : grammar V T) : res cfsm :=
    let! bds := of_option (get_rule_bodies g (g_start g)) in
    let! items := item_set_from_rules fuel (4 :: p) (g_start g) bds g in
    let! states := cfsm_loop fuel 0 p g [] 1 [{| cs_id := 0; cs_items := items; cs_trans := [] |}] in
    cfsm_build 0 states g.

  (** ** Textual form *)

  (** [slice::join] with one separator. *)
  Fixpoint join (sep : list char) (l : list (list char)) : list char :=
    match l with
    | [] => []
    | x :: r => match r with [] => x | _ => x ++ sep ++ join sep r end
    end.

  Context (show_v : V -> list char) (show_t : T -> list char).

  (** cfsm/dot.rs:82-86: [Debug] of a symbol; the derived [Debug] of
      [Epsilon]. *)
  Definition show_symbol (s : symbol V T) : list char :=
    match s with
    | Ter t => show_t t
    | Var v => show_v v
    | Eps => str "Epsilon"
    end.

  Definition bullet : list char := [8226%N].

  (** cfsm/dot.rs:78-87, the loop over the body. *)
  Fixpoint display_loop (cursor : nat) (bd : body V T) (result : list (list char)) : list (list char) :=
    match bd with
    | [] => result
    | s :: r =>
        let result := if Nat.eqb (length result) cursor then result ++ [bullet] else result in
        display_loop cursor r (result ++ [show_symbol s])
    end.

  (** cfsm/dot.rs:74-94 [Display for ItemBody]. *)
  Definition display_item (ib : item_body) : list char :=
    let result := display_loop (ib_cursor ib) (ib_body ib) [] in
    let result := if Nat.eqb (ib_cursor ib) (length result) then result ++ [bullet] else result in
    join [$" "] result.
End Cfsm.

Arguments item_body : clear implicits.
Arguments item : clear implicits.
Arguments item_set : clear implicits.
Arguments cstate : clear implicits.
Arguments cfsm : clear implicits.
