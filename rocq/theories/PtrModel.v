(** Model of pango-parser/src/cfsm and pango-parser/src/parser with the pointers
    the code really stores: [NonNull<Body>] in items, [NonNull<Symbol>] in
    transitions and [NonNull<T>] in the action table.  CfsmModel.v and SlrModel.v
    have the pointees in their place.  Every use of a pointer goes through the
    heap here, and a pointer that does not point to what its type says is the
    outcome [MDangling] (undefined behaviour in the code). *)
From Verif Require Import Base GrammarModel CfsmModel SlrModel.

(** [res] and undefined behaviour. *)
Inductive mem (A : Type) : Type :=
| MVal (a : A)
| MPanic
| MDiverge
| MDangling.
Arguments MVal {A} a.
Arguments MPanic {A}.
Arguments MDiverge {A}.
Arguments MDangling {A}.

Definition mbind {A B} (x : mem A) (f : A -> mem B) : mem B :=
  match x with
  | MVal a => f a
  | MPanic => MPanic
  | MDiverge => MDiverge
  | MDangling => MDangling
  end.
Notation "'let*' x := e 'in' k" := (mbind e (fun x => k))
  (at level 200, x pattern, e at level 200, k at level 200, right associativity).

(** Code without pointers. *)
Definition safe {A} (r : res A) : mem A :=
  match r with Val a => MVal a | Panic => MPanic | Diverge => MDiverge end.

Fixpoint mmap {A B} (f : A -> mem B) (l : list A) : mem (list B) :=
  match l with
  | [] => MVal []
  | x :: r => let* y := f x in let* r' := mmap f r in MVal (y :: r')
  end.

(** A hash set of pointers is iterated in the order of the hashes of the
    pointees: [vals] are the pointees of [l], [ordered] is their order. *)
Definition reorder {A B} `{DecEq B} (vals : list B) (l : list A) (ordered : list B) : list A :=
  flat_map (fun v => match find (fun e => eqb (fst e) v) (combine vals l) with
                     | Some e => [snd e]
                     | None => []
                     end) ordered.

Section Ptr.
  Context {V T : Type} {dv : DecEq V} {dt : DecEq T}.

  (** ** Memory *)

  (** A block is everything on the heap that belongs to the rules of one [Grammar]:
      the buckets of the map and of the sets and the buffers of the bodies.  They
      stay where they are when the [Grammar] is moved, and nothing changes them
      after [GrammarBuilder::build]; they are freed with the [Grammar]. *)
  Definition heap : Type := nat -> option (rules V T).

  (** A pointer to a body, to a symbol of a body. *)
  Record bptr := { bp_block : nat; bp_rule : nat; bp_body : nat }.
  Record sptr := { sp_body : bptr; sp_index : nat }.

  Variable h : heap.

  Definition load_rules (b : nat) : mem (rules V T) :=
    match h b with Some rs => MVal rs | None => MDangling end.

  (** cfsm/item.rs:30-34 [get_body]: [self.body.as_ref()]. *)
  Definition load_body (p : bptr) : mem (body V T) :=
    let* rs := load_rules (bp_block p) in
    match nth_error rs (bp_rule p) with
    | None => MDangling
    | Some (_, bds) => match nth_error bds (bp_body p) with Some bd => MVal bd | None => MDangling end
    end.

  (** cfsm/state.rs:71-77 [WSymbol::as_ref]. *)
  Definition load_symbol (p : sptr) : mem (symbol V T) :=
    let* bd := load_body (sp_body p) in
    match nth_error bd (sp_index p) with Some s => MVal s | None => MDangling end.

  (** [t.as_ref()] in parser/table.rs:204, 226 and 244: the terminal inside a
      symbol. *)
  Definition load_terminal (p : sptr) : mem T :=
    let* s := load_symbol p in
    match s with Ter t => MVal t | _ => MDangling end.

  (** ** Items *)

  (** cfsm/item.rs:14-17 [ItemBody]. *)
  Definition pitem_body : Type := bptr * nat.
  Definition pitem : Type := V * pitem_body.

  Definition load_item_body (ib : pitem_body) : mem (item_body V T) :=
    let* bd := load_body (fst ib) in MVal {| ib_body := bd; ib_cursor := snd ib |}.

  Definition load_item (it : pitem) : mem (item V T) :=
    let* ib := load_item_body (snd it) in MVal (fst it, ib).

  (** cfsm/item.rs:172-186 [From<&Body> for ItemBody]. *)
  Definition p_item_from (p : bptr) : mem pitem_body :=
    let* bd := load_body p in MVal (p, eps_count bd).

  (** cfsm/item.rs:37-39 [get_cursor_symbol]: the reference and the symbol. *)
  Definition p_cursor_symbol (ib : pitem_body) : mem (option (sptr * symbol V T)) :=
    let* bd := load_body (fst ib) in
    match nth_error bd (snd ib) with
    | Some s => MVal (Some ({| sp_body := fst ib; sp_index := snd ib |}, s))
    | None => MVal None
    end.

  (** cfsm/item.rs:43-49 [get_cursor_variable]. *)
  Definition p_cursor_variable (ib : pitem_body) : mem (option V) :=
    let* o := p_cursor_symbol ib in
    match o with
    | Some (_, Var v) => MVal (Some v)
    | Some (_, Ter _) => MVal None
    | Some (_, Eps) => MPanic
    | None => MVal None
    end.

  (** cfsm/item.rs:63-75 [advance]. *)
  Definition p_advance (ib : pitem_body) : mem pitem_body :=
    let* bd := load_body (fst ib) in
    let c := snd ib + (1 + eps_count (skipn (snd ib + 1) bd)) in
    MVal (fst ib, Nat.min c (length bd)).

  (** [HashSet::contains] and [insert] on items; hashing and comparing load the
      bodies (cfsm/item.rs:219-239).  All of them are loaded here, in the code
      those with equal hashes. *)
  Definition p_memb (it : pitem) (l : list pitem) : mem bool :=
    let* v := load_item it in
    let* vs := mmap load_item l in
    MVal (memb v vs).
  Definition p_set_insert (it : pitem) (l : list pitem) : mem (list pitem) :=
    let* b := p_memb it l in
    MVal (if b then l else l ++ [it]).
  Fixpoint p_set_extend (its l : list pitem) : mem (list pitem) :=
    match its with
    | [] => MVal l
    | it :: r => let* l' := p_set_insert it l in p_set_extend r l'
    end.

  (** Iteration over a set of items. *)
  Context {ho : HashOrder}.
  Definition p_iter (k : list nat) (l : list pitem) : mem (list pitem) :=
    let* vs := mmap load_item l in
    MVal (reorder vs l (hash_at k vs)).

  (** cfsm/item.rs:203-211 [PartialEq for ItemSet]. *)
  Definition p_same_items (x y : list pitem) : mem bool :=
    let* vx := mmap load_item x in
    let* vy := mmap load_item y in
    MVal (same_items vx vy).

  (** ** Item sets *)

  (** The grammar in block [b]. *)
  Variable start : V.
  Variable b : nat.

  (** grammar.rs:71-73 [get_rule_bodies]: references to the bodies in the block. *)
  Fixpoint rule_index (v : V) (rs : rules V T) : option (nat * nat) :=
    match rs with
    | [] => None
    | (v', bds) :: r => if eqb v v' then Some (0, length bds)
                        else match rule_index v r with Some (i, n) => Some (S i, n) | None => None end
    end.
  Definition p_rule_bodies (v : V) : mem (option (list bptr)) :=
    let* rs := load_rules b in
    MVal match rule_index v rs with
         | Some (i, n) => Some (map (fun j => {| bp_block := b; bp_rule := i; bp_body := j |}) (seq 0 n))
         | None => None
         end.

  (** Iteration over the set of bodies. *)
  Definition p_iter_bodies (k : list nat) (ps : list bptr) : mem (list bptr) :=
    let* bds := mmap load_body ps in
    MVal (reorder bds ps (hash_at k bds)).

  (** cfsm/item.rs:150-158. *)
  Fixpoint p_closure_insert (head : V) (ibs queue : list pitem_body) (items : list pitem)
      : mem (list pitem_body * list pitem) :=
    match ibs with
    | [] => MVal (queue, items)
    | ib :: r =>
        let* m := p_memb (head, ib) items in
        if m : bool then p_closure_insert head r queue items
        else p_closure_insert head r (queue ++ [ib]) (items ++ [(head, ib)])
    end.

  (** cfsm/item.rs:140-159. *)
  Fixpoint p_items_loop (fuel : nat) (k : nat) (p : list nat) (queue : list pitem_body) (items : list pitem)
      : mem (list pitem) :=
    match queue with
    | [] => MVal items
    | ib :: rest =>
        match fuel with
        | 0 => MDiverge
        | S fuel' =>
            let* cv := p_cursor_variable ib in
            match cv with
            | None => p_items_loop fuel' (S k) p rest items
            | Some head =>
                let* o := p_rule_bodies head in
                let* ps := safe (of_option o) in
                let* ps' := p_iter_bodies (k :: 1 :: p) ps in
                let* ibs := mmap p_item_from ps' in
                let* (queue', items') := p_closure_insert head ibs rest items in
                p_items_loop fuel' (S k) p queue' items'
            end
        end
    end.

  (** cfsm/item.rs:133-162 [from_incomplete_map]. *)
  Definition p_from_incomplete_map (fuel : nat) (p : list nat) (items : list pitem) : mem (list pitem) :=
    let* its := p_iter (0 :: p) items in
    p_items_loop fuel 0 p (map snd its) items.

  (** cfsm/item.rs:245-248. *)
  Definition p_item_set_from_rules (fuel : nat) (p : list nat) (head : V) (ps : list bptr) : mem (list pitem) :=
    let* ibs := mmap p_item_from ps in
    p_from_incomplete_map fuel p (map (pair head) ibs).

  (** cfsm/item.rs:95-105: the group of a symbol gets an item.  The key stays the
      reference it was first made with. *)
  Fixpoint p_group_insert (ps : sptr) (s : symbol V T) (it : pitem) (groups : list (sptr * list pitem))
      : mem (list (sptr * list pitem)) :=
    match groups with
    | [] => let* l := p_set_insert it [] in MVal [(ps, l)]
    | (ps', its) :: r =>
        let* s' := load_symbol ps' in
        if eqb s s' then let* its' := p_set_insert it its in MVal ((ps', its') :: r)
        else let* r' := p_group_insert ps s it r in MVal ((ps', its) :: r')
    end.

  Fixpoint p_group_loop (items : list pitem) (groups : list (sptr * list pitem)) : mem (list (sptr * list pitem)) :=
    match items with
    | [] => MVal groups
    | it :: r =>
        let* o := p_cursor_symbol (snd it) in
        match o with
        | None => p_group_loop r groups
        | Some (ps, s) => let* groups' := p_group_insert ps s it groups in p_group_loop r groups'
        end
    end.

  Definition load_group (e : sptr * list pitem) : mem (symbol V T * item_set V T) :=
    let* s := load_symbol (fst e) in
    let* its := mmap load_item (snd e) in
    MVal (s, its).

  (** cfsm/item.rs:85-110 [iter_by_cursor_symbol]. *)
  Definition p_group_items (p : list nat) (items : list pitem) : mem (list (sptr * list pitem)) :=
    let* its := p_iter (0 :: p) items in
    let* groups := p_group_loop its [] in
    let* vs := mmap load_group groups in
    MVal (reorder vs groups (hash_at (1 :: p) vs)).

  (** ** Automaton *)

  (** cfsm/state.rs:12-19 [State]. *)
  Record pstate := { pc_id : nat; pc_items : list pitem; pc_trans : list (sptr * nat) }.

  (** [transitions.insert] and [get], by the symbols pointed to (cfsm/state.rs:93-112). *)
  Fixpoint p_trans_insert (ps : sptr) (d : nat) (tr : list (sptr * nat)) : mem (list (sptr * nat)) :=
    match tr with
    | [] => MVal [(ps, d)]
    | (ps', d') :: r =>
        let* s := load_symbol ps in
        let* s' := load_symbol ps' in
        if eqb s s' then MVal ((ps', d) :: r) else let* r' := p_trans_insert ps d r in MVal ((ps', d') :: r')
    end.
  Fixpoint p_trans_get (ps : sptr) (tr : list (sptr * nat)) : mem (option nat) :=
    match tr with
    | [] => MVal None
    | (ps', d) :: r =>
        let* s := load_symbol ps in
        let* s' := load_symbol ps' in
        if eqb s s' then MVal (Some d) else p_trans_get ps r
    end.

  (** cfsm/mod.rs:161-163 [add_state]; states are compared by id. *)
  Fixpoint p_add_state (s : pstate) (l : list pstate) : list pstate :=
    match l with
    | [] => [s]
    | x :: r =>
        if Nat.eqb (pc_id s) (pc_id x) then l
        else if Nat.ltb (pc_id s) (pc_id x) then s :: l
        else x :: p_add_state s r
    end.

  Fixpoint p_find_state (items : list pitem) (l : list pstate) : mem (option nat) :=
    match l with
    | [] => MVal None
    | st :: r =>
        let* e := p_same_items (pc_items st) items in
        if e : bool then MVal (Some (pc_id st)) else p_find_state items r
    end.

  Definition p_advance_item (it : pitem) : mem pitem :=
    let* ib := p_advance (snd it) in MVal (fst it, ib).

  (** cfsm/mod.rs:84-118. *)
  Fixpoint p_cfsm_groups (fuel : nat) (p : list nat) (added : list pstate) (groups : list (nat * (sptr * list pitem)))
      (trans : list (sptr * nat)) (next_id : nat) (pending : list pstate)
      : mem (list (sptr * nat) * nat * list pstate) :=
    match groups with
    | [] => MVal (trans, next_id, pending)
    | (i, (ps, group)) :: r =>
        let* moved := mmap p_advance_item group in
        let* kernel := p_set_extend moved [] in
        let* items := p_from_incomplete_map fuel (i :: 2 :: p) kernel in
        let* o := p_find_state items added in
        match o with
        | Some id =>
            let* trans' := p_trans_insert ps id trans in
            p_cfsm_groups fuel p added r trans' next_id pending
        | None =>
            let* trans' := p_trans_insert ps next_id trans in
            p_cfsm_groups fuel p added r trans' (S next_id)
              (pending ++ [{| pc_id := next_id; pc_items := items; pc_trans := [] |}])
        end
    end.

  (** cfsm/mod.rs:75-121. *)
  Fixpoint p_cfsm_loop (fuel : nat) (k : nat) (p : list nat) (added : list pstate) (next_id : nat) (pending : list pstate)
      : mem (list pstate) :=
    match pending with
    | [] => MVal added
    | st :: rest =>
        match fuel with
        | 0 => MDiverge
        | S fuel' =>
            let* groups := p_group_items (k :: 3 :: p) (pc_items st) in
            let* (trans, next_id', pending') :=
              p_cfsm_groups fuel' (k :: 3 :: p) added (enumerate groups) (pc_trans st) next_id rest in
            p_cfsm_loop fuel' (S k) p
              (p_add_state {| pc_id := pc_id st; pc_items := pc_items st; pc_trans := trans |} added)
              next_id' pending'
        end
    end.

  (** cfsm/mod.rs:181-221 [CfsmBuilder::build]. *)
  Definition p_cfsm_build (first : nat) (states : list pstate) : mem (list pstate) :=
    let ids := map pc_id states in
    let dests := flat_map (fun st => map snd (pc_trans st)) states in
    if memb first ids then
      if forallb (fun i => memb i ids) (first :: dests) then MVal states else MPanic
    else MPanic.

  (** cfsm/mod.rs:60-124 [from_grammar]: the grammar has been moved into the
      pinned box, its block is [b]. *)
  Definition p_from_grammar (fuel : nat) (p : list nat) : mem (list pstate) :=
    let* o := p_rule_bodies start in
    let* ps := safe (of_option o) in
    let* items := p_item_set_from_rules fuel (4 :: p) start ps in
    let* states := p_cfsm_loop fuel 0 p [] 1 [{| pc_id := 0; pc_items := items; pc_trans := [] |}] in
    p_cfsm_build 0 states.

  (** ** Parse table *)

  Context (teq : T -> T -> bool).

  (** parser/table.rs:26-29 [Terminal]: [None] is [Eof]. *)
  Definition pkey : Type := option sptr.
  Definition load_key (k : pkey) : mem (key T) :=
    match k with Some p => let* t := load_terminal p in MVal (Some t) | None => MVal None end.

  (** [HashMap::get] with the key of a token or of the table. *)
  Fixpoint p_row_get (k : key T) (row : list (pkey * action V)) : mem (option (action V)) :=
    match row with
    | [] => MVal None
    | (k', a) :: r =>
        let* v := load_key k' in
        if key_eq teq k v then MVal (Some a) else p_row_get k r
    end.

  Definition p_action_table : Type := list (list (pkey * action V)).

  (** parser/table.rs:140-164 [insert_action]. *)
  Definition p_insert_action (s : nat) (k : pkey) (a : action V) (tb : p_action_table) : mem (option p_action_table) :=
    let tb := resize s tb in
    let row := nth s tb [] in
    let* v := load_key k in
    let* o := p_row_get v row in
    match o with
    | Some _ => MVal None
    | None => MVal (Some (set_row s (row ++ [(k, a)]) tb))
    end.

  (** [follow_set] (grammar.rs:288-375) is safe code that returns references into
      the grammar; [refs v t] is the one for the terminal [t] in the set of [v].
      Which of the symbols equal to [t] it points to is left open. *)
  Variable refs : V -> T -> sptr.

  (** parser/table.rs:87-105. *)
  Fixpoint p_insert_reduces (s : nat) (head : V) (amount : nat) (follow : list (symbol V T)) (tb : p_action_table)
      : mem (option p_action_table) :=
    match follow with
    | [] => MVal (Some tb)
    | Ter t :: r =>
        let* o := p_insert_action s (Some (refs head t)) (Reduce head amount) tb in
        match o with
        | Some tb' => p_insert_reduces s head amount r tb'
        | None => MVal None
        end
    | Var _ :: _ => MPanic
    | Eps :: r => p_insert_reduces s head amount r tb
    end.

  (** parser/table.rs:60-125. *)
  Fixpoint p_table_items (p : list nat) (fs : list (V * list (symbol V T))) (st : pstate) (items : list (nat * pitem))
      (tbs : p_action_table * goto_table (V := V)) : mem (option (p_action_table * goto_table (V := V))) :=
    match items with
    | [] => MVal (Some tbs)
    | (i, (head, ib)) :: r =>
        let* o := p_cursor_symbol ib in
        match o with
        | Some (ps, Ter t) =>
            let* od := p_trans_get ps (pc_trans st) in
            let* d := safe (of_option od) in
            let* oa := p_insert_action (pc_id st) (Some ps) (Shift d) (fst tbs) in
            match oa with
            | Some ac => p_table_items p fs st r (ac, snd tbs)
            | None => MVal None
            end
        | Some (ps, Var v) =>
            let* od := p_trans_get ps (pc_trans st) in
            let* d := safe (of_option od) in
            let* gt := safe (insert_goto (pc_id st) v d (snd tbs)) in
            p_table_items p fs st r (fst tbs, gt)
        | None =>
            match mget head fs with
            | None => p_table_items p fs st r tbs
            | Some follow =>
                let* bd := load_body (fst ib) in
                let* oa := p_insert_reduces (pc_id st) head (length bd) (hash_at (i :: p) follow) (fst tbs) in
                match oa with
                | None => MVal None
                | Some ac =>
                    if eqb head start then
                      let* ob := p_insert_action (pc_id st) None (Accept head (length bd)) ac in
                      match ob with
                      | Some ac' => p_table_items p fs st r (ac', snd tbs)
                      | None => MVal None
                      end
                    else p_table_items p fs st r (ac, snd tbs)
                end
            end
        | Some (_, Eps) => MPanic
        end
    end.

  (** parser/table.rs:54-126. *)
  Fixpoint p_table_states (p : list nat) (fs : list (V * list (symbol V T))) (sts : list pstate)
      (tbs : p_action_table * goto_table (V := V)) : mem (option (p_action_table * goto_table (V := V))) :=
    match sts with
    | [] => MVal (Some tbs)
    | st :: r =>
        let* its := p_iter (0 :: pc_id st :: p) (pc_items st) in
        let* o := p_table_items (1 :: pc_id st :: p) fs st (enumerate its) tbs in
        match o with
        | None => MVal None
        | Some tbs' => p_table_states p fs r tbs'
        end
    end.

  (** parser/table.rs:10-14 [ParseTable]; the [Cfsm] it keeps owns the block. *)
  Record ptable := { pt_action : p_action_table; pt_goto : goto_table (V := V); pt_start : V; pt_states : list pstate; pt_block : nat }.

  (** parser/table.rs:46-133 [new_slr]. *)
  Definition p_new_slr (fuel : nat) (p : list nat) (states : list pstate) : mem (option ptable) :=
    let* rs := load_rules b in
    let* fs := safe (follow_set fuel (0 :: p) {| g_start := start; g_rules := rs |}) in
    let* o := p_table_states (1 :: p) fs states ([], []) in
    match o with
    | None => MVal None
    | Some (ac, gt) => MVal (Some {| pt_action := ac; pt_goto := gt; pt_start := start; pt_states := states; pt_block := b |})
    end.

  (** parser/slr.rs:30-36 [Slr::new]. *)
  Definition p_slr_new (fuel : nat) (p : list nat) : mem ptable :=
    let* states := p_from_grammar fuel (0 :: p) in
    let* o := p_new_slr fuel (1 :: p) states in
    safe (of_option o).

  (** ** Parsing *)

  (** parser/slr.rs:92-171 [handle_token]. *)
  Definition p_handle_token (tb : ptable) (token : option T) (stack : list (parse_node V T)) (cur : nat)
      : mem (option (option T * list (parse_node V T) * parse_node V T * bool)) :=
    let* row := safe (of_option (nth_error (pt_action tb) cur)) in
    let* o := p_row_get token row in
    match o with
    | None => MVal None
    | Some (Shift d) =>
        let* t := safe (of_option token) in
        MVal (Some (None, stack, (Node (Ter t) [], d), false))
    | Some (Reduce v amount) =>
        let* (popped, rest) := safe (drain amount stack) in
        let* top := safe (of_option (hd_error rest)) in
        let* grow := safe (of_option (nth_error (pt_goto tb) (snd top))) in
        match mget v grow with
        | None => MVal None
        | Some d => MVal (Some (token, rest, (Node (Var v) (map fst popped), d), false))
        end
    | Some (Accept v amount) =>
        let* (popped, rest) := safe (drain amount stack) in
        MVal (Some (token, rest, (Node (Var v) (map fst popped), 0), true))
    end.

  (** parser/slr.rs:73-89. *)
  Fixpoint p_eof_loop (fuel : nat) (tb : ptable) (stack : list (parse_node V T)) (cur : nat) : mem (option (node V T)) :=
    match fuel with
    | 0 => MDiverge
    | S fuel' =>
        let* o := p_handle_token tb None stack cur in
        match o with
        | None => MVal None
        | Some (_, stack', pn, accept) =>
            if accept then MVal (Some (fst pn)) else p_eof_loop fuel' tb (pn :: stack') (snd pn)
        end
    end.

  (** parser/slr.rs:58-71, on a list of tokens. *)
  Fixpoint p_parse_loop (fuel : nat) (tb : ptable) (inp : list T) (tok : option T) (stack : list (parse_node V T)) (cur : nat)
      : mem (option (node V T)) :=
    match fuel with
    | 0 => MDiverge
    | S fuel' =>
        let* (tok', inp') := match tok with Some t => MVal (Some t, inp) | None => safe (next_of_list inp) end in
        match tok' with
        | None => p_eof_loop fuel' tb stack cur
        | Some t =>
            let* o := p_handle_token tb (Some t) stack cur in
            match o with
            | None => MVal None
            | Some (tok2, stack', pn, accept) =>
                if accept then MVal (Some (fst pn))
                else p_parse_loop fuel' tb inp' tok2 (pn :: stack') (snd pn)
            end
        end
    end.

  (** parser/slr.rs:44-90 [Slr::parse]. *)
  Definition p_parse (fuel : nat) (tb : ptable) (ts : list T) : mem (option (node V T)) :=
    p_parse_loop fuel tb ts None [(Node (Var (pt_start tb)) [], 0)] 0.
End Ptr.

Arguments heap : clear implicits.
Arguments ptable : clear implicits.
Arguments pstate : clear implicits.
Arguments pitem : clear implicits.
