(** Model of pango-parser/src/parser and pango-parser/src/cst.rs. *)
From Verif Require Import Base GrammarModel CfsmModel.

(** cst.rs:11-14 [Node]. *)
Inductive node (V T : Type) : Type := Node (s : symbol V T) (children : list (node V T)).
Arguments Node {V T} s children.

Section Slr.
  Context {V T : Type} {dv : DecEq V} {dt : DecEq T}.

  (** parser/traits.rs:3-5 [TerminalEq::terminal_eq]. *)
  Context (teq : T -> T -> bool).

  (** parser/table.rs:20-24 [ActionKind]. *)
  Inductive action :=
  | Shift (dest : nat)
  | Reduce (v : V) (amount : nat)
  | Accept (v : V) (amount : nat).

  (** parser/table.rs:26-29 [Terminal]: [None] is [Eof].  Equality is lines
      217-232; [terminal_hash] is assumed to agree with it. *)
  Definition key := option T.
  Definition key_eq (x y : key) : bool :=
    match x, y with
    | Some a, Some b => teq a b
    | None, None => true
    | _, _ => false
    end.

  (** parser/table.rs:10-17 [ParseTable]. *)
  Definition action_table := list (list (key * action)).
  Definition goto_table := list (list (V * nat)).
  Record table := { tb_action : action_table; tb_goto : goto_table; tb_grammar : grammar V T }.

  (** [HashMap::get] on a row of the action table. *)
  Fixpoint row_get (k : key) (row : list (key * action)) : option action :=
    match row with
    | [] => None
    | (k', a) :: r => if key_eq k k' then Some a else row_get k r
    end.

  (** [Vec::resize_with(n + 1, Default::default)] when the vector is shorter. *)
  Definition resize {A} (n : nat) (l : list (list A)) : list (list A) :=
    l ++ repeat [] (S n - length l).

  Definition set_row {A} (n : nat) (row : list A) (l : list (list A)) : list (list A) :=
    firstn n l ++ row :: skipn (S n) l.

  (** parser/table.rs:140-164 [insert_action]; [None] is [Err]. *)
  Definition insert_action (s : nat) (k : key) (a : action) (tb : action_table) : option action_table :=
    let tb := resize s tb in
    let row := nth s tb [] in
    match row_get k row with
    | Some _ => None
    | None => Some (set_row s (row ++ [(k, a)]) tb)
    end.

  (** parser/table.rs:171-190 [insert_goto]; the assertion of debug builds is
      always checked here. *)
  Definition insert_goto (s : nat) (v : V) (d : nat) (tb : goto_table) : res goto_table :=
    let tb := resize s tb in
    let row := nth s tb [] in
    let tb' := set_row s (mupdate v 0 (fun _ => d) row) tb in
    match mget v row with
    | Some d' => if Nat.eqb d' d then Val tb' else Panic
    | None => Val tb'
    end.

  Context {ho : HashOrder}.

  (** parser/table.rs:87-105: one reduce per symbol of the FOLLOW set. *)
  Fixpoint insert_reduces (s : nat) (head : V) (amount : nat) (follow : list (symbol V T)) (tb : action_table)
      : res (option action_table) :=
    match follow with
    | [] => Val (Some tb)
    | Ter t :: r =>
        match insert_action s (Some t) (Reduce head amount) tb with
        | Some tb' => insert_reduces s head amount r tb'
        | None => Val None
        end
    | Var _ :: _ => Panic
    | Eps :: r => insert_reduces s head amount r tb
    end.

  (** parser/table.rs:60-125: the items of one state, [None] for [Err].  [p]
      names the state; the index of the item names the iteration over the
      FOLLOW set. *)
  Fixpoint table_items (p : list nat) (g : grammar V T) (fs : list (V * list (symbol V T))) (st : cstate V T)
      (items : list (nat * item V T)) (tbs : action_table * goto_table)
      : res (option (action_table * goto_table)) :=
    match items with
    | [] => Val (Some tbs)
    | (i, (head, ib)) :: r =>
        match cursor_symbol ib with
        | Some (Ter t) =>
            let! d := of_option (mget (Ter t) (cs_trans st)) in
            match insert_action (cs_id st) (Some t) (Shift d) (fst tbs) with
            | Some ac => table_items p g fs st r (ac, snd tbs)
            | None => Val None
            end
        | Some (Var v) =>
            let! d := of_option (mget (Var v) (cs_trans st)) in
            let! gt := insert_goto (cs_id st) v d (snd tbs) in
            table_items p g fs st r (fst tbs, gt)
        | None =>
            match mget head fs with
            | None => table_items p g fs st r tbs
            | Some follow =>
                let! ac := insert_reduces (cs_id st) head (length (ib_body ib)) (hash_at (i :: p) follow) (fst tbs) in
                match ac with
                | None => Val None
                | Some ac =>
                    if eqb head (g_start g) then
                      match insert_action (cs_id st) None (Accept head (length (ib_body ib))) ac with
                      | Some ac' => table_items p g fs st r (ac', snd tbs)
                      | None => Val None
                      end
                    else table_items p g fs st r (ac, snd tbs)
                end
            end
        | Some Eps => Panic
        end
    end.

  (** parser/table.rs:54-126: all states, in the order of their ids. *)
  Fixpoint table_states (p : list nat) (g : grammar V T) (fs : list (V * list (symbol V T)))
      (sts : list (cstate V T)) (tbs : action_table * goto_table) : res (option (action_table * goto_table)) :=
    match sts with
    | [] => Val (Some tbs)
    | st :: r =>
        let! o := table_items (1 :: cs_id st :: p) g fs st
                    (enumerate (hash_at (0 :: cs_id st :: p) (cs_items st))) tbs in
        match o with
        | None => Val None
        | Some tbs' => table_states p g fs r tbs'
        end
    end.

  (** parser/table.rs:46-133 [new_slr]. *)
  Definition new_slr (fuel : nat) (p : list nat) (c : cfsm V T) : res (option table) :=
    let! fs := follow_set fuel (0 :: p) (cf_grammar c) in
    let! o := table_states (1 :: p) (cf_grammar c) fs (cf_states c) ([], []) in
    match o with
    | None => Val None
    | Some (ac, gt) => Val (Some {| tb_action := ac; tb_goto := gt; tb_grammar := cf_grammar c |})
    end.

  (** parser/slr.rs:30-36 [Slr::new]. *)
  Definition slr_new (fuel : nat) (p : list nat) (g : grammar V T) : res table :=
    let! c := from_grammar fuel (0 :: p) g in
    let! o := new_slr fuel (1 :: p) c in
    of_option o.

  (** ** Parsing *)

  (** parser/slr.rs:20-23 [ParseNode]; the stack has its top first. *)
  Definition parse_node : Type := node V T * nat.

  (** [stack.drain(len - amount ..)]: top first, as the [rev] of lines 125 and
      155 delivers them, and the rest of the stack. *)
  Definition drain (amount : nat) (stack : list parse_node) : res (list parse_node * list parse_node) :=
    if Nat.leb amount (length stack) then Val (firstn amount stack, skipn amount stack) else Panic.

  (** parser/slr.rs:92-171 [handle_token]: the token left over, the stack left
      over, the new node and whether to accept; [None] is [Err]. *)
  Definition handle_token (tb : table) (token : option T) (stack : list parse_node) (cur : nat)
      : res (option (option T * list parse_node * parse_node * bool)) :=
    let! row := of_option (nth_error (tb_action tb) cur) in
    match row_get token row with
    | None => Val None
    | Some (Shift d) =>
        let! t := of_option token in
        Val (Some (None, stack, (Node (Ter t) [], d), false))
    | Some (Reduce v amount) =>
        let! (popped, rest) := drain amount stack in
        let! top := of_option (hd_error rest) in
        let! grow := of_option (nth_error (tb_goto tb) (snd top)) in
        match mget v grow with
        | None => Val None
        | Some d => Val (Some (token, rest, (Node (Var v) (map fst popped), d), false))
        end
    | Some (Accept v amount) =>
        let! (popped, rest) := drain amount stack in
        Val (Some (token, rest, (Node (Var v) (map fst popped), 0), true))
    end.

  (** parser/slr.rs:73-89: the loop at the end of the input. *)
  Fixpoint eof_loop (fuel : nat) (tb : table) (stack : list parse_node) (cur : nat) : res (option (node V T)) :=
    match fuel with
    | 0 => Diverge
    | S fuel' =>
        let! o := handle_token tb None stack cur in
        match o with
        | None => Val None
        | Some (_, stack', pn, accept) =>
            if accept then Val (Some (fst pn)) else eof_loop fuel' tb (pn :: stack') (snd pn)
        end
    end.

  (** parser/slr.rs:58-71: the loop over the tokens.  The lexer is any state
      machine [next]; [tok] is [next_token]. *)
  Fixpoint parse_loop {L} (next : L -> res (option T * L)) (fuel : nat) (tb : table) (inp : L) (tok : option T)
      (stack : list parse_node) (cur : nat) : res (option (node V T)) :=
    match fuel with
    | 0 => Diverge
    | S fuel' =>
        let! (tok', inp') := match tok with Some t => Val (Some t, inp) | None => next inp end in
        match tok' with
        | None => eof_loop fuel' tb stack cur
        | Some t =>
            let! o := handle_token tb (Some t) stack cur in
            match o with
            | None => Val None
            | Some (tok2, stack', pn, accept) =>
                if accept then Val (Some (fst pn))
                else parse_loop next fuel' tb inp' tok2 (pn :: stack') (snd pn)
            end
        end
    end.

  (** parser/slr.rs:44-90 [Slr::parse]; [Val None] is [Err(())]. *)
  Definition parse_from {L} (next : L -> res (option T * L)) (fuel : nat) (tb : table) (inp : L)
      : res (option (node V T)) :=
    parse_loop next fuel tb inp None [(Node (Var (g_start (tb_grammar tb))) [], 0)] 0.

  (** [parse] on a lexer that delivers the given token kinds and then ends. *)
  Definition next_of_list (l : list T) : res (option T * list T) :=
    match l with
    | [] => Val (None, [])
    | t :: r => Val (Some t, r)
    end.
  Definition parse (fuel : nat) (tb : table) (ts : list T) : res (option (node V T)) :=
    parse_from next_of_list fuel tb ts.
End Slr.

Arguments action : clear implicits.
Arguments key : clear implicits.
Arguments table : clear implicits.
Arguments parse_node : clear implicits.
