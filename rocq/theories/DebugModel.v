(** Model of the [Debug] text of tokens, parse results, grammars and parsers: the
    derived and the hand written implementations of both crates, on top of the
    debug builders of the standard library.  [Debug] is the only way a user can
    look at a [Cst]: its field is not public. *)
From Verif Require Import Base RegexModel NfaModel LexerModel DotModel GrammarModel CfsmModel SlrModel.

(** The calls a [Debug] implementation makes on the debug builders: a text
    written as it is, or the entries given to [debug_struct] ([Fields]),
    [debug_tuple] ([Round]), [debug_list] ([Square]) and [debug_map] or
    [debug_set] ([Curly]).  An entry is labelled by the name of a field or by the
    key of a map.  The unit value is the tuple without name and entries.  [Flat] is
    a value written by [write!] in the form [{:?}], whatever form was asked for.
    Not modelled: structs without fields, and tuples without name with one entry
    (the library writes those differently; the code has none). *)
Inductive brackets := Fields | Round | Square | Curly.
Inductive dbg :=
| Atom (w : list char)
| Group (name : list char) (b : brackets) (entries : list (option dbg * dbg))
| Flat (d : dbg).

(** ** [{:?}] (standard library: fmt/builders.rs) *)

Definition opening (b : brackets) : list char :=
  match b with Fields => str " { " | Round => str "(" | Square => str "[" | Curly => str "{" end.
Definition closing (b : brackets) : list char :=
  match b with Fields => str " }" | Round => str ")" | Square => str "]" | Curly => str "}" end.

Fixpoint plain (d : dbg) : list char :=
  match d with
  | Atom w => w
  | Group name b entries =>
      name ++ opening b ++
      join (str ", ") (map (fun e => match e with
                                     | (Some l, v) => plain l ++ str ": " ++ plain v
                                     | (None, v) => plain v
                                     end) entries) ++
      closing b
  | Flat d => plain d
  end.

(** ** [{:#?}] (standard library: fmt/builders.rs) *)

(** [PadAdapter::write_str]: four spaces in front of every line. *)
Fixpoint pad_from (on_newline : bool) (w : list char) : list char :=
  match w with
  | [] => []
  | c :: r => (if on_newline then str "    " else []) ++ c :: pad_from (c =? 10)%N r
  end.

Definition opening_alt (b : brackets) : list char :=
  match b with Fields => str " {" | Round => str "(" | Square => str "[" | Curly => str "{" end.
Definition closing_alt (b : brackets) : list char :=
  match b with Fields => str "}" | Round => str ")" | Square => str "]" | Curly => str "}" end.

(** Every entry is written through a new [PadAdapter], with a comma and a
    newline behind it. *)
Fixpoint pretty (d : dbg) : list char :=
  match d with
  | Atom w => w
  | Group name b [] => name ++ opening_alt b ++ closing_alt b
  | Group name b entries =>
      name ++ opening_alt b ++ [10%N] ++
      concat (map (fun e => pad_from true (match e with
                                           | (Some l, v) => pretty l ++ str ": " ++ pretty v
                                           | (None, v) => pretty v
                                           end ++ [$","; 10%N])) entries) ++
      closing_alt b
  | Flat d => plain d
  end.

(** The builders, as the derived implementations call them. *)
Definition dstruct (name : list char) (fields : list (list char * dbg)) : dbg :=
  Group name Fields (map (fun f => (Some (Atom (fst f)), snd f)) fields).
Definition dtuple (name : list char) (args : list dbg) : dbg := Group name Round (map (fun d => (None, d)) args).
Definition dlist (l : list dbg) : dbg := Group [] Square (map (fun d => (None, d)) l).
Definition dset (l : list dbg) : dbg := Group [] Curly (map (fun d => (None, d)) l).
Definition dmap (l : list (dbg * dbg)) : dbg := Group [] Curly (map (fun e => (Some (fst e), snd e)) l).

(** [Debug for usize]. *)
Definition dbg_nat (n : nat) : dbg := Atom (show_id n).

(** ** Tokens of the lexer *)

Section Tokens.
  (** The Unicode table behind [char::escape_debug], as in [show_char]. *)
  Context (printable : char -> bool) {K : Type} (dbg_k : K -> dbg).

  (** [char::escape_debug_ext] (standard library), where only the quote [q] is
      escaped. *)
  Definition escape (q : char) (c : char) : list char :=
    if (c =? 0)%N then str "\0"
    else if (c =? 9)%N then str "\t"
    else if (c =? 10)%N then str "\n"
    else if (c =? 13)%N then str "\r"
    else if (c =? 92)%N then str "\\"
    else if (c =? q)%N then [92%N; q]
    else if printable c then [c]
    else str "\u{" ++ hex_digits (S (N.to_nat (N.log2 c))) c [] ++ str "}".

  (** [Debug for str] (standard library). *)
  Definition dbg_str (w : list char) : dbg := Atom (34%N :: flat_map (escape 34) w ++ [34%N]).

  (** lexer/mod.rs:40-49: derived for [Token]. *)
  Definition dbg_token (t : ltoken K) : dbg :=
    dstruct (str "Token")
      [(str "kind", dbg_k (lt_kind t));
       (str "source", dbg_str (lt_source t));
       (str "pos", dtuple [] [dbg_nat (fst (lt_pos t)); dbg_nat (snd (lt_pos t))])].
End Tokens.

Section Debug.
  Context {V T : Type}.

  (** The [Debug] implementations of the user's variables and terminals. *)
  Context (dbg_v : V -> dbg) (dbg_t : T -> dbg).

  (** lib.rs:15-20: derived for [Symbol]. *)
  Definition dbg_symbol (s : symbol V T) : dbg :=
    match s with
    | Ter t => dtuple (str "Terminal") [dbg_t t]
    | Var v => dtuple (str "Variable") [dbg_v v]
    | Eps => Atom (str "Epsilon")
    end.

  (** cst.rs:10-15: derived for [Node]. *)
  Fixpoint dbg_node (n : node V T) : dbg :=
    match n with
    | Node s children =>
        dstruct (str "Node") [(str "symbol", dbg_symbol s); (str "children", dlist (map dbg_node children))]
    end.

  (** cst.rs:3-7: derived for [Cst], and [Debug] of [Result<Cst, ()>], the
      result of parser/slr.rs:44 [Slr::parse]. *)
  Definition dbg_result (r : option (node V T)) : dbg :=
    match r with
    | Some n => dtuple (str "Ok") [dstruct (str "Cst") [(str "root", dbg_node n)]]
    | None => dtuple (str "Err") [dtuple [] []]
    end.

  Definition dbg_body (bd : body V T) : dbg := dlist (map dbg_symbol bd).

  Context {ho : HashOrder}.

  (** grammar.rs:15-21: derived for [Grammar]; [p] names the iterations over the
      map and over its sets. *)
  Definition dbg_grammar (p : list nat) (g : grammar V T) : dbg :=
    dstruct (str "Grammar")
      [(str "start_variable", dbg_v (g_start g));
       (str "rules",
        dmap (map (fun e => (dbg_v (fst (snd e)),
                             dset (map dbg_body (hash_at (fst e :: 1 :: p) (snd (snd e))))))
                  (enumerate (hash_at (0 :: p) (g_rules g)))))].

  (** cfsm/item.rs:188-199 [Debug for ItemBody]. *)
  Definition dbg_item_body (ib : item_body V T) : dbg :=
    dstruct (str "ItemBody") [(str "body", dbg_body (ib_body ib)); (str "cursor", dbg_nat (ib_cursor ib))].

  (** The map of cfsm/item.rs:24-26 [ItemSet], back from the list of items. *)
  Definition items_map {dv : DecEq V} (its : item_set V T) : list (V * list (item_body V T)) :=
    fold_left (fun m it => mupdate (fst it) [] (fun l => l ++ [snd it]) m) its [].

  (** cfsm/item.rs:23-26: derived for [ItemSet]; cfsm/state.rs:11-19: derived for
      [State]; cfsm/state.rs:85-92 [Debug for WSymbol] writes the symbol in the
      form [{:?}] in both forms. *)
  Definition dbg_cstate {dv : DecEq V} (p : list nat) (st : cstate V T) : dbg :=
    dstruct (str "State")
      [(str "id", dbg_nat (cs_id st));
       (str "item_set",
        dstruct (str "ItemSet")
          [(str "items",
            dmap (map (fun e => (dbg_v (fst (snd e)),
                                 dset (map dbg_item_body (hash_at (fst e :: 1 :: cs_id st :: p) (snd (snd e))))))
                      (enumerate (hash_at (0 :: cs_id st :: p) (items_map (cs_items st))))))]);
       (str "transitions",
        dmap (map (fun e => (Flat (dbg_symbol (fst e)), dbg_nat (snd e))) (hash_at (2 :: cs_id st :: p) (cs_trans st))))].

  (** cfsm/mod.rs:24-33: derived for [Cfsm]. *)
  Definition dbg_cfsm {dv : DecEq V} (p : list nat) (c : cfsm V T) : dbg :=
    dstruct (str "Cfsm")
      [(str "start_state", dbg_nat (cf_start c));
       (str "states", dset (map (dbg_cstate (0 :: p)) (cf_states c)));
       (str "grammar", dbg_grammar (1 :: p) (cf_grammar c));
       (str "_pin", Atom (str "PhantomPinned"))].

  (** parser/table.rs:199-209 [Debug for Terminal]. *)
  Definition dbg_key (k : key T) : dbg :=
    match k with
    | Some t => dtuple (str "T") [dbg_t t]
    | None => Atom (str "Eof")
    end.

  (** parser/table.rs:19-24: derived for [ActionKind]. *)
  Definition dbg_action (a : action V) : dbg :=
    match a with
    | Shift d => dstruct (str "Shift") [(str "dest_state", dbg_nat d)]
    | Reduce v n => dstruct (str "Reduce") [(str "variable", dbg_v v); (str "amount", dbg_nat n)]
    | Accept v n => dstruct (str "Accept") [(str "variable", dbg_v v); (str "amount", dbg_nat n)]
    end.

  (** parser/table.rs:31-39 [Debug for ParseTable], which leaves the automaton
      and with it the grammar out. *)
  Definition dbg_table (p : list nat) (tb : table V T) : dbg :=
    dstruct (str "ParseTable")
      [(str "action",
        dlist (map (fun r => dmap (map (fun e => (dbg_key (fst e), dbg_action (snd e))) (hash_at (fst r :: 0 :: p) (snd r))))
                   (enumerate (tb_action tb))));
       (str "goto",
        dlist (map (fun r => dmap (map (fun e => (dbg_v (fst e), dbg_nat (snd e))) (hash_at (fst r :: 1 :: p) (snd r))))
                   (enumerate (tb_goto tb))))].

  (** parser/slr.rs:15-18: derived for [Slr]. *)
  Definition dbg_slr (p : list nat) (tb : table V T) : dbg := dstruct (str "Slr") [(str "table", dbg_table p tb)].
End Debug.
