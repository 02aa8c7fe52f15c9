(** Specification of context free grammars: rules, derivations, FIRST, FOLLOW,
    LR(0) items, SLR conflicts and derivation trees.  Only the data types of the
    model are used ([symbol], [grammar], [node]), none of its functions, except in
    the driver [do_calls] at the end. *)
From Verif Require Import Base GrammarModel CfsmModel SlrModel.

Section Cfg.
  Context {V T : Type}.
  Notation sym := (symbol V T).

  (** [v -> bd] is a rule of the grammar. *)
  Definition rule (g : grammar V T) (v : V) (bd : body V T) : Prop :=
    exists bds, In (v, bds) (g_rules g) /\ In bd bds.

  (** What a sequence of builder calls asks for. *)
  Inductive call := CallStart (v : V) | CallRule (v : V) (bd : body V T).

  (** The start variable set last. *)
  Fixpoint last_start (cs : list call) : option V :=
    match cs with
    | [] => None
    | CallStart v :: r => match last_start r with Some v' => Some v' | None => Some v end
    | CallRule _ _ :: r => last_start r
    end.

  (** The rule [v -> bd] was added; the empty body is written as one epsilon. *)
  Definition added (cs : list call) (v : V) (bd : body V T) : Prop :=
    exists bd', In (CallRule v bd') cs /\ bd = match bd' with [] => [Eps] | _ => bd' end.

  Definition has_rule (cs : list call) (v : V) : Prop := exists bd, added cs v bd.

  (** The calls describe a closed grammar with a start variable. *)
  Definition closed_calls (cs : list call) : Prop :=
    exists s, last_start cs = Some s /\ has_rule cs s /\
      forall v bd x, added cs v bd -> In (Var x) bd -> has_rule cs x.

  (** ** Derivations *)

  (** One step: replace a variable by one of its bodies, or drop an epsilon. *)
  Inductive step (g : grammar V T) : list sym -> list sym -> Prop :=
  | step_rule : forall l v bd r, rule g v bd -> step g (l ++ Var v :: r) (l ++ bd ++ r)
  | step_eps : forall l r, step g (l ++ Eps :: r) (l ++ r).

  Inductive steps (g : grammar V T) : list sym -> list sym -> Prop :=
  | steps_refl : forall x, steps g x x
  | steps_next : forall x y z, steps g x y -> step g y z -> steps g x z.

  (** Some string derivable from [x] starts with the terminal [t]. *)
  Definition starts_with (g : grammar V T) (x : list sym) (t : T) : Prop :=
    exists r, steps g x (Ter t :: r).

  (** [x] derives the empty string. *)
  Definition derives_empty (g : grammar V T) (x : list sym) : Prop := steps g x [].

  (** Some sentential form derivable from a variable of the grammar has [t]
      directly after [v]. *)
  Definition followed_by (g : grammar V T) (v : V) (t : T) : Prop :=
    exists x l r, (exists bd, rule g x bd) /\ steps g [Var x] (l ++ Var v :: Ter t :: r).

  (** [v] derives a string of terminals. *)
  Definition productive (g : grammar V T) (v : V) : Prop :=
    exists w : list T, steps g [Var v] (map Ter w).

  (** ** LR(0) items

      An item [h -> a . b] is the triple [(h, a, b)].  Epsilons count as read, so the
      cursor moves over them. *)
  Definition dotted : Type := V * list sym * list sym.

  (** Moving the cursor over epsilons. *)
  Inductive skip_eps : list sym * list sym -> list sym * list sym -> Prop :=
  | skip_done : forall a b, (forall b', b <> Eps :: b') -> skip_eps (a, b) (a, b)
  | skip_one : forall a b x, skip_eps (a ++ [Eps], b) x -> skip_eps (a, Eps :: b) x.

  (** The items of the state reached by reading a sequence of symbols: the
      iterated goto of the closure of the start items. *)
  Inductive lr0 (g : grammar V T) : list sym -> dotted -> Prop :=
  | lr0_start : forall bd a b,
      rule g (g_start g) bd -> skip_eps ([], bd) (a, b) -> lr0 g [] (g_start g, a, b)
  | lr0_close : forall w h a v r bd a' b',
      lr0 g w (h, a, Var v :: r) -> rule g v bd -> skip_eps ([], bd) (a', b') -> lr0 g w (v, a', b')
  | lr0_goto : forall w h a s r a' b',
      lr0 g w (h, a, s :: r) -> skip_eps (a ++ [s], r) (a', b') -> lr0 g (w ++ [s]) (h, a', b').

  (** A set of dotted rules is closed: with a variable after the cursor it has
      the initial items of all its rules. *)
  Definition closed_items (g : grammar V T) (P : dotted -> Prop) : Prop :=
    forall h a v r bd a' b',
      P (h, a, Var v :: r) -> rule g v bd -> skip_eps ([], bd) (a', b') -> P (v, a', b').

  (** An item made from a rule, with the cursor in the body and not before an
      epsilon. *)
  Definition valid_item (g : grammar V T) (it : item V T) : Prop :=
    let '(h, ib) := it in
    rule g h (ib_body ib) /\ ib_cursor ib <= length (ib_body ib) /\
    nth_error (ib_body ib) (ib_cursor ib) <> Some Eps.

  (** An item of the model as a dotted rule. *)
  Definition dotted_of (it : item V T) : dotted :=
    let '(h, ib) := it in
    (h, firstn (ib_cursor ib) (ib_body ib), skipn (ib_cursor ib) (ib_body ib)).

  (** The state of an automaton reached from state [i] by reading symbols. *)
  Inductive path (c : cfsm V T) : nat -> list sym -> nat -> Prop :=
  | path_nil : forall i, path c i [] i
  | path_step : forall i w j s k st,
      path c i w j -> In st (cf_states c) -> cs_id st = j -> In (s, k) (cs_trans st) -> path c i (w ++ [s]) k.

  (** ** SLR(1) *)

  (** Lookahead of a reduction: [None] is the end of the input, which follows
      everything that can end a sentential form of the start variable. *)
  Definition lookahead (g : grammar V T) (v : V) (k : option T) : Prop :=
    match k with
    | Some t => followed_by g v t
    | None => exists l, steps g [Var (g_start g)] (l ++ [Var v])
    end.

  (** A shift/reduce or reduce/reduce conflict in some state. *)
  Definition slr_conflict (g : grammar V T) : Prop :=
    exists w,
      (exists h a t r h' a', lr0 g w (h, a, Ter t :: r) /\ lr0 g w (h', a', []) /\ lookahead g h' (Some t)) \/
      (exists h a h' a' k, (h, a) <> (h', a') /\ lr0 g w (h, a, []) /\ lr0 g w (h', a', []) /\
                           lookahead g h k /\ lookahead g h' k).

  (** Variables that get an entry in the FOLLOW map of the code, possibly an
      empty one, for every order of evaluation and for some order.  The code
      gives the end of the input no terminal; a start variable without an entry
      is never accepted. *)
  Definition entry_sure (g : grammar V T) (v : V) : Prop :=
    (exists h l r, rule g h (l ++ Var v :: r) /\ r <> []) \/ (exists t, followed_by g v t) \/
    (exists h l h' l' r', rule g h (l ++ [Var v]) /\ rule g h' (l' ++ Var h :: r') /\ r' <> []).

  Inductive entry_possible (g : grammar V T) : V -> Prop :=
  | entry_direct : forall h l v r, rule g h (l ++ Var v :: r) -> r <> [] -> entry_possible g v
  | entry_up : forall h l v r,
      rule g h (l ++ Var v :: r) -> derives_empty g r -> entry_possible g h -> entry_possible g v.

  (** The item [d], read after [w], asks for an action under the key [k] ([None]
      is the end of the input); [e] says whether the start variable has an entry. *)
  Definition wants (g : grammar V T) (e : Prop) (w : list sym) (d : dotted) (k : option T) : Prop :=
    lr0 g w d /\
    match d, k with
    | (_, _, Ter t :: _), Some t' => t = t'
    | (h, _, []), Some t => followed_by g h t
    | (h, _, []), None => h = g_start g /\ e
    | _, _ => False
    end.

  Definition same_key (teq : T -> T -> bool) (k k' : option T) : Prop :=
    match k, k' with
    | Some t, Some t' => teq t t' = true
    | None, None => True
    | _, _ => False
    end.

  (** Two different requests under one key: what [new_slr] takes for a
      conflict. *)
  Definition clash (g : grammar V T) (teq : T -> T -> bool) (e : Prop) : Prop :=
    exists w d k d' k', wants g e w d k /\ wants g e w d' k' /\ (d, k) <> (d', k') /\ same_key teq k k'.

  (** The contract of [TerminalEq], as for [Eq]. *)
  Definition lawful (teq : T -> T -> bool) : Prop :=
    (forall x, teq x x = true) /\ (forall x y, teq x y = true -> teq y x = true) /\
    (forall x y z, teq x y = true -> teq y z = true -> teq x z = true).

  (** ** Derivation trees *)

  Inductive tree := Leaf (t : T) | Branch (v : V) (children : list tree).

  (** [sat teq s x]: the tree [x] can stand where a body has the symbol [s];
      terminals are compared with [terminal_eq]. *)
  Definition sat (teq : T -> T -> bool) (s : sym) (x : tree) : Prop :=
    match s, x with
    | Ter t, Leaf t' => teq t t' = true
    | Var v, Branch v' _ => v = v'
    | _, _ => False
    end.

  Definition not_eps (s : sym) : bool := match s with Eps => false | _ => true end.

  (** Every inner node applies a rule of the grammar; the epsilons of a body
      have no child. *)
  Inductive derivation (g : grammar V T) (teq : T -> T -> bool) : tree -> Prop :=
  | derivation_leaf : forall t, derivation g teq (Leaf t)
  | derivation_branch : forall v bd cs,
      rule g v bd -> Forall2 (sat teq) (filter not_eps bd) cs -> Forall (derivation g teq) cs ->
      derivation g teq (Branch v cs).

  Fixpoint leaves (x : tree) : list T :=
    match x with
    | Leaf t => [t]
    | Branch _ cs => flat_map leaves cs
    end.

  (** The syntax tree of the code: children are stored in reverse order. *)
  Fixpoint to_node (x : tree) : node V T :=
    match x with
    | Leaf t => Node (Ter t) []
    | Branch v cs => Node (Var v) (rev (map to_node cs))
    end.

  (** [w] is a sentence, [x] a derivation tree of it. *)
  Definition parses (g : grammar V T) (teq : T -> T -> bool) (w : list T) (x : tree) : Prop :=
    derivation g teq x /\ leaves x = w /\ exists cs, x = Branch (g_start g) cs.

  (** The last child of the root is a token. *)
  Definition ends_in_leaf (x : tree) : Prop := exists v cs t, x = Branch v (cs ++ [Leaf t]).

  (** What the parser accepts: the input is split into a part derived from a
      viable prefix [w] after which a rule of the start variable may begin, and a
      derivation tree of that rule, which ends with a terminal. *)
  Definition accepted (teq : T -> T -> bool) (g : grammar V T) (ts : list T) (x : tree) : Prop :=
    exists w xs bd b t ys,
      lr0 g w (g_start g, [], bd) /\ bd = b ++ [Ter t] /\
      Forall2 (sat teq) w xs /\ Forall (derivation g teq) xs /\
      Forall2 (sat teq) bd ys /\ Forall (derivation g teq) ys /\
      ts = flat_map leaves xs ++ flat_map leaves ys /\ x = Branch (g_start g) ys.

  (** The tokens in a syntax tree of the code, read from the last child of each
      node to the first. *)
  Fixpoint spelled (n : node V T) : list T :=
    match n with
    | Node s cs =>
        (fix go (l : list (node V T)) : list T := match l with [] => [] | c :: r => go r ++ spelled c end) cs ++
        match s with Ter t => [t] | _ => [] end
    end.

  Definition root (n : node V T) : sym := match n with Node s _ => s end.

  (** The same tree up to [terminal_eq] on the tokens. *)
  Definition alike_symbol (teq : T -> T -> bool) (s s' : sym) : Prop :=
    match s, s' with
    | Ter t, Ter t' => teq t t' = true
    | Var v, Var v' => v = v'
    | Eps, Eps => True
    | _, _ => False
    end.

  Inductive alike (teq : T -> T -> bool) : node V T -> node V T -> Prop :=
  | alike_node : forall s s' cs cs', alike_symbol teq s s' -> Forall2 (alike teq) cs cs' -> alike teq (Node s cs) (Node s' cs').

  (** Two results of [parse]: both the same tree, both a failure ([Err] or a
      panic), or neither ends. *)
  Definition failed {A} (r : res (option A)) : Prop := r = Val None \/ r = Panic.
  Definition agree {A} (r r' : res (option A)) : Prop :=
    (exists n, r = Val (Some n) /\ r' = Val (Some n)) \/ (failed r /\ failed r') \/ (r = Diverge /\ r' = Diverge).

  (** ** Classes of grammars *)

  (** [v] occurs in a sentential form. *)
  Definition reachable (g : grammar V T) (v : V) : Prop :=
    exists l r, steps g [Var (g_start g)] (l ++ Var v :: r).

  (** No body of a reachable variable mentions epsilon. *)
  Definition epsilon_free (g : grammar V T) : Prop := forall v bd, reachable g v -> rule g v bd -> ~ In Eps bd.

  (** Every variable with a rule is reachable. *)
  Definition all_reachable (g : grammar V T) : Prop := forall v bd, rule g v bd -> reachable g v.

  (** The start variable occurs in sentential forms only at the front. *)
  Definition start_at_front (g : grammar V T) : Prop :=
    forall l r, steps g [Var (g_start g)] (l ++ Var (g_start g) :: r) -> l = [].

  (** [v] can be rewritten to the single variable [w] by unit rules. *)
  Inductive unit_chain (g : grammar V T) : V -> V -> Prop :=
  | unit_one : forall v w, rule g v [Var w] -> unit_chain g v w
  | unit_more : forall u v w, unit_chain g u v -> rule g v [Var w] -> unit_chain g u w.

  Definition no_unit_cycle (g : grammar V T) : Prop := forall v, ~ unit_chain g v v.
End Cfg.
Arguments call : clear implicits.
Arguments CallStart {V T} v.
Arguments CallRule {V T} v bd.
Arguments dotted : clear implicits.
Arguments tree : clear implicits.

(** A sequence of calls on a new [GrammarBuilder]. *)
Definition do_calls {V T} `{DecEq V} `{DecEq T} (cs : list (call V T)) : gbuilder V T :=
  fold_left (fun b c => match c with
                        | CallStart v => set_start_variable v b
                        | CallRule v bd => snd (add_rule v bd b)
                        end) cs gbuilder_new.

(** A grammar that came out of the builder. *)
Definition built {V T} `{DecEq V} `{DecEq T} (g : grammar V T) : Prop :=
  exists cs, build (do_calls cs) = Val g.
