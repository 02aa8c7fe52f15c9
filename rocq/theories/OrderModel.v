(** Building a parser once more, as a program that asks for the order of every
    single iteration over a hash container.

    [GrammarModel], [CfsmModel] and [SlrModel] look up the order of an iteration
    under a name, so that two iterations with the same name would agree on the
    order.  Here every iteration may have any order whatsoever ([outcome]); the
    names are kept in the programs, but [outcome] does not look at them.
    Everything else is as in these files. *)
From Verif Require Import Base GrammarModel CfsmModel SlrModel.

(** A computation that is over, or an iteration over the container [l] and what
    is done with the elements in the order they come in. *)
Inductive prog (A : Type) : Type :=
| Over (r : res A)
| Ask (k : list nat) (X : Type) (l : list X) (f : list X -> prog A).
Arguments Over {A} r.
Arguments Ask {A} k {X} l f.

(** What a program may end with, if every iteration has any order. *)
Inductive outcome {A} : prog A -> res A -> Prop :=
| outcome_over r : outcome (Over r) r
| outcome_ask k X (l l' : list X) f r : Permutation l' l -> outcome (f l') r -> outcome (Ask k l f) r.

Fixpoint pbind {A B} (c : prog A) (f : A -> prog B) : prog B :=
  match c with
  | Over (Val a) => f a
  | Over Panic => Over Panic
  | Over Diverge => Over Diverge
  | Ask k l h => Ask k l (fun l' => pbind (h l') f)
  end.
Notation "'let?' x := e 'in' k" := (pbind e (fun x => k))
  (at level 200, x pattern, e at level 200, k at level 200, right associativity).
Definition ret {A} (a : A) : prog A := Over (Val a).
Definition ask {X} (k : list nat) (l : list X) : prog (list X) := Ask k l ret.

(** One iteration for every entry of a list. *)
Fixpoint ask_each {I X Y} (k : I -> list nat) (h : I -> X -> Y) (s : I -> list X) (l : list I) : prog (list Y) :=
  match l with
  | [] => ret []
  | e :: r =>
      let? xs := ask (k e) (s e) in
      let? ys := ask_each k h s r in
      ret (map (h e) xs ++ ys)
  end.

Section Order.
  Context {V T : Type} {dv : DecEq V} {dt : DecEq T}.

  (** grammar.rs:149-180. *)
  Definition o_extend (p : list nat) (variable : option V) (symbols : list (symbol V T)) (st : fstate (V := V) (T := T)) : prog fstate :=
    match variable with
    | Some v =>
        let old := match mget v (f_first st) with Some l => l | None => [] end in
        let new := set_extend symbols old in
        let first' := mupdate v [] (set_extend symbols) (f_first st) in
        if Nat.eqb (length old) (length new) then
          ret {| f_result := f_result st; f_first := first'; f_pending := f_pending st;
                 f_deps := f_deps st; f_visited := f_visited st |}
        else
          let? moved := match mget v (f_deps st) with
                        | Some ds => ask (first_size first' :: 2 :: p) ds
                        | None => ret []
                        end in
          ret {| f_result := f_result st; f_first := first'; f_pending := f_pending st ++ moved;
                 f_deps := mremove v (f_deps st); f_visited := f_visited st |}
    | None =>
        ret {| f_result := set_extend symbols (f_result st); f_first := f_first st;
               f_pending := f_pending st; f_deps := f_deps st; f_visited := f_visited st |}
    end.

  (** grammar.rs:184-276. *)
  Fixpoint o_scan (p : list nat) (g : grammar V T) (variable : option V) (rest : body V T) (st : fstate) : prog fstate :=
    match rest with
    | [] => ret st
    | Ter t :: _ => o_extend p variable [Ter t] st
    | Var v :: tl =>
        let st1 := add_dependency v variable rest st in
        if memb v (f_visited st1) then
          match mget v (f_first st1) with
          | None => ret st1
          | Some fv =>
              let last := match tl with [] => true | _ => false end in
              let? st2 := o_extend p variable (filter (fun s => negb (is_eps s) || last) fv) st1 in
              if memb Eps fv then o_scan p g variable tl st2 else ret st2
          end
        else
          let? bs := Over (of_option (get_rule_bodies g v)) in
          let? bs := ask (length (f_visited st1) :: 1 :: p) bs in
          ret {| f_result := f_result st1; f_first := f_first st1; f_pending := f_pending st1 ++ [(Some v, bs)];
                 f_deps := f_deps st1; f_visited := f_visited st1 ++ [v] |}
    | Eps :: tl =>
        match tl with
        | [] => o_extend p variable [Eps] st
        | _ => o_scan p g variable tl st
        end
    end.

  (** grammar.rs:183. *)
  Fixpoint o_entry (p : list nat) (g : grammar V T) (variable : option V) (bs : list (body V T)) (st : fstate) : prog fstate :=
    match bs with
    | [] => ret st
    | b :: r => let? st' := o_scan p g variable b st in o_entry p g variable r st'
    end.

  (** grammar.rs:182-277. *)
  Fixpoint o_first_loop (fuel : nat) (p : list nat) (g : grammar V T) (st : fstate) : prog fstate :=
    match f_pending st with
    | [] => ret st
    | (variable, bs) :: rest =>
        match fuel with
        | 0 => Over Diverge
        | S fuel' =>
            let? st' := o_entry p g variable bs
                          {| f_result := f_result st; f_first := f_first st; f_pending := rest;
                             f_deps := f_deps st; f_visited := f_visited st |} in
            o_first_loop fuel' p g st'
        end
    end.

  (** grammar.rs:117-286 [first_bodies]. *)
  Definition o_bodies (fuel : nat) (p : list nat) (g : grammar V T) (variable : option V) (bs : list (body V T))
      : prog (list (symbol V T)) :=
    let? st := o_first_loop fuel p g
                 {| f_result := []; f_first := []; f_pending := [(variable, bs)]; f_deps := [];
                    f_visited := match variable with Some v => [v] | None => [] end |} in
    ret match variable with
        | Some v => match mget v (f_first st) with Some l => l | None => [] end
        | None => f_result st
        end.

  (** grammar.rs:101-107 [first]. *)
  Definition o_first (fuel : nat) (p : list nat) (g : grammar V T) (v : V) : prog (list (symbol V T)) :=
    let? bs := Over (of_option (get_rule_bodies g v)) in
    let? bs := ask (0 :: p) bs in
    o_bodies fuel p g (Some v) bs.

  (** grammar.rs:299-333. *)
  Fixpoint o_follow_scan (fuel : nat) (p : list nat) (g : grammar V T) (head : V) (rest : body V T) (st : wstate (V := V) (T := T))
      : prog wstate :=
    match rest with
    | [] => ret st
    | Var v :: tl =>
        match tl with
        | [] => ret (add_follow_dep head v st)
        | _ =>
            let? f := o_bodies fuel (length tl :: p) g None [tl] in
            let st1 := if memb Eps f then add_follow_dep head v st else st in
            o_follow_scan fuel p g head tl
              {| w_result := mupdate v [] (set_extend (filter (fun s => negb (is_eps s)) f)) (w_result st1);
                 w_deps := w_deps st1 |}
        end
    | _ :: tl => o_follow_scan fuel p g head tl st
    end.

  (** grammar.rs:294-334. *)
  Fixpoint o_follow_rules (fuel : nat) (p : list nat) (g : grammar V T) (rs : list (nat * (V * body V T))) (st : wstate)
      : prog wstate :=
    match rs with
    | [] => ret st
    | (i, (head, bd)) :: r =>
        let? st' := o_follow_scan fuel (i :: p) g head bd st in
        o_follow_rules fuel p g r st'
    end.

  (** grammar.rs:294-297. *)
  Definition o_iter_rules (p : list nat) (g : grammar V T) : prog (list (V * body V T)) :=
    let? rs := ask (0 :: p) (g_rules g) in
    ask_each (fun e => fst e :: 1 :: p) (fun e b => (fst (snd e), b)) (fun e => snd (snd e)) (enumerate rs).

  (** grammar.rs:339-343. *)
  Definition o_iter_deps (p : list nat) (deps : list (V * list V)) : prog (list (V * V)) :=
    let? ds := ask (3 :: p) deps in
    ask_each (fun e => fst e :: 4 :: p) (fun e lhs => (lhs, fst (snd e))) (fun e => snd (snd e)) (enumerate ds).

  (** grammar.rs:345-372. *)
  Fixpoint o_follow_loop (fuel : nat) (p : list nat) (deps : list (V * list V)) (queue : list (V * V))
      (result : list (V * list (symbol V T))) : prog (list (V * list (symbol V T))) :=
    match queue with
    | [] => ret result
    | (lhs, rhs) :: rest =>
        match fuel with
        | 0 => Over Diverge
        | S fuel' =>
            match mget rhs result with
            | None => o_follow_loop fuel' p deps rest result
            | Some fr =>
                let old := match mget lhs result with Some l => l | None => [] end in
                let new := set_extend fr old in
                let result' := mupdate lhs [] (set_extend fr) result in
                let? more := if Nat.eqb (length old) (length new) then ret []
                             else match mget lhs deps with
                                  | Some ds => let? ds := ask (first_size result' :: 5 :: p) ds in ret (map (fun d => (d, lhs)) ds)
                                  | None => ret []
                                  end in
                o_follow_loop fuel' p deps (rest ++ more) result'
            end
        end
    end.

  (** grammar.rs:288-375 [follow_set]. *)
  Definition o_follow_set (fuel : nat) (p : list nat) (g : grammar V T) : prog (list (V * list (symbol V T))) :=
    let? rs := o_iter_rules p g in
    let? st := o_follow_rules fuel (2 :: p) g (enumerate rs) {| w_result := []; w_deps := [] |} in
    let? ds := o_iter_deps p (w_deps st) in
    o_follow_loop fuel p (w_deps st) ds (w_result st).

  (** cfsm/item.rs:140-159. *)
  Fixpoint o_items_loop (fuel : nat) (k : nat) (p : list nat) (g : grammar V T) (queue : list (item_body V T))
      (items : item_set V T) : prog (item_set V T) :=
    match queue with
    | [] => ret items
    | ib :: rest =>
        match fuel with
        | 0 => Over Diverge
        | S fuel' =>
            let? cv := Over (cursor_variable ib) in
            match cv with
            | None => o_items_loop fuel' (S k) p g rest items
            | Some head =>
                let? bs := Over (of_option (get_rule_bodies g head)) in
                let? bs := ask (k :: 1 :: p) bs in
                let '(queue', items') := closure_insert head (map item_from bs) rest items in
                o_items_loop fuel' (S k) p g queue' items'
            end
        end
    end.

  (** cfsm/item.rs:133-162. *)
  Definition o_complete (fuel : nat) (p : list nat) (items : item_set V T) (g : grammar V T) : prog (item_set V T) :=
    let? its := ask (0 :: p) items in
    o_items_loop fuel 0 p g (map snd its) items.

  (** cfsm/item.rs:85-110. *)
  Definition o_group_items (p : list nat) (items : item_set V T) : prog (list (symbol V T * item_set V T)) :=
    let? its := ask (0 :: p) items in
    ask (1 :: p)
      (fold_left (fun groups it =>
         match cursor_symbol (snd it) with
         | None => groups
         | Some s => mupdate s [] (set_insert it) groups
         end) its []).

  (** cfsm/mod.rs:84-118. *)
  Fixpoint o_cfsm_groups (fuel : nat) (p : list nat) (g : grammar V T) (added : list (cstate V T))
      (groups : list (nat * (symbol V T * item_set V T))) (trans : list (symbol V T * nat))
      (next_id : nat) (pending : list (cstate V T))
      : prog (list (symbol V T * nat) * nat * list (cstate V T)) :=
    match groups with
    | [] => ret (trans, next_id, pending)
    | (i, (s, group)) :: r =>
        let kernel := set_extend (map (fun it => (fst it, advance (snd it))) group) [] in
        let? items := o_complete fuel (i :: 2 :: p) kernel g in
        match find (fun st => same_items (cs_items st) items) added with
        | Some st => o_cfsm_groups fuel p g added r (mupdate s 0 (fun _ => cs_id st) trans) next_id pending
        | None =>
            o_cfsm_groups fuel p g added r (mupdate s 0 (fun _ => next_id) trans) (S next_id)
              (pending ++ [{| cs_id := next_id; cs_items := items; cs_trans := [] |}])
        end
    end.

  (** cfsm/mod.rs:75-121. *)
  Fixpoint o_cfsm_loop (fuel : nat) (k : nat) (p : list nat) (g : grammar V T) (added : list (cstate V T))
      (next_id : nat) (pending : list (cstate V T)) : prog (list (cstate V T)) :=
    match pending with
    | [] => ret added
    | st :: rest =>
        match fuel with
        | 0 => Over Diverge
        | S fuel' =>
            let? gs := o_group_items (k :: 3 :: p) (cs_items st) in
            let? (trans, next_id', pending') :=
              o_cfsm_groups fuel' (k :: 3 :: p) g added (enumerate gs) (cs_trans st) next_id rest in
            o_cfsm_loop fuel' (S k) p g
              (add_state {| cs_id := cs_id st; cs_items := cs_items st; cs_trans := trans |} added)
              next_id' pending'
        end
    end.

  (** cfsm/mod.rs:60-124 [from_grammar]. *)
  Definition o_from_grammar (fuel : nat) (p : list nat) (g : grammar V T) : prog (cfsm V T) :=
    let? bds := Over (of_option (get_rule_bodies g (g_start g))) in
    let? items := o_complete fuel (4 :: p) (map (fun bd => (g_start g, item_from bd)) bds) g in
    let? states := o_cfsm_loop fuel 0 p g [] 1 [{| cs_id := 0; cs_items := items; cs_trans := [] |}] in
    Over (cfsm_build 0 states g).

  Context (teq : T -> T -> bool).

  (** parser/table.rs:60-125. *)
  Fixpoint o_table_items (p : list nat) (g : grammar V T) (fs : list (V * list (symbol V T))) (st : cstate V T)
      (items : list (nat * item V T)) (tbs : action_table (V := V) (T := T) * goto_table (V := V))
      : prog (option (action_table * goto_table)) :=
    match items with
    | [] => ret (Some tbs)
    | (i, (head, ib)) :: r =>
        match cursor_symbol ib with
        | Some (Ter t) =>
            let? d := Over (of_option (mget (Ter t) (cs_trans st))) in
            match insert_action teq (cs_id st) (Some t) (Shift d) (fst tbs) with
            | Some ac => o_table_items p g fs st r (ac, snd tbs)
            | None => ret None
            end
        | Some (Var v) =>
            let? d := Over (of_option (mget (Var v) (cs_trans st))) in
            let? gt := Over (insert_goto (cs_id st) v d (snd tbs)) in
            o_table_items p g fs st r (fst tbs, gt)
        | None =>
            match mget head fs with
            | None => o_table_items p g fs st r tbs
            | Some follow =>
                let? fl := ask (i :: p) follow in
                let? ac := Over (insert_reduces teq (cs_id st) head (length (ib_body ib)) fl (fst tbs)) in
                match ac with
                | None => ret None
                | Some ac =>
                    if eqb head (g_start g) then
                      match insert_action teq (cs_id st) None (Accept head (length (ib_body ib))) ac with
                      | Some ac' => o_table_items p g fs st r (ac', snd tbs)
                      | None => ret None
                      end
                    else o_table_items p g fs st r (ac, snd tbs)
                end
            end
        | Some Eps => Over Panic
        end
    end.

  (** parser/table.rs:54-126. *)
  Fixpoint o_table_states (p : list nat) (g : grammar V T) (fs : list (V * list (symbol V T)))
      (sts : list (cstate V T)) (tbs : action_table * goto_table) : prog (option (action_table * goto_table)) :=
    match sts with
    | [] => ret (Some tbs)
    | st :: r =>
        let? its := ask (0 :: cs_id st :: p) (cs_items st) in
        let? o := o_table_items (1 :: cs_id st :: p) g fs st (enumerate its) tbs in
        match o with
        | None => ret None
        | Some tbs' => o_table_states p g fs r tbs'
        end
    end.

  (** parser/table.rs:46-133 [new_slr]. *)
  Definition o_new_slr (fuel : nat) (p : list nat) (c : cfsm V T) : prog (option (table V T)) :=
    let? fs := o_follow_set fuel (0 :: p) (cf_grammar c) in
    let? o := o_table_states (1 :: p) (cf_grammar c) fs (cf_states c) ([], []) in
    ret match o with
        | None => None
        | Some (ac, gt) => Some {| tb_action := ac; tb_goto := gt; tb_grammar := cf_grammar c |}
        end.

  (** parser/slr.rs:30-36 [Slr::new]. *)
  Definition o_slr_new (fuel : nat) (p : list nat) (g : grammar V T) : prog (table V T) :=
    let? c := o_from_grammar fuel (0 :: p) g in
    let? o := o_new_slr fuel (1 :: p) c in
    Over (of_option o).
End Order.
