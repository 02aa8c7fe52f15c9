(** [first_bodies], [follow_set] and the closure of item sets with counters of what
    their work lists take up.  Apart from the counters this is the code of
    GrammarModel.v and CfsmModel.v. *)
From Verif Require Import Base GrammarModel CfsmModel.

Section Work.
  Context {V T : Type} {dv : DecEq V} {dt : DecEq T} {ho : HashOrder}.

  (** Turns of the [while let] at grammar.rs:182 and of the [for] at line 183. *)
  Record work := { w_turns : nat; w_bodies : nat }.
  Definition no_work : work := {| w_turns := 0; w_bodies := 0 |}.
  Definition add_work (x y : work) : work :=
    {| w_turns := w_turns x + w_turns y; w_bodies := w_bodies x + w_bodies y |}.

  (** grammar.rs:182-277. *)
  Fixpoint work_loop (fuel : nat) (p : list nat) (g : grammar V T) (st : fstate) : res (fstate * work) :=
    match f_pending st with
    | [] => Val (st, no_work)
    | (variable, bs) :: rest =>
        match fuel with
        | 0 => Diverge
        | S fuel' =>
            let! st' := first_entry p g variable bs
                          {| f_result := f_result st; f_first := f_first st; f_pending := rest;
                             f_deps := f_deps st; f_visited := f_visited st |} in
            let! (r, c) := work_loop fuel' p g st' in
            Val (r, add_work {| w_turns := 1; w_bodies := length bs |} c)
        end
    end.

  (** grammar.rs:109-286 [first_body], as [follow_set] calls it. *)
  Definition work_body (fuel : nat) (p : list nat) (g : grammar V T) (bd : body V T) : res (list (symbol V T) * work) :=
    let! (st, c) := work_loop fuel p g
                      {| f_result := []; f_first := []; f_pending := [(None, [bd])]; f_deps := []; f_visited := [] |} in
    Val (f_result st, c).

  (** grammar.rs:299-333. *)
  Fixpoint work_scan (fuel : nat) (p : list nat) (g : grammar V T) (head : V) (rest : body V T) (st : wstate)
      : res (wstate * work) :=
    match rest with
    | [] => Val (st, no_work)
    | Var v :: tl =>
        match tl with
        | [] => Val (add_follow_dep head v st, no_work)
        | _ =>
            let! (f, c) := work_body fuel (length tl :: p) g tl in
            let st1 := if memb Eps f then add_follow_dep head v st else st in
            let! (r, c') := work_scan fuel p g head tl
              {| w_result := mupdate v [] (set_extend (filter (fun s => negb (is_eps s)) f)) (w_result st1);
                 w_deps := w_deps st1 |} in
            Val (r, add_work c c')
        end
    | _ :: tl => work_scan fuel p g head tl st
    end.

  (** grammar.rs:294-334. *)
  Fixpoint work_rules (fuel : nat) (p : list nat) (g : grammar V T) (rs : list (nat * (V * body V T))) (st : wstate)
      : res (wstate * work) :=
    match rs with
    | [] => Val (st, no_work)
    | (i, (head, bd)) :: r =>
        let! (st', c) := work_scan fuel (i :: p) g head bd st in
        let! (st'', c') := work_rules fuel p g r st' in
        Val (st'', add_work c c')
    end.

  (** grammar.rs:345-372, with the number of turns. *)
  Fixpoint work_follow (fuel : nat) (p : list nat) (deps : list (V * list V)) (queue : list (V * V))
      (result : list (V * list (symbol V T))) : res (list (V * list (symbol V T)) * nat) :=
    match queue with
    | [] => Val (result, 0)
    | (lhs, rhs) :: rest =>
        match fuel with
        | 0 => Diverge
        | S fuel' =>
            match mget rhs result with
            | None =>
                let! (r, n) := work_follow fuel' p deps rest result in
                Val (r, S n)
            | Some fr =>
                let old := match mget lhs result with Some l => l | None => [] end in
                let new := set_extend fr old in
                let result' := mupdate lhs [] (set_extend fr) result in
                let more := if Nat.eqb (length old) (length new) then []
                            else match mget lhs deps with
                                 | Some ds => map (fun d => (d, lhs)) (hash_at (first_size result' :: 5 :: p) ds)
                                 | None => []
                                 end in
                let! (r, n) := work_follow fuel' p deps (rest ++ more) result' in
                Val (r, S n)
            end
        end
    end.

  (** grammar.rs:288-375 [follow_set]: the sets, the work of the calls of
      [first_body], and the turns of the [while let] at line 345. *)
  Definition work_set (fuel : nat) (p : list nat) (g : grammar V T)
      : res (list (V * list (symbol V T)) * work * nat) :=
    let! (st, c) := work_rules fuel (2 :: p) g (enumerate (iter_rules p g)) {| w_result := []; w_deps := [] |} in
    let! (r, n) := work_follow fuel p (w_deps st) (iter_deps p (w_deps st)) (w_result st) in
    Val (r, c, n).

  (** cfsm/item.rs:140-159, with the number of turns. *)
  Fixpoint work_items (fuel : nat) (k : nat) (p : list nat) (g : grammar V T) (queue : list (item_body V T))
      (items : item_set V T) : res (item_set V T * nat) :=
    match queue with
    | [] => Val (items, 0)
    | ib :: rest =>
        match fuel with
        | 0 => Diverge
        | S fuel' =>
            let! cv := cursor_variable ib in
            match cv with
            | None =>
                let! (r, n) := work_items fuel' (S k) p g rest items in
                Val (r, S n)
            | Some head =>
                let! bs := of_option (get_rule_bodies g head) in
                let '(queue', items') :=
                  closure_insert head (map item_from (hash_at (k :: 1 :: p) bs)) rest items in
                let! (r, n) := work_items fuel' (S k) p g queue' items' in
                Val (r, S n)
            end
        end
    end.

  (** cfsm/item.rs:133-162 [from_incomplete_map]. *)
  Definition work_closure (fuel : nat) (p : list nat) (items : item_set V T) (g : grammar V T) : res (item_set V T * nat) :=
    work_items fuel 0 p g (map snd (hash_at (0 :: p) items)) items.
End Work.
