(** What a program does with the parser crate: it makes automata and parsers from
    calls of the grammar builder, uses them in any order and drops them.  The
    memory is that of PtrModel.v. *)
From Verif Require Import Base GrammarModel CfsmModel SlrModel DotModel SpecCfg PtrModel.

Section World.
  Context {V T : Type} {dv : DecEq V} {dt : DecEq T} {ho : HashOrder}.
  Context (show_v : V -> list char) (show_t : T -> list char) (teq : T -> T -> bool).

  (** Objects are numbered in the order they are made. *)
  Inductive op :=
  | MakeCfsm (cs : list (@call V T))
  | MakeParser (cs : list (@call V T))
  | UseParse (i : nat) (ts : list T)
  | UseDot (i : nat)
  | UseDebug (i : nat)
  | Discard (i : nat).

  (** What an operation gives back.  The compiler lets nobody use an object that is
      dropped, that was never made or has another type: then nothing happens. *)
  Inductive output :=
  | OMade
  | OTree (o : option (node V T))
  | OText (s : list char)
  | OTable (ac : list (list (key T * action V))) (gt : list (list (V * nat)))
  | ODiscarded
  | ONothing.

  (** ** With pointers *)

  (** [Pin<Box<Cfsm>>] with the block of its grammar, [Slr]. *)
  Inductive pobject := PCfsm (b : nat) (v : V) (sts : list (pstate V)) | PParser (tb : ptable V) | PGone.
  Record world := { w_heap : heap V T; w_next : nat; w_objects : list pobject }.

  Definition alloc (rs : rules V T) (w : world) : heap V T :=
    fun b => if Nat.eqb b (w_next w) then Some rs else w_heap w b.
  Definition free (b : nat) (h : heap V T) : heap V T :=
    fun b' => if Nat.eqb b' b then None else h b'.

  (** The references [follow_set] gives, for each block and grammar. *)
  Variable refs : nat -> rules V T -> V -> T -> sptr.

  (** All loads of cfsm/dot.rs:14-94 [to_dot] and of the derived [Debug]. *)
  Definition load_trans (h : heap V T) (e : sptr * nat) : mem (symbol V T * nat) :=
    let* s := load_symbol h (fst e) in MVal (s, snd e).
  Definition load_state (h : heap V T) (st : pstate V) : mem (cstate V T) :=
    let* its := mmap (load_item h) (pc_items st) in
    let* tr := mmap (load_trans h) (pc_trans st) in
    MVal {| cs_id := pc_id st; cs_items := its; cs_trans := tr |}.
  Definition load_cfsm (h : heap V T) (b : nat) (v : V) (sts : list (pstate V)) : mem (cfsm V T) :=
    let* rs := load_rules h b in
    let* sts' := mmap (load_state h) sts in
    MVal {| cf_start := 0; cf_states := sts'; cf_grammar := {| g_start := v; g_rules := rs |} |}.

  (** All loads of the derived [Debug] of [Slr] (parser/table.rs:31-40, 198-209). *)
  Definition load_entry (h : heap V T) (e : pkey * action V) : mem (key T * action V) :=
    let* k := load_key h (fst e) in MVal (k, snd e).
  Definition load_table (h : heap V T) (tb : ptable V) : mem output :=
    let* ac := mmap (mmap (load_entry h)) (pt_action tb) in
    MVal (OTable ac (pt_goto tb)).

  Definition set_gone (i : nat) (l : list pobject) : list pobject :=
    firstn i l ++ PGone :: skipn (S i) l.

  (** Operation number [n].  A panic unwinds: what was being made is dropped, with
      its block. *)
  Definition p_step (fuel n : nat) (o : op) (w : world) : mem output * world :=
    let keep r := (r, w) in
    match o with
    | MakeCfsm cs =>
        match build (do_calls cs) with
        | Val g =>
            let h := alloc (g_rules g) w in
            match p_from_grammar h (g_start g) (w_next w) fuel [n] with
            | MVal sts => (MVal OMade, {| w_heap := h; w_next := S (w_next w);
                                          w_objects := w_objects w ++ [PCfsm (w_next w) (g_start g) sts] |})
            | e => (let* _ := e in MVal OMade, {| w_heap := free (w_next w) h; w_next := S (w_next w); w_objects := w_objects w ++ [PGone] |})
            end
        | e => (let* _ := safe e in MVal OMade, {| w_heap := w_heap w; w_next := w_next w; w_objects := w_objects w ++ [PGone] |})
        end
    | MakeParser cs =>
        match build (do_calls cs) with
        | Val g =>
            let h := alloc (g_rules g) w in
            match p_slr_new h (g_start g) (w_next w) teq (refs (w_next w) (g_rules g)) fuel [n] with
            | MVal tb => (MVal OMade, {| w_heap := h; w_next := S (w_next w); w_objects := w_objects w ++ [PParser tb] |})
            | e => (let* _ := e in MVal OMade, {| w_heap := free (w_next w) h; w_next := S (w_next w); w_objects := w_objects w ++ [PGone] |})
            end
        | e => (let* _ := safe e in MVal OMade, {| w_heap := w_heap w; w_next := w_next w; w_objects := w_objects w ++ [PGone] |})
        end
    | UseParse i ts =>
        keep match nth i (w_objects w) PGone with
             | PParser tb => let* r := p_parse (w_heap w) teq fuel tb ts in MVal (OTree r)
             | _ => MVal ONothing
             end
    | UseDot i =>
        keep match nth i (w_objects w) PGone with
             | PCfsm b v sts => let* c := load_cfsm (w_heap w) b v sts in MVal (OText (cfsm_to_dot show_v show_t n c))
             | _ => MVal ONothing
             end
    | UseDebug i =>
        keep match nth i (w_objects w) PGone with
             | PParser tb => load_table (w_heap w) tb
             | _ => MVal ONothing
             end
    | Discard i =>
        let gone b := (MVal ODiscarded, {| w_heap := free b (w_heap w); w_next := w_next w; w_objects := set_gone i (w_objects w) |}) in
        match nth i (w_objects w) PGone with
        | PCfsm b _ _ => gone b
        | PParser tb => gone (pt_block tb)
        | PGone => keep (MVal ONothing)
        end
    end.

  Fixpoint p_run (fuel n : nat) (os : list op) (w : world) : list (mem output) :=
    match os with
    | [] => []
    | o :: r => let (out, w') := p_step fuel n o w in out :: p_run fuel (S n) r w'
    end.

  (** The memory of a program that has not yet done anything with the crate. *)
  Definition fresh_world : world := {| w_heap := fun _ => None; w_next := 0; w_objects := [] |}.

  (** ** Without pointers: the values of CfsmModel.v and SlrModel.v *)

  Inductive vobject := VCfsm (c : cfsm V T) | VParser (tb : table V T) | VGone.

  Definition v_step (fuel n : nat) (o : op) (l : list vobject) : res output * list vobject :=
    match o with
    | MakeCfsm cs =>
        match (let! g := build (do_calls cs) in from_grammar fuel [n] g) with
        | Val c => (Val OMade, l ++ [VCfsm c])
        | Panic => (Panic, l ++ [VGone])
        | Diverge => (Diverge, l ++ [VGone])
        end
    | MakeParser cs =>
        match (let! g := build (do_calls cs) in slr_new teq fuel [n] g) with
        | Val tb => (Val OMade, l ++ [VParser tb])
        | Panic => (Panic, l ++ [VGone])
        | Diverge => (Diverge, l ++ [VGone])
        end
    | UseParse i ts =>
        (match nth i l VGone with
         | VParser tb => let! r := parse teq fuel tb ts in Val (OTree r)
         | _ => Val ONothing
         end, l)
    | UseDot i =>
        (match nth i l VGone with VCfsm c => Val (OText (cfsm_to_dot show_v show_t n c)) | _ => Val ONothing end, l)
    | UseDebug i =>
        (match nth i l VGone with VParser tb => Val (OTable (tb_action tb) (tb_goto tb)) | _ => Val ONothing end, l)
    | Discard i =>
        match nth i l VGone with
        | VGone => (Val ONothing, l)
        | _ => (Val ODiscarded, firstn i l ++ VGone :: skipn (S i) l)
        end
    end.

  Fixpoint v_run (fuel n : nat) (os : list op) (l : list vobject) : list (res output) :=
    match os with
    | [] => []
    | o :: r => let (out, l') := v_step fuel n o l in out :: v_run fuel (S n) r l'
    end.
End World.

Arguments op : clear implicits.
Arguments output : clear implicits.
Arguments world : clear implicits.
Arguments vobject : clear implicits.

(** What the borrow checker guarantees of the references [follow_set] returns: a
    reference to a terminal that is in a rule of the grammar points to such a
    terminal in the block of the grammar. *)
Definition refs_ok {V T} (refs : nat -> rules V T -> V -> T -> sptr) : Prop :=
  forall b rs v t, (exists w bds bd, In (w, bds) rs /\ In bd bds /\ In (Ter t) bd) ->
    forall h : heap V T, h b = Some rs -> load_terminal h (refs b rs v t) = MVal t.
