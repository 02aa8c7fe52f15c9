(** Which outcomes some input has, computed from a table.  The parser is looked at as
    a machine that keeps a stack of states and next to it one control.  Of a stack
    only its top is needed to see what comes next, and of what happens above a top
    only with which control it is uncovered again: these are finitely many facts. *)
From Verif Require Import Base GrammarModel CfsmModel SlrModel.

(** ** All that follows from a list of facts *)
Section Saturate.
  Context {A : Type} {da : DecEq A} (step : list A -> list A).
  Definition more (l : list A) : list A := fold_left (fun acc x => if memb x acc then acc else acc ++ [x]) (step l) l.
  (** Until there is nothing new, or 2^k times. *)
  Fixpoint more_all (k : nat) (l : list A) : list A :=
    match k with
    | 0 => more l
    | S k' => let l' := more_all k' l in if length l' =? length l then l' else more_all k' l'
    end.
End Saturate.

(** 2^bits is more than the number. *)
Definition bits (n : nat) : nat := S (Nat.log2 n).

Inductive verdict := Tree | Fails | Panics.

Section Possible.
  Context {V T : Type} {dv : DecEq V} {dt : DecEq T} (teq : T -> T -> bool) (tb : table V T).

  (** What the parser is about to do. *)
  Inductive control :=
  | Begin
  | Need                                   (** to look at the next token, or at the end *)
  | Have (k : key T)                       (** to handle a token, or the end *)
  | Pop (k : key T) (v : V) (j : nat)      (** to take [j] entries off the stack, then to enter [v] *)
  | Drop (j : nat)                         (** to take [j] entries off the stack, then to accept *)
  | Done (o : verdict).
  (** What it does with the stack. *)
  Inductive deed := Keep | Off | On (q : nat).

  (** What it does if the top of the stack is the given one, if there is one. *)
  Definition act (c : control) (top : option nat) : option (control * deed) :=
    match c, top with
    | Begin, _ => Some (Need, On 0)
    | Have k, Some q =>
        match nth_error (tb_action tb) q with
        | None => Some (Done Panics, Keep)
        | Some row =>
            match row_get teq k row with
            | None => Some (Done Fails, Keep)
            | Some (Shift d) => match k with None => Some (Done Panics, Keep) | Some _ => Some (Need, On d) end
            | Some (Reduce v n) => Some (Pop k v n, Keep)
            | Some (Accept v n) => Some (Drop n, Keep)
            end
        end
    | Pop _ _ _, None => Some (Done Panics, Keep)
    | Pop k v (S j), Some _ => Some (Pop k v j, Off)
    | Pop k v 0, Some q =>
        match nth_error (tb_goto tb) q with
        | None => Some (Done Panics, Keep)
        | Some row => match mget v row with None => Some (Done Fails, Keep) | Some d => Some (Have k, On d) end
        end
    | Drop (S _), None => Some (Done Panics, Keep)
    | Drop (S j), Some _ => Some (Drop j, Off)
    | Drop 0, _ => Some (Done Tree, Keep)
    | _, _ => None
    end.

  (** The tokens of the inputs. *)
  Context (ks : list T).
  Definition keys : list (key T) := None :: map Some ks.
  Definition does (c : control) (top : option nat) : list (control * deed) :=
    match c with
    | Need => map (fun k => (Have k, Keep)) keys
    | _ => match act c top with Some x => [x] | None => [] end
    end.

  Definition control_eqb (c c' : control) : bool :=
    match c, c' with
    | Begin, Begin | Need, Need => true
    | Have k, Have k' => eqb k k'
    | Pop k v j, Pop k' v' j' => Nat.eqb j j' && (eqb v v' && eqb k k')
    | Drop j, Drop j' => Nat.eqb j j'
    | Done Tree, Done Tree | Done Fails, Done Fails | Done Panics, Done Panics => true
    | _, _ => false
    end.
  Lemma control_eqb_eq c c' : control_eqb c c' = true <-> c = c'.
  Proof.
    assert (R : control_eqb c c = true).
    { destruct c as [| |k|k v j|j|[]]; cbn [control_eqb]; try reflexivity; rewrite ?andb_true_iff, ?Nat.eqb_eq, ?eqb_eq; auto. }
    split; [|intros <-; exact R]. clear R.
    destruct c as [| |k|k v j|j|[]], c' as [| |k'|k' v' j'|j'|[]]; cbn [control_eqb]; try discriminate; rewrite ?andb_true_iff, ?Nat.eqb_eq, ?eqb_eq;
      intros H; decompose [and] H; congruence.
  Qed.
  #[global] Instance control_deceq : DecEq control := {| eqb := control_eqb; eqb_eq := control_eqb_eq |}.

  (** [(e, c)]: it comes to the control and the top [e], and from there, leaving alone
      what is below, to the control [c] with the same top. *)
  Definition fact : Type := (control * option nat) * control.
  Definition uncovers (l : list fact) (e : control * option nat) : list control :=
    flat_map (fun f => if eqb (fst f) e then flat_map (fun y => match snd y with Off => [fst y] | _ => [] end) (does (snd f) (snd e)) else []) l.
  Definition entails (l : list fact) (f : fact) : list fact :=
    flat_map (fun x : control * deed =>
      match snd x with
      | Keep => [(fst f, fst x)]
      | Off => []
      | On q => ((fst x, Some q), fst x) :: map (pair (fst f)) (uncovers l (fst x, Some q))
      end) (does (snd f) (snd (fst f))).

  (** All controls and all tops there can be. *)
  Definition all_actions : list (action V) := map snd (concat (tb_action tb)).
  Definition controls : list control :=
    Begin :: Need :: Done Tree :: Done Fails :: Done Panics :: map Have keys ++
    flat_map (fun a => match a with
                       | Reduce v n => flat_map (fun k => map (Pop k v) (seq 0 (S n))) keys
                       | Accept _ n => map Drop (seq 0 (S n))
                       | Shift _ => []
                       end) all_actions.
  Definition tops : list (option nat) :=
    None :: Some 0 :: flat_map (fun a => match a with Shift d => [Some d] | _ => [] end) all_actions ++
    map (fun x => Some (snd x)) (concat (tb_goto tb)).

  Definition facts : list fact :=
    more_all (fun l => flat_map (entails l) l) (bits (length controls) + bits (length tops) + bits (length controls)) [((Begin, None), Begin)].

  (** Some input has the verdict. *)
  Definition possible (o : verdict) : bool := existsb (fun f => eqb (snd f) (Done o)) facts.

  (** Entering [v] above [q] leads to a reduction of just this entry to the next
      variable, [n] times. *)
  Definition follower (k : key T) (q : nat) (v : V) : option V :=
    match nth_error (tb_goto tb) q with
    | Some row =>
        match mget v row with
        | Some d =>
            match nth_error (tb_action tb) d with
            | Some row' => match row_get teq k row' with Some (Reduce v' 1) => Some v' | _ => None end
            | None => None
            end
        | None => None
        end
    | None => None
    end.
  Fixpoint spins (n : nat) (k : key T) (q : nat) (v : V) : bool :=
    match n with
    | 0 => true
    | S n' => match follower k q v with Some v' => spins n' k q v' | None => false end
    end.
  (** Some input makes the parser run for ever. *)
  Definition endless : bool :=
    existsb (fun f : fact => match f with ((_, Some q), Pop k v 0) => spins (S (length all_actions)) k q v | _ => false end) facts.

  (** The tokens of the table. *)
  Definition table_keys : list T := flat_map (fun x : key T * action V => match fst x with Some t => [t] | None => [] end) (concat (tb_action tb)).

  (** Every token is treated like one of the list. *)
  Definition alike (t t' : T) : Prop :=
    forall row k a, In row (tb_action tb) -> In (Some k, a) row -> teq t k = teq t' k.
  Definition covering : Prop := forall t, exists k, In k ks /\ alike t k.
End Possible.
Arguments control : clear implicits.
