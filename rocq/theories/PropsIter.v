(** Property theorems about the iterator wrappers (C24, C25). *)
From Verif Require Import Base Iter SpecIter IterProofs.

(** C24.  For every underlying iterator and every sequence of [next], [peek],
    [next_if]/[next_if_eq] and [current] calls, the wrapper answers like the
    plain iterator with a memory of the last item. *)
Theorem C24_cached_peekable_refines :
  forall (S A : Type) (it_next : S -> option A * S) (s : S) (calls : list (cp_op A)),
    cp_run it_next (cp_new s) calls = spec_run it_next (s, None) calls.
Proof. exact @cached_refines. Qed.
Print Assumptions C24_cached_peekable_refines.

Example C24_example :
  cp_run list_next (cp_new [1; 2; 3])
    [OpCurrent; OpPeek; OpPeek; OpNext; OpNextIf (fun x => x =? 7); OpCurrent; OpPeek;
     OpNextIf (fun x => x =? 2); OpCurrent; OpNext; OpNext; OpCurrent]
  = [None; Some 1; Some 1; Some 1; None; Some 1; Some 2; Some 2; Some 2; Some 3; None; None].
Proof. reflexivity. Qed.

(** C24 with [peek_mut]: whatever is done to the lent item, the later calls
    answer as if the iterator had delivered the changed item. *)
Theorem C24_with_peek_mut :
  forall (S A : Type) (it_next : S -> option A * S) (s : S) (calls : list (cp_any A)),
    cp_any_run it_next (cp_new s) calls = any_run it_next ((None, s), None) calls.
Proof. exact @cached_any. Qed.
Print Assumptions C24_with_peek_mut.

Example C24_mut_example :
  cp_any_run list_next (cp_new [1; 2; 3])
    [AnyOp OpNext; AnyMut (fun x => x + 5); AnyOp OpCurrent; AnyMut (fun x => x * 2); AnyOp (OpNextIf (fun x => x =? 2)); AnyOp OpNext;
     AnyOp OpCurrent; AnyOp OpNext; AnyMut (fun x => x + 5); AnyOp OpNext]
  = [Some 1; Some 2; Some 1; Some 7; None; Some 14; Some 14; Some 3; None; None].
Proof. reflexivity. Qed.

(** C25, mapping adapter: started after any calls [pre], the adapter yields
    exactly the images of the longest prefix on which [f] is defined, and the
    calls made afterwards see the iterator positioned at the first failing
    item.  First part: it finishes whenever that prefix is finite. *)
Theorem C25_cautious_map_while :
  forall (S A B : Type) (it_next : S -> option A * S) (f : A -> option B) (s : S) (pre : list (cp_op A)),
    let c := cp_exec it_next (cp_new s) pre in
    let s0 := fst (spec_exec it_next (s, None) pre) in
    (forall l s', delivers it_next s0 l s' -> (forall a, In a l -> f a <> None) ->
       stops_at it_next (fun a => match f a with Some _ => true | None => false end) s' ->
       forall fuel, length l < fuel ->
       exists bs c', cmw_drain it_next fuel f c = Some (bs, c') /\ map Some bs = map f l /\
         exists last, forall os, cp_run it_next c' os = spec_run it_next (s', last) os) /\
    (forall fuel bs c', cmw_drain it_next fuel f c = Some (bs, c') ->
       exists l s', delivers it_next s0 l s' /\ map Some bs = map f l /\
         stops_at it_next (fun a => match f a with Some _ => true | None => false end) s' /\
         exists last, forall os, cp_run it_next c' os = spec_run it_next (s', last) os).
Proof. exact (fun S A B n f => @cautious_map_while_spec S A n B f). Qed.
Print Assumptions C25_cautious_map_while.

(** C25, taking adapter. *)
Theorem C25_cautious_take_while :
  forall (S A : Type) (it_next : S -> option A * S) (p : A -> bool) (s : S) (pre : list (cp_op A)),
    let c := cp_exec it_next (cp_new s) pre in
    let s0 := fst (spec_exec it_next (s, None) pre) in
    (forall l s', delivers it_next s0 l s' -> (forall a, In a l -> p a = true) ->
       stops_at it_next p s' ->
       forall fuel, length l < fuel ->
       exists c', ctw_drain it_next fuel p c = Some (l, c') /\
         exists last, forall os, cp_run it_next c' os = spec_run it_next (s', last) os) /\
    (forall fuel l c', ctw_drain it_next fuel p c = Some (l, c') ->
       exists s', delivers it_next s0 l s' /\ (forall a, In a l -> p a = true) /\
         stops_at it_next p s' /\
         exists last, forall os, cp_run it_next c' os = spec_run it_next (s', last) os).
Proof. exact @cautious_take_while_spec. Qed.
Print Assumptions C25_cautious_take_while.

Example C25_example :
  exists c', ctw_drain list_next 9 (fun x => x <? 4)
               (cp_exec list_next (cp_new [1; 2; 3; 4; 1]) [OpNext; OpPeek]) = Some ([2; 3], c')
             /\ cp_run list_next c' [OpCurrent; OpPeek; OpNext; OpNext; OpNext]
                = [Some 3; Some 4; Some 4; Some 1; None].
Proof. eexists. split; reflexivity. Qed.
