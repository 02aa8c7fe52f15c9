(** Property C89: how deeply adding a pattern nests its calls. *)
From Verif Require Import Base RegexModel SpecRegex NfaModel LexerModel StackModel SpecStack StackBounds.

(** C89: with room for a call for every bar and two for every opening
    parenthesis, and two more, [add_token] does not run out of stack; the length
    of the pattern does not matter otherwise. *)
Theorem C89_room_enough {env : Env} (K : Type) (lg : lexgen K) w g d : 2 + 2 * count $"(" w + count $"|" w <= d ->
  k_add_token d lg w g = KRet (add_token lg w g).
Proof. exact (k_add_room d lg w g). Qed.
Print Assumptions C89_room_enough.

(** C89: accepted patterns are added if there is room for the nesting of their
    regex, and only then. *)
Theorem C89_room_needed {env : Env} (K : Type) (lg lg' : lexgen K) w g e d :
  add_token lg w g = Val (inl lg') -> regex_parse w = Val (ParseOk e) ->
  k_add_token d lg w g = if (parse_depth e <=? d) && (tree_height e <=? d) then KRet (Val (inl lg')) else KOver.
Proof. exact (k_add_exact d lg lg' w g e). Qed.
Print Assumptions C89_room_needed.

(** C89: with less room, whatever is returned is what is returned otherwise. *)
Theorem C89_room_short {env : Env} (K : Type) (lg : lexgen K) w g d :
  k_add_token d lg w g = KOver \/ k_add_token d lg w g = KRet (add_token lg w g).
Proof. exact (k_add_either d lg w g). Qed.
Print Assumptions C89_room_short.

(** C89: [n] groups in each other, and [n] bars, need room for [n + 1] calls:
    however much stack there is, a pattern that is accepted overflows it. *)
Theorem C89_no_room {env : Env} (K : Type) (lg0 lg : lexgen K) ts g w n d :
  lexgen_new = Val lg0 -> add_tokens lg0 ts = Val (inl lg) -> w = nested n \/ w = barred n ->
  exists lg', add_token lg w g = Val (inl lg') /\ k_add_token d lg w g = if n <? d then KRet (Val (inl lg')) else KOver.
Proof. exact (text_over d n lg0 lg ts g w). Qed.
Print Assumptions C89_no_room.

(** Three calls for the parser, eight for the compiler, which is the bound. *)
Example C89_sample : let _ := ascii_env true in
  let w := str "x(b(ab)*|c)|d"%string in let g := GenUnit (fun _ => 0) in
  exists lg0 lg' e, @lexgen_new nat = Val lg0 /\
    add_token lg0 w g = Val (inl lg') /\ regex_parse w = Val (ParseOk e) /\ parse_depth e = 3 /\ tree_height e = 8 /\
    k_add_token 7 lg0 w g = KOver /\ k_add_token 8 lg0 w g = KRet (Val (inl lg')) /\ 2 + 2 * count $"(" w + count $"|" w = 8.
Proof. do 3 eexists. repeat (split; [vm_compute; reflexivity|]). vm_compute. reflexivity. Qed.
(** A pattern that is not accepted can overflow the stack before the error is
    found. *)
Example C89_rejected : let _ := ascii_env true in
  let w := str "((((]"%string in let g := GenUnit (fun _ => 0) in
  exists lg0 errs, @lexgen_new nat = Val lg0 /\ add_token lg0 w g = Val (inr errs) /\
    k_add_token 4 lg0 w g = KOver /\ k_add_token 5 lg0 w g = KRet (Val (inr errs)).
Proof. do 2 eexists. repeat (split; [vm_compute; reflexivity|]). vm_compute. reflexivity. Qed.
Example C89_deep : let _ := ascii_env true in
  exists lg0 lg, @lexgen_new nat = Val lg0 /\ add_tokens lg0 [(str "b"%string, GenUnit (fun _ => 0))] = Val (inl lg) /\
    nested 3 = str "(((a)))"%string /\ barred 3 = str "a|a|a|a"%string.
Proof. do 2 eexists. repeat (split; [vm_compute; reflexivity|]). vm_compute. reflexivity. Qed.
