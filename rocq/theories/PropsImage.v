(** Property C78: the regexes of accepted patterns. *)
From Verif Require Import Base RegexModel SpecRegex SpecPattern SpecPanic NfaModel LexerModel RegexPanicProofs NfaWitness RegexImage.

(** C78: the regexes read from patterns, without those that make [add_token]
    panic, are the ones of the documented grammar. *)
Theorem C78_image {env : Env} e : ((exists w, regex_parse w = Val (ParseOk e)) /\ ~ gapped e) <-> is_pattern e.
Proof. exact (image e). Qed.
Print Assumptions C78_image.

(** C78: in place of any pattern that a lexer takes, the text written for its
    regex can be given, and the lexer is the same. *)
Theorem C78_rewritten {env : Env} (K : Type) (lg0 lg lg' : lexgen K) ts w g :
  lexgen_new = Val lg0 -> add_tokens lg0 ts = Val (inl lg) -> add_token lg w g = Val (inl lg') ->
  exists e, is_pattern e /\ regex_parse w = Val (ParseOk e) /\ add_token lg (print_expr e) g = Val (inl lg').
Proof. exact (rewritten K lg0 lg lg' ts w g). Qed.
Print Assumptions C78_rewritten.

(** C78: what is written for the regex of any text is read as that regex, unless
    its last alternative is empty. *)
Theorem C78_printed {env : Env} w e : regex_parse w = Val (ParseOk e) ->
  (regex_parse (print_expr e) = Val (ParseOk e) <-> e = EEmpty \/ ~ ends_open (expr_tokens e)).
Proof. exact (printed_iff w e). Qed.
Print Assumptions C78_printed.

(** Escapes, leading zeros and a stray parenthesis disappear. *)
Example C78_sample : let _ := ascii_env true in
  exists e, regex_parse (str "\x41\-[B-\cZ]{007,}|(\/))*"%string) = Val (ParseOk e) /\ ~ gapped e /\
    print_expr e = str "A\-[B-"%string ++ [26%N] ++ str "]{7,}|(/)"%string.
Proof.
  eexists. split; [vm_compute; reflexivity|]. split; [|reflexivity]. intros H. apply gapped_ok in H. vm_compute in H. discriminate.
Qed.
Example C78_builder : let _ := ascii_env true in
  exists lg0 lg lg', @lexgen_new nat = Val lg0 /\ add_tokens lg0 [(str "b"%string, GenUnit (fun _ => 0))] = Val (inl lg) /\
    add_token lg (str "\x41{01,2})("%string) (GenUnit (fun _ => 1)) = Val (inl lg').
Proof. do 3 eexists. repeat split; vm_compute; reflexivity. Qed.
(** [a|)] is read as a or nothing; the text written for that is not read. *)
Example C78_open : let _ := ascii_env true in
  exists e, regex_parse (str "a|)"%string) = Val (ParseOk e) /\ print_expr e = str "a|"%string /\
    exists errs, regex_parse (print_expr e) = Val (ParseErr errs).
Proof. eexists. split; [vm_compute; reflexivity|]. split; [reflexivity|]. eexists. vm_compute. reflexivity. Qed.
