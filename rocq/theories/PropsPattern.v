(** Property C48: which patterns the regex parser takes. *)
From Verif Require Import Base RegexModel SpecRegex SpecPattern RegexProofs RegexAcceptProofs.

(** C48: however the tokens are spelled, the parser returns the regex [e] exactly
    if the tokens are read as [e], and reports an error exactly if they are not
    read as anything. *)
Theorem C48_accepted {env : Env} w ks : stream_kinds (tokens_of w) = Some ks ->
  (forall e, regex_parse w = Val (ParseOk e) <-> read_as ks e) /\
  ((exists errs, regex_parse w = Val (ParseErr errs)) <-> ~ exists e, read_as ks e).
Proof. intros Hk. split; [exact (fun e => parse_reads w ks e Hk)|exact (parse_rejects w ks Hk)]. Qed.
Print Assumptions C48_accepted.

(** C48: tokens are read in at most one way. *)
Theorem C48_one_reading {env : Env} w ks e e' : stream_kinds (tokens_of w) = Some ks ->
  read_as ks e -> read_as ks e' -> e = e'.
Proof. exact (read_as_unique w ks e e'). Qed.
Print Assumptions C48_one_reading.

(** A pattern with an empty alternative in a group and a stray parenthesis. *)
Example C48_sample : let _ := ascii_env true in
  exists ks, stream_kinds (tokens_of (str "(|a)b)*"%string)) = Some ks /\
    read_as ks (EConcat [EGroup (EAlt (EConcat []) (ELit (LMatch ($"a")) None)) None; ELit (LMatch ($"b")) None]).
Proof.
  eexists. split; [reflexivity|].
  apply (read_stray (EConcat [EGroup (EAlt (EConcat []) (ELit (LMatch ($"a")) None)) None; ELit (LMatch ($"b")) None])).
  apply loose_expr_sub, loose_sub_many; [|constructor|constructor].
  apply loose_item_group, loose_expr_alt; [apply loose_sub_none|]. repeat constructor.
Qed.

(** A pattern that is not read as anything: it stops where an alternative is due. *)
Example C48_rejected_sample : let _ := ascii_env true in
  exists ks, stream_kinds (tokens_of (str "a|"%string)) = Some ks /\ ~ exists e, read_as ks e.
Proof.
  eexists. split; [reflexivity|].
  apply (@C48_accepted (ascii_env true) (str "a|"%string) _ eq_refl). eexists. reflexivity.
Qed.
