(** Property C92: patterns match exactly the regular languages. *)
From Verif Require Import Base RegexModel SpecRegex NfaModel SpecNfa LexerModel SpecKleene KleeneProofs.

(** C92: for every textbook regular expression there is a pattern.  It is parsed,
    its automaton is built, its textbook language is that of the expression, and for every text
    the matcher says whether the text is in that language; for every hash order.  [add_token] takes the pattern. *)
Theorem C92_every_regular r : exists p e m, forall (env : Env),
  regex_parse p = Val (ParseOk e) /\ nfa_from e = Val m /\ (forall x, lang e x <-> words r x) /\
  (forall x, exists N b, (b = true <-> words r x) /\ forall (ho : HashOrder) fuel, N <= fuel -> simulate fuel m x = Val b) /\
  forall (K : Type) (lg0 lg : lexgen K) ts g, lexgen_new = Val lg0 -> add_tokens lg0 ts = Val (inl lg) ->
    exists lg', add_token lg p g = Val (inl lg').
Proof. exact (every_regular r). Qed.
Print Assumptions C92_every_regular.

(** Every automaton that is built has a regular expression for exactly the texts its matcher takes. *)
Theorem C92_only_regular e m : nfa_from e = Val m -> exists r, forall (env : Env) (ho : HashOrder) fuel x b,
  simulate fuel m x = Val b -> (b = true <-> words r x).
Proof. exact (only_regular e m). Qed.
Print Assumptions C92_only_regular.

(** So has the textbook language of every pattern, with counts and ranges. *)
Theorem C92_textbook_regular e : exists r, forall (env : Env) x, lang e x <-> words r x.
Proof. exact (textbook_regular e). Qed.
Print Assumptions C92_textbook_regular.

(** For a pattern that is not matched as the textbook has it, there is another one
    that is, and that matches what the first one matched. *)
Theorem C92_replacement e m : nfa_from e = Val m -> exists p' e' m', forall (env : Env),
  regex_parse p' = Val (ParseOk e') /\ nfa_from e' = Val m' /\
  (forall (ho : HashOrder) fuel x b, simulate fuel m x = Val b -> (b = true <-> lang e' x)) /\
  (forall (ho : HashOrder) fuel x b, simulate fuel m x = Val b ->
     exists N, forall (ho' : HashOrder) fuel', N <= fuel' -> simulate fuel' m' x = Val b).
Proof. exact (has_replacement e m). Qed.
Print Assumptions C92_replacement.

(** The texts over [a] and [b] with an even number of [b]: one of their patterns, and what its matcher says. *)
Example C92_sample {env : Env} : words even_b (str "abab"%string) /\ ~ words even_b (str "b"%string) /\
  regex_parse (print_expr (pattern_expr even_b)) = Val (ParseOk (pattern_expr even_b)) /\
  forall x, lang (pattern_expr even_b) x <-> words even_b x.
Proof.
  split; [|split; [|split]].
  - apply (star_more _ (str "a"%string) (str "bab"%string)).
    + left. eexists. split; reflexivity.
    + change (str "bab"%string) with (str "bab"%string ++ []). constructor; [|constructor]. right.
      exists (str "b"%string), (str "ab"%string). split; [reflexivity|]. split; [eexists; split; reflexivity|].
      exists (str "a"%string), (str "b"%string). split; [reflexivity|]. split; [|eexists; split; reflexivity].
      change (str "a"%string) with (str "a"%string ++ []). constructor; [eexists; split; reflexivity|constructor].
  - exact even_b_not.
  - apply RegexProofs.round_trip, pattern_good.
  - apply pattern_lang.
Qed.

Example C92_run : let _ := ascii_env true in
  map (fun x => let! m := nfa_from (pattern_expr even_b) in simulate (ho := id_order) 60 m (str x))
    ["abab"; ""; "babb"; "aaa"]%string = [Val true; Val true; Val false; Val true].
Proof. vm_compute. reflexivity. Qed.

(** [(a*b){1}] is not matched as the textbook has it. *)
Example C92_odd : let _ := ascii_env true in
  exists e m, regex_parse (str "(a*b){1}"%string) = Val (ParseOk e) /\ nfa_from e = Val m /\
    ~ lang e (str "abab"%string) /\ simulate (ho := id_order) 60 m (str "abab"%string) = Val true.
Proof.
  eexists. eexists. split; [vm_compute; reflexivity|]. split; [vm_compute; reflexivity|]. split; [|vm_compute; reflexivity].
  exact odd_not.
Qed.
