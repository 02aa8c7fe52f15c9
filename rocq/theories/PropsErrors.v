(** Properties C55 and C56: the errors of the regex parser. *)
From Verif Require Import Base RegexModel ErrorModel SpecRegex SpecPattern SpecDot SpecErrors RegexProofs RegexErrorProofs ErrorTextProofs.

(** C55 fails: the error of [[a-]b] is at the token after the one that is wrong,
    and the one of [ab(c] at the first column although the text ends at the
    fourth. *)
Theorem C55_place_refuted : let _ := ascii_env true in
  (exists w e pre t suf, regex_parse w = Val (ParseErr [e]) /\ tokens_of w = map Tok pre ++ Tok t :: suf /\
     breaks_at pre (Tok t :: suf) /\ pe_pos e <> tk_pos t) /\
  (exists w e pre t, regex_parse w = Val (ParseErr [e]) /\ tokens_of w = map Tok (pre ++ [t]) /\
     breaks_at (pre ++ [t]) [] /\ pe_pos e <> end_of t).
Proof.
  split.
  - exists (str "[a-]b"%string). do 4 eexists. split; [reflexivity|]. split; [|split; [exact range_breaks|]]; [reflexivity|discriminate].
  - exists (str "ab(c"%string), {| pe_kind := PRightParan; pe_pos := (0, 1) |},
      [tk (TMatch ($"a")) 0 1; tk (TMatch ($"b")) 1 2; tk (TOp OLParen) 2 3], (tk (TMatch ($"c")) 3 4).
    split; [reflexivity|]. split; [reflexivity|]. split; [exact paren_breaks|discriminate].
Qed.
Print Assumptions C55_place_refuted.

(** C55 with the position that is really reported: there is one error, and its
    kind tells which position it has relative to the place where the text can no
    longer be continued to a pattern.  Missing: that the position is that place
    (refuted above for two kinds of errors and a third one at the end). *)
Theorem C55_place_partial {env : Env} w errs : regex_parse w = Val (ParseErr errs) ->
  exists e pre suf, errs = [e] /\ tokens_of w = map Tok pre ++ suf /\ breaks_at pre suf /\ reported (pe_kind e) (pe_pos e) pre suf.
Proof. exact (error_place w errs). Qed.
Print Assumptions C55_place_partial.

(** C55: that place is determined by the text. *)
Theorem C55_one_place pre suf pre' suf' : map Tok pre ++ suf = map Tok pre' ++ suf' -> breaks_at pre suf -> breaks_at pre' suf' ->
  pre = pre' /\ suf = suf'.
Proof. exact (breaks_unique pre suf pre' suf'). Qed.
Print Assumptions C55_one_place.

(** The star of [a|*b] begins no item; it is the token at the third column. *)
Example C55_sample : let _ := ascii_env true in
  regex_parse (str "a|*b"%string) = Val (ParseErr [{| pe_kind := PMatchCharacterClassLeftBracket; pe_pos := (2, 3) |}]) /\
  tokens_of (str "a|*b"%string) = map Tok [tk (TMatch ($"a")) 0 1; tk (TOp OVertical) 1 2] ++ [Tok (tk (TQuant QAsterisk) 2 3); Tok (tk (TMatch ($"b")) 3 4)] /\
  breaks_at [tk (TMatch ($"a")) 0 1; tk (TOp OVertical) 1 2] [Tok (tk (TQuant QAsterisk) 2 3); Tok (tk (TMatch ($"b")) 3 4)].
Proof. split; [reflexivity|]. split; [reflexivity|exact star_breaks]. Qed.

(** C56: the text of the errors determines the errors. *)
Theorem C56_text errs errs' : show_errors errs = show_errors errs' -> errs = errs'.
Proof. exact (show_errors_inj errs errs'). Qed.
Print Assumptions C56_text.

(** C56: the text has two lines for each error, the second one empty; the first
    has both positions in decimal and what was expected. *)
Theorem C56_lines errs : exists ls, Forall2 error_line errs ls /\ lines (show_errors errs) = flat_map (fun l => [l; []]) ls ++ [[]].
Proof. exact (error_lines errs). Qed.
Print Assumptions C56_lines.

Example C56_sample : let _ := ascii_env true in
  exists errs, regex_parse (str "a|b|"%string) = Val (ParseErr errs) /\
    show_errors errs = str "[ERROR] (3, 4): expected at least one sub expression"%string ++ [10; 10]%N.
Proof. eexists. split; [reflexivity|vm_compute; reflexivity]. Qed.
