(** Property C119: questions about patterns that a function answers. *)
From Verif Require Import Base RegexModel SpecRegex SpecPanic NfaModel SpecNfa SpecSpin SpecKleene LexerModel SpecLexer SpecMunch SpecLists SpecExact SpecHang LexerWitness
  SpecQuery QueryProofs QueryLexer QueryWhole PropsTurns PropsExact PropsLists.

(** In all of these [bs] lists where being alphabetic changes. *)

(** C119: for every list of regular expressions and every condition on which of them
    match, a function tells whether some text meets the condition. *)
Theorem C119_some_text {env : Env} bs rs phi : changes bs is_alphabetic ->
  exists_text bs rs phi = true <-> exists w l, Forall2 (fun r b => b = true <-> words r w) rs l /\ phi l = true.
Proof. exact (fun H => exists_text_ok bs H rs phi). Qed.
Print Assumptions C119_some_text.

(** C119: whether matching some text never ends; no more parameters are needed than in C117. *)
Theorem C119_hangs {env : Env} bs e m : changes bs is_alphabetic -> nfa_from e = Val m ->
  hangs (fitting bs) e = true <-> exists w, forall (ho : HashOrder) fuel, simulate fuel m w = Diverge.
Proof. exact (fun H => query_hangs bs H e m). Qed.
Print Assumptions C119_hangs.

(** C119: whether the automaton of a pattern matches exactly what the pattern says (C11). *)
Theorem C119_written {env : Env} bs e m : changes bs is_alphabetic -> nfa_from e = Val m -> hangs (fitting bs) e = false ->
  as_written bs e = true <->
  forall w (ho : HashOrder) fuel, patience m <= fuel -> exists b, simulate fuel m w = Val b /\ (b = true <-> lang e w).
Proof. exact (fun H => query_written bs H e m). Qed.
Print Assumptions C119_written.

(** C119: whether two patterns match the same texts. *)
Theorem C119_same {env : Env} bs e m e' m' : changes bs is_alphabetic -> nfa_from e = Val m -> nfa_from e' = Val m' ->
  hangs (fitting bs) e = false -> hangs (fitting bs) e' = false ->
  same_matches bs e e' = true <->
  forall w (ho ho' : HashOrder) fuel fuel', patience m <= fuel -> patience m' <= fuel' -> @simulate env ho fuel m w = @simulate env ho' fuel' m' w.
Proof. exact (fun H => query_same bs H e m e' m'). Qed.
Print Assumptions C119_same.
(** Without the conditions on hanging, for the texts on which both return. *)
Theorem C119_same_any {env : Env} bs e m e' m' (ho ho' : HashOrder) fuel fuel' w b b' : changes bs is_alphabetic ->
  nfa_from e = Val m -> nfa_from e' = Val m' -> same_matches bs e e' = true ->
  @simulate env ho fuel m w = Val b -> @simulate env ho' fuel' m' w = Val b' -> b = b'.
Proof. exact (fun H => query_same_any bs H e m e' m' ho ho' fuel fuel' w b b'). Qed.
Print Assumptions C119_same_any.

(** C119: whether a lexer tokenizes every text by maximal munch (C98). *)
Theorem C119_munch {env : Env} bs (K : Type) (ts : list (list char * generator K)) es : changes bs is_alphabetic -> parsed ts es ->
  (forall e, In e es -> ~ gapped e) -> (forall e, In e es -> loops_ok e = true) ->
  munching bs es = true <->
  forall input lx, build_lexer ts input = Val (inl lx) ->
    exists tks, munches impl_lang es (map snd ts) input 0 tks /\
      exists N lx', forall (ho : HashOrder) fuel, N <= fuel -> lex_calls fuel (S (length tks)) lx = Val (map Some tks ++ [None], lx').
Proof. exact (fun H => query_munch bs H K ts es). Qed.
Print Assumptions C119_munch.

(** C119: whether the first [None] of a lexer is its last word on every text (C98). *)
Theorem C119_end {env : Env} bs (K : Type) (ts : list (list char * generator K)) es : changes bs is_alphabetic -> parsed ts es ->
  (forall e, In e es -> ~ gapped e) -> (forall e, In e es -> loops_ok e = true) ->
  ending bs es = true <->
  forall input lx (ho : HashOrder) fuel n tks rest lx', build_lexer ts input = Val (inl lx) ->
    lex_calls fuel n lx = Val (map Some tks ++ None :: rest, lx') -> Forall (fun o => o = None) rest.
Proof. exact (fun H => query_end bs H K ts es). Qed.
Print Assumptions C119_end.

(** C119: whether a lexer runs for ever on some text. *)
Theorem C119_lexing {env : Env} bs (K : Type) (ts : list (list char * generator K)) es input lx : changes bs is_alphabetic ->
  parsed ts es -> build_lexer ts input = Val (inl lx) ->
  (existsb (hangs (fitting bs)) es = true <->
   exists input' lx' n, build_lexer ts input' = Val (inl lx') /\ forall (ho : HashOrder) fuel, lex_calls fuel n lx' = Diverge).
Proof. exact (fun H Hp => query_lexing bs H K ts es Hp input lx). Qed.
Print Assumptions C119_lexing.

(** C119: whether a pattern can only match what an earlier one matches (C85), and
    whether the order of two patterns can matter (C84). *)
Theorem C119_hidden {env : Env} bs before e : changes bs is_alphabetic -> hidden bs before e = true <-> shadowed impl_lang before e.
Proof. exact (fun H => hidden_ok bs H before e). Qed.
Print Assumptions C119_hidden.
Theorem C119_overlap {env : Env} bs e e' : changes bs is_alphabetic -> overlapping bs e e' = true <-> overlap impl_lang e e'.
Proof. exact (fun H => overlapping_ok bs H e e'). Qed.
Print Assumptions C119_overlap.

(** Where being an ASCII letter changes. *)
Definition ascii_cuts : list N := [65; 91; 97; 123]%N.
Example C119_ascii : changes ascii_cuts (@is_alphabetic (ascii_env true)).
Proof.
  intros x Hx. cbn [In ascii_cuts] in Hx. apply Bool.eq_iff_eq_true. cbn [is_alphabetic ascii_env].
  rewrite !Bool.orb_true_iff, !Bool.andb_true_iff, !N.leb_le. lia.
Qed.

(** A repeated group is matched as written behind a letter, and not at the front. *)
Definition pattern_of {env : Env} (s : String.string) : expr := match regex_parse (str s) with Val (ParseOk e) => e | _ => EEmpty end.
Example C119_written_sample : let _ := ascii_env true in
  as_written ascii_cuts (pattern_of "a(b*c)+"%string) = true /\ hangs (fitting ascii_cuts) (pattern_of "a(b*c)+"%string) = false /\
  as_written ascii_cuts (pattern_of "(b*c)+"%string) = false /\ hangs (fitting ascii_cuts) (pattern_of "(b*c)+"%string) = false.
Proof. repeat split; vm_compute; reflexivity. Qed.

(** Two ways to write the words with an even number of letters, and one that is not. *)
Example C119_same_sample : let _ := ascii_env true in
  same_matches ascii_cuts (pattern_of "(\w\w)*"%string) (pattern_of "((\w\w)+)?"%string) = true /\
  same_matches ascii_cuts (pattern_of "(\w\w)*"%string) (pattern_of "(\w)*"%string) = false.
Proof. repeat split; vm_compute; reflexivity. Qed.

(** [a] and [abc] are not lexed by maximal munch, names and numbers are; the lists
    meet the conditions of the theorem. *)
Example C119_munch_sample : let _ := ascii_env true in
  munching ascii_cuts (map pattern_of ["a"; "abc"]%string) = false /\
  munching ascii_cuts (map pattern_of ["\w+"; "\d+"]%string) = true /\
  forallb loops_ok (map pattern_of ["a"; "abc"; "\w+"; "\d+"]%string) = true.
Proof. repeat split; vm_compute; reflexivity. Qed.

(** A keyword after the names is hidden; a name with a digit is not. *)
Example C119_hidden_sample : let _ := ascii_env true in
  hidden ascii_cuts (map pattern_of ["\w+"; "\d+"]%string) (pattern_of "if"%string) = true /\
  hidden ascii_cuts (map pattern_of ["\w+"; "\d+"]%string) (pattern_of "if1"%string) = false /\
  overlapping ascii_cuts (pattern_of "\w+"%string) (pattern_of "\d+"%string) = false /\
  overlapping ascii_cuts (pattern_of "\w+"%string) (pattern_of "if"%string) = true.
Proof. repeat split; vm_compute; reflexivity. Qed.

(** Over the letters alone every text is lexed, so the end is the end; a text with a
    digit can be stuck. *)
Example C119_end_sample : let _ := ascii_env true in
  ending ascii_cuts (map pattern_of ["."; "ab"]%string) = true /\ ending ascii_cuts [pattern_of "\w"%string] = false.
Proof. repeat split; vm_compute; reflexivity. Qed.
