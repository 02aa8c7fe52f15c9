(** Property C127: whether two lexers return the same tokens is computed. *)
From Verif Require Import Base RegexModel SpecRegex NfaModel SpecNfa LexerModel SpecLexer SpecLines SpecPanic
  GrammarModel CfsmModel SlrModel PangoModel SlrWitness SpecQuery QueryLexer PropsQuery SpecCertify SpecKinds SpecAlike AlikeProofs.

(** C127: what is computed of one list of patterns, and of two: whether they match the same texts, the empty one aside,
    and whether the first patterns that match such a text always have the same token. *)
Theorem C127_conditions {env : Env} (bs : list N) : changes bs is_alphabetic ->
  (forall es, goodb bs es = true <-> steady es /\ forall e, In e es -> ~ gapped e /\ loops_ok e = true) /\
  forall (K : Type) (dk : DecEq K) es (gens : list (generator K)) es' gens', alikeb bs es gens es' gens' = true <->
    (forall x, x <> [] -> matched impl_lang es x <-> matched impl_lang es' x) /\
    forall x i i' k k', x <> [] -> first_match impl_lang es x i -> first_match impl_lang es' x i' -> nth_error gens i = Some k -> nth_error gens' i' = Some k' ->
      gen_run k [] = gen_run k' [].
Proof. exact (fun H => conj (goodb_ok bs H) (fun K dk => alikeb_ok bs H)). Qed.
Print Assumptions C127_conditions.

(** C127: two lexers that tokenize by maximal munch and whose tokens do not depend
    on their texts return the same tokens, with the same texts and positions, for every text exactly if the computed answer is yes. *)
Theorem C127_alike {env : Env} {K} `{DecEq K} (bs : list N) (ts ts' : list (list char * generator K)) es es' :
  changes bs is_alphabetic -> parsed ts es -> parsed ts' es' -> goodb bs es = true -> goodb bs es' = true ->
  forallb unit_kind (map snd ts) = true -> forallb unit_kind (map snd ts') = true ->
  alikeb bs es (map snd ts) es' (map snd ts') = true <->
  forall input, exists lx lx' tks, build_lexer ts input = Val (inl lx) /\ build_lexer ts' input = Val (inl lx') /\ tokens_are lx tks /\ tokens_are lx' tks.
Proof. exact (fun Hbs => lexers_alike bs Hbs ts ts' es es'). Qed.
Print Assumptions C127_alike.

(** C127: then every parser returns the same for both. *)
Theorem C127_parsers {env : Env} {V K} `{DecEq V} `{DecEq K} (bs : list N) (ts ts' : list (list char * generator K)) es es' :
  changes bs is_alphabetic -> parsed ts es -> parsed ts' es' -> goodb bs es = true -> goodb bs es' = true ->
  forallb unit_kind (map snd ts) = true -> forallb unit_kind (map snd ts') = true -> alikeb bs es (map snd ts) es' (map snd ts') = true ->
  forall input, exists lx lx', build_lexer ts input = Val (inl lx) /\ build_lexer ts' input = Val (inl lx') /\
    forall (ho : HashOrder) teq (tb : table V K), exists N, forall fuel, N <= fuel -> parse_lexer teq fuel tb lx = parse_lexer teq fuel tb lx'.
Proof. exact (fun Hbs => parsers_alike bs Hbs ts ts' es es'). Qed.
Print Assumptions C127_parsers.

(** A keyword, names, numbers and single other characters; the same with the
    names written in another way, the numbers first and a pattern more that is never the first to match; and
    with the keyword behind the names. *)
Definition unit_tokens (l : list (String.string * nat)) : list (list char * generator nat) := map (fun x => (str (fst x), GenUnit (fun _ => snd x))) l.
Definition first_way := unit_tokens [("if", 1); ("[a-z]+", 2); ("\d+", 3); ("[^a-z\d]", 4)]%string.
Definition second_way := unit_tokens [("\d+", 3); ("if", 1); ("[a-m]|[a-z]+|[n-z]", 2); ("[^a-z\d]", 4); ("x|7", 5)]%string.
Definition third_way := unit_tokens [("[a-z]+", 2); ("if", 1); ("\d+", 3); ("[^a-z\d]", 4)]%string.
Definition fourth_way := unit_tokens [("if", 1); ("[a-z]+", 2); ("\d+", 3); ("[^a-z]", 4)]%string.
Definition patterns_of {env : Env} (ts : list (list char * generator nat)) : list expr :=
  map (fun t => match regex_parse (fst t) with Val (ParseOk e) => e | _ => EEmpty end) ts.
Example C127_sample : let _ := ascii_env true in
  changes ascii_cuts is_alphabetic /\ parsed first_way (patterns_of first_way) /\ parsed second_way (patterns_of second_way) /\ parsed third_way (patterns_of third_way) /\
  goodb ascii_cuts (patterns_of first_way) = true /\ goodb ascii_cuts (patterns_of second_way) = true /\ goodb ascii_cuts (patterns_of third_way) = true /\
  forallb unit_kind (map snd first_way) = true /\ forallb unit_kind (map snd second_way) = true /\ forallb unit_kind (map snd third_way) = true /\
  alikeb ascii_cuts (patterns_of first_way) (map snd first_way) (patterns_of second_way) (map snd second_way) = true /\
  alikeb ascii_cuts (patterns_of first_way) (map snd first_way) (patterns_of third_way) (map snd third_way) = false.
Proof.
  split; [exact C119_ascii|]. do 3 (split; [repeat constructor|]). repeat match goal with |- _ /\ _ => split end; vm_compute; reflexivity.
Qed.

(** A last pattern that also matches digits, which an earlier one matches, changes nothing;
    without the keyword, or without the last pattern, the tokens are others. *)
Example C127_changes : let _ := ascii_env true in
  alikeb ascii_cuts (patterns_of first_way) (map snd first_way) (patterns_of fourth_way) (map snd fourth_way) = true /\
  alikeb ascii_cuts (patterns_of first_way) (map snd first_way) (patterns_of (tl first_way)) (map snd (tl first_way)) = false /\
  alikeb ascii_cuts (patterns_of first_way) (map snd first_way) (patterns_of (removelast first_way)) (map snd (removelast first_way)) = false.
Proof. vm_compute. repeat split. Qed.
