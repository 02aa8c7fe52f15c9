(** Property C128: shortest counterexamples are computed. *)
From Verif Require Import Base RegexModel SpecRegex NfaModel SpecNfa SpecKleene LexerModel SpecLexer SpecLines SlrWitness SpecQuery QueryProofs QueryLexer PropsQuery
  SpecKinds SpecAlike PropsAlike SpecFind FindProofs.

(** C128: the search returns a shortest text for which the answers of the regular
    expressions are as asked, and none only if there is none. *)
Theorem C128_found {env : Env} (bs : list N) rs phi : changes bs is_alphabetic ->
  match find_text bs rs phi with
  | Some w => (exists l, answers rs w l /\ phi l = true) /\ forall w' l', answers rs w' l' -> phi l' = true -> length w <= length w'
  | None => forall w l, answers rs w l -> phi l = false
  end.
Proof. exact (fun H => find_text_ok bs H rs phi). Qed.
Print Assumptions C128_found.

(** C128: so a shortest text is found that only one of two patterns matches, or that
    a pattern matches otherwise than it is written; that two patterns match both; and that becomes a token of a pattern behind others. *)
Theorem C128_patterns {env : Env} (bs : list N) : changes bs is_alphabetic ->
  (forall e e', match difference bs e e' with
    | Some w => ~ (impl_lang e w <-> impl_lang e' w) /\ forall w', ~ (impl_lang e w' <-> impl_lang e' w') -> length w <= length w'
    | None => forall w, impl_lang e w <-> impl_lang e' w
    end) /\
  (forall e, match mistake bs e with
    | Some w => ~ (impl_lang e w <-> lang e w) /\ forall w', ~ (impl_lang e w' <-> lang e w') -> length w <= length w'
    | None => forall w, impl_lang e w <-> lang e w
    end) /\
  (forall e e', match common bs e e' with
    | Some w => (w <> [] /\ impl_lang e w /\ impl_lang e' w) /\ forall w', w' <> [] /\ impl_lang e w' /\ impl_lang e' w' -> length w <= length w'
    | None => forall w, ~ (w <> [] /\ impl_lang e w /\ impl_lang e' w)
    end) /\
  forall before e, match token_of bs before e with
    | Some w => (w <> [] /\ impl_lang e w /\ ~ matched impl_lang before w) /\
        forall w', w' <> [] /\ impl_lang e w' /\ ~ matched impl_lang before w' -> length w <= length w'
    | None => forall w, ~ (w <> [] /\ impl_lang e w /\ ~ matched impl_lang before w)
    end.
Proof. exact (fun H => conj (difference_ok bs H) (conj (mistake_ok bs H) (conj (common_ok bs H) (token_of_ok bs H)))). Qed.
Print Assumptions C128_patterns.

(** C128: and for two lexers as in C127 a shortest text for which they do not return the same tokens. *)
Theorem C128_lexers {env : Env} {K} `{DecEq K} (bs : list N) (ts ts' : list (list char * generator K)) es es' :
  changes bs is_alphabetic -> parsed ts es -> parsed ts' es' -> goodb bs es = true -> goodb bs es' = true ->
  forallb unit_kind (map snd ts) = true -> forallb unit_kind (map snd ts') = true ->
  let same input := exists lx lx' tks, build_lexer ts input = Val (inl lx) /\ build_lexer ts' input = Val (inl lx') /\ tokens_are lx tks /\ tokens_are lx' tks in
  match odd_text bs es (map snd ts) es' (map snd ts') with
  | Some w => ~ same w /\ forall w', ~ same w' -> length w <= length w'
  | None => forall w, same w
  end.
Proof. exact (fun Hbs => shortest_difference bs Hbs ts ts' es es'). Qed.
Print Assumptions C128_lexers.

(** The shortest text for which [(b*c)+] goes wrong is [c], for [(a+b)+] it is [ab], and [a(b*c)+] never does;
    the shortest that [a+b] and [ab+] share is [ab]; [[e-f]+] makes a token of [f] behind the two others, and [if]
    none behind [[a-z]+]; [(\w\w)*] and [\w*] differ for one letter. *)
Example C128_sample : let _ := ascii_env true in
  changes ascii_cuts is_alphabetic /\
  mistake ascii_cuts (pattern_of "(b*c)+"%string) = Some (str "c"%string) /\ mistake ascii_cuts (pattern_of "(a+b)+"%string) = Some (str "ab"%string) /\ mistake ascii_cuts (pattern_of "a(b*c)+"%string) = None /\
  common ascii_cuts (pattern_of "a+b"%string) (pattern_of "ab+"%string) = Some (str "ab"%string) /\
  common ascii_cuts (pattern_of "a+b"%string) (pattern_of "a+"%string) = None /\
  token_of ascii_cuts (map pattern_of ["if"; "[^f]"]%string) (pattern_of "[e-f]+"%string) = Some (str "f"%string) /\
  token_of ascii_cuts [pattern_of "[a-z]+"%string] (pattern_of "if"%string) = None /\
  difference ascii_cuts (pattern_of "(\w\w)*"%string) (pattern_of "\w*"%string) = Some (str "A"%string) /\
  difference ascii_cuts (pattern_of "aa*"%string) (pattern_of "a+"%string) = None.
Proof. split; [exact C119_ascii|]. repeat match goal with |- _ /\ _ => split end; vm_compute; reflexivity. Qed.

(** The lexers of C127: the second is like the first, the third differs for [if] and no shorter text. *)
Example C128_ways : let _ := ascii_env true in
  odd_text ascii_cuts (patterns_of first_way) (map snd first_way) (patterns_of second_way) (map snd second_way) = None /\
  odd_text ascii_cuts (patterns_of first_way) (map snd first_way) (patterns_of third_way) (map snd third_way) = Some (str "if"%string).
Proof. split; vm_compute; reflexivity. Qed.
