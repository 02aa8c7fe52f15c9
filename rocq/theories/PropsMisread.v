(** Property C131: the shortest texts that a lexer misreads. *)
From Verif Require Import Base RegexModel SpecRegex NfaModel SpecNfa SpecKleene LexerModel SpecLexer SpecMunch SpecLines SlrWitness
  SpecQuery QueryProofs PropsQuery SpecKinds SpecAlike PropsAlike SpecFind SpecMisread MisreadProofs.

(** C131: for patterns and tokens that say what is meant, the search returns a shortest text whose tokens are not those
    of a maximal munch with what these patterns are written for; if it returns none, the tokens are as meant for every text. *)
Theorem C131_shortest {env : Env} {K} `{DecEq K} (bs : list N) (ts : list (list char * generator K)) es es' gens' :
  changes bs is_alphabetic -> parsed ts es -> goodb bs es = true -> length gens' = length es' ->
  forallb unit_kind (map snd ts) = true -> forallb unit_kind gens' = true ->
  let right input := exists lx tks, build_lexer ts input = Val (inl lx) /\ tokens_are lx tks /\ munches lang es' gens' input 0 tks in
  match misread bs es (map snd ts) es' gens' with
  | Some w => ~ right w /\ forall w', ~ right w' -> length w <= length w'
  | None => forall w, right w
  end.
Proof. exact (fun Hbs => shortest_misread bs Hbs ts es es' gens'). Qed.
Print Assumptions C131_shortest.

Definition nested_way := unit_tokens [("(a+)+", 1); ("c", 2)]%string.
(** The lexer of [(a+)+] and [c] misreads [a]; that of C127 reads all as it is written, and as the second way is
    written, but [if] otherwise than the third. *)
Example C131_sample : let _ := ascii_env true in
  let misreads w w' := misread ascii_cuts (patterns_of w) (map snd w) (patterns_of w') (map snd w') in
  changes ascii_cuts is_alphabetic /\ parsed nested_way (patterns_of nested_way) /\ goodb ascii_cuts (patterns_of nested_way) = true /\
  forallb unit_kind (map snd nested_way) = true /\ misreads nested_way nested_way = Some (str "a"%string) /\
  parsed first_way (patterns_of first_way) /\ goodb ascii_cuts (patterns_of first_way) = true /\
  misreads first_way first_way = None /\ misreads first_way second_way = None /\ misreads first_way third_way = Some (str "if"%string).
Proof.
  intros e0 misreads. split; [exact C119_ascii|]. split; [repeat constructor|]. do 3 (split; [vm_compute; reflexivity|]). split; [repeat constructor|].
  repeat match goal with |- _ /\ _ => split end; vm_compute; reflexivity.
Qed.
