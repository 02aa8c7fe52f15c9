(** Property C130: the shortest texts with a token after the first [None]. *)
From Verif Require Import Base RegexModel SpecRegex SpecPanic NfaModel SpecNfa SpecKleene LexerModel SpecLexer SlrWitness
  SpecQuery QueryProofs PropsQuery PropsExact SpecFind SpecLate LateProofs.

(** C130: the search returns a shortest text for which a call returns [None] and a later one a token; if it
    returns none, there is no such text. *)
Theorem C130_shortest {env : Env} (K : Type) (bs : list N) (ts : list (list char * generator K)) es :
  changes bs is_alphabetic -> parsed ts es -> (forall e, In e es -> ~ gapped e) -> (forall e, In e es -> loops_ok e = true) ->
  let late n w := exists lx N lx' tks os t, build_lexer ts w = Val (inl lx) /\ In (Some t) os /\
    forall (ho : HashOrder) fuel, N <= fuel -> lex_calls fuel n lx = Val (map Some tks ++ None :: os, lx') in
  match late_text bs es with
  | Some w => late 2 w /\ forall n w', late n w' -> length w <= length w'
  | None => forall n w, ~ late n w
  end.
Proof. exact (fun Hbs Hp Hg Hl => shortest_late bs Hbs ts es Hp Hg Hl). Qed.
Print Assumptions C130_shortest.

(** With [a] and [abc] it is a character that cannot be read, and [a]; with [ab] and [cde] likewise, and [ab]; with
    [a] and [[^a]] there is none. *)
Example C130_sample : let _ := ascii_env true in
  changes ascii_cuts is_alphabetic /\ parsed cut_tokens cut_es /\ (forall e, In e cut_es -> ~ gapped e) /\ (forall e, In e cut_es -> loops_ok e = true) /\
  late_text ascii_cuts cut_es = Some [0%N; $"a"] /\
  late_text ascii_cuts (map pattern_of ["ab"; "cde"]%string) = Some (0%N :: str "ab"%string) /\
  late_text ascii_cuts all_es = None.
Proof.
  intros e0. split; [exact C119_ascii|]. destruct (C98_sample (env := e0)) as (H1 & _ & H2 & H3 & _). split; [exact H1|]. split; [exact H2|]. split; [exact H3|].
  repeat match goal with |- _ /\ _ => split end; vm_compute; reflexivity.
Qed.
