(** Property C129: the shortest texts of which a lexer drops a token. *)
From Verif Require Import Base RegexModel SpecRegex SpecPanic NfaModel SpecNfa SpecKleene LexerModel SpecLexer SpecMunch SlrWitness LexerWitness
  SpecQuery QueryProofs PropsQuery ExactProofs PropsExact SpecFind FindProofs DropProofs.

(** C129: the search returns a shortest text that begins with a token and for which no call ever returns one; if it
    returns none, the first call returns a token for every text that begins with one. *)
Theorem C129_shortest {env : Env} (K : Type) (bs : list N) (ts : list (list char * generator K)) es :
  changes bs is_alphabetic -> parsed ts es -> (forall e, In e es -> ~ gapped e) -> (forall e, In e es -> loops_ok e = true) ->
  let begins w := exists x y, w = x ++ y /\ x <> [] /\ matched impl_lang es x in
  let silent n w := exists lx N lx', build_lexer ts w = Val (inl lx) /\ forall (ho : HashOrder) fuel, N <= fuel -> lex_calls fuel n lx = Val (repeat None n, lx') in
  match dropped bs es with
  | Some w => begins w /\ (forall n, silent n w) /\ forall w', begins w' -> silent 1 w' -> length w <= length w'
  | None => forall w, begins w -> ~ silent 1 w
  end.
Proof. exact (fun Hbs Hp Hg Hl => shortest_drop bs Hbs ts es Hp Hg Hl). Qed.
Print Assumptions C129_shortest.

(** C129: it returns none exactly if every text is tokenized by maximal munch. *)
Theorem C129_munch {env : Env} (K : Type) (bs : list N) (ts : list (list char * generator K)) es :
  changes bs is_alphabetic -> parsed ts es -> (forall e, In e es -> ~ gapped e) -> (forall e, In e es -> loops_ok e = true) ->
  dropped bs es = None <->
  forall input lx, build_lexer ts input = Val (inl lx) ->
    exists tks, munches impl_lang es (map snd ts) input 0 tks /\
      exists N lx', forall (ho : HashOrder) fuel, N <= fuel -> lex_calls fuel (S (length tks)) lx = Val (map Some tks ++ [None], lx').
Proof. exact (fun Hbs Hp Hg Hl => none_munches bs Hbs ts es Hp Hg Hl). Qed.
Print Assumptions C129_munch.

(** With [a] and [abc] the shortest such text is [ab]; with numbers that may have an exponent it is [0e];
    with [b+] and [a] there is none. *)
Example C129_sample : let _ := ascii_env true in
  changes ascii_cuts is_alphabetic /\ parsed cut_tokens cut_es /\ (forall e, In e cut_es -> ~ gapped e) /\ (forall e, In e cut_es -> loops_ok e = true) /\
  dropped ascii_cuts cut_es = Some (str "ab"%string) /\
  dropped ascii_cuts (map pattern_of ["[0-9]+"; "[0-9]+e[0-9]+"]%string) = Some (str "0e"%string) /\
  dropped ascii_cuts run_es = None.
Proof.
  intros e0. split; [exact C119_ascii|]. destruct (C98_sample (env := e0)) as (H1 & _ & H2 & H3 & _). split; [exact H1|]. split; [exact H2|]. split; [exact H3|].
  repeat match goal with |- _ /\ _ => split end; vm_compute; reflexivity.
Qed.
