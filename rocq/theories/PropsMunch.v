(** Properties C57, C58: the texts that can be fed to a simulator, and maximal
    munch. *)
From Verif Require Import Base RegexModel SpecRegex NfaModel SpecNfa LexerModel SpecLexer SpecMunch NfaWitness NfaBegun LexerWitness LexerMunch.

(** C57 fails: [a?] can be fed [aa], which is the beginning of no match, since the
    rounds are counted when the repetition is left. *)
Theorem C57_viable_refuted {env : Env} :
  exists e m w, regex_parse (str "a?"%string) = Val (ParseOk e) /\ nfa_from e = Val m /\ (forall v, ~ lang e (w ++ v)) /\
    forall (ho : HashOrder), exists N, forall fuel, N <= fuel -> exists rs, sim_text fuel m w = Val rs /\ rs <> [].
Proof.
  exists (ELit (LMatch ($"a")) (Some QQuestion)). eexists. exists (str "aa"%string). split; [vm_compute; reflexivity|].
  split; [vm_compute; reflexivity|]. split; [exact question_aa|]. apply question_alive. vm_compute. reflexivity.
Qed.
Print Assumptions C57_viable_refuted.

(** C57, what holds for every regex: after a text a run is left exactly if the
    text was begun in the sense of [impl_begun]. *)
Theorem C57_alive {env : Env} (ho : HashOrder) e m fuel w rs :
  nfa_from e = Val m -> sim_text fuel m w = Val rs -> rs <> [] <-> impl_begun e w.
Proof. exact (alive_begun ho e m fuel w rs). Qed.
Print Assumptions C57_alive.
(** The same for the simulator of a lexer. *)
Theorem C57_lexer_alive {env : Env} (K : Type) (ts : list (list char * generator K)) input lx es (ho : HashOrder) fuel w rs :
  build_lexer ts input = Val (inl lx) -> parsed ts es -> sim_text fuel (lx_nfa lx) w = Val rs -> rs <> [] <-> feedable es w.
Proof. exact (lexer_feedable ts input lx es ho fuel w rs). Qed.
Print Assumptions C57_lexer_alive.
(** With leading repetitions as in C11, this is [begun], which knows nothing of
    how repetitions are entered. *)
Theorem C57_begun_partial {env : Env} (ho : HashOrder) e m fuel w rs :
  nfa_from e = Val m -> lead_ok e = true -> sim_text fuel m w = Val rs -> rs <> [] <-> begun e w.
Proof. exact (alive_lead ho e m fuel w rs). Qed.
Print Assumptions C57_begun_partial.
(** If moreover no repetition has an upper bound and no literal is empty, a run is
    left exactly if the text can be completed to a match. *)
Theorem C57_viable_partial {env : Env} (ho : HashOrder) e m fuel w rs :
  nfa_from e = Val m -> lead_ok e = true -> endless e -> sim_text fuel m w = Val rs ->
  rs <> [] <-> exists v, lang e (w ++ v).
Proof. exact (alive_viable ho e m fuel w rs). Qed.
Print Assumptions C57_viable_partial.
Example C57_sample : let _ := ascii_env true in let _ := id_order in
  exists e m, regex_parse (str "x(ab+){2,}|\d"%string) = Val (ParseOk e) /\ nfa_from e = Val m /\ lead_ok e = true /\ endless e /\
    (exists rs, sim_text 50 m (str "xabba"%string) = Val rs /\ rs <> []) /\ sim_text 50 m (str "xb"%string) = Val [].
Proof.
  eexists. eexists. split; [vm_compute; reflexivity|]. split; [vm_compute; reflexivity|]. split; [reflexivity|].
  split; [|split; [eexists; split; [vm_compute; reflexivity|discriminate]|vm_compute; reflexivity]].
  cbn. repeat split; eauto. exists ($"0"). vm_compute. split; discriminate.
Qed.

(** C58: for steady patterns whose loops cannot spin, the lexer returns exactly the
    tokens of maximal munch and then [None], for every hash order; there is only
    one such list of tokens. *)
Theorem C58_munch_partial {env : Env} (K : Type) (ts : list (list char * generator K)) input lx es L :
  build_lexer ts input = Val (inl lx) -> parsed ts es -> agreed L es -> steady es -> (forall e, In e es -> loops_ok e = true) ->
  exists tks, munches L es (map snd ts) input 0 tks /\
    forall n, exists N rest lx', forall (ho : HashOrder) fuel, N <= fuel ->
      lex_calls fuel (length tks + S n) lx = Val (map Some tks ++ None :: rest, lx').
Proof. exact (fun Hb Hp => lexer_munch ts input lx es Hb Hp L). Qed.
Print Assumptions C58_munch_partial.
(** Whatever the loops, tokens that end with [None] are those of maximal munch. *)
Theorem C58_calls_partial {env : Env} (K : Type) (ts : list (list char * generator K)) input lx es L (ho : HashOrder) fuel n tks rest lx' :
  build_lexer ts input = Val (inl lx) -> parsed ts es -> agreed L es -> steady es ->
  lex_calls fuel n lx = Val (map Some tks ++ None :: rest, lx') -> munches L es (map snd ts) input 0 tks.
Proof. exact (fun Hb Hp => calls_munch ts input lx es Hb Hp L ho fuel n tks rest lx'). Qed.
Print Assumptions C58_calls_partial.
Theorem C58_unique {env : Env} (K : Type) L es (gens : list (generator K)) input p tks tks' :
  munches L es gens input p tks -> munches L es gens input p tks' -> tks' = tks.
Proof. exact (fun H => munches_unique L es gens input p tks H tks'). Qed.
Print Assumptions C58_unique.
Example C58_sample {env : Env} : exists lx, build_lexer run_tokens (str "bbab!"%string) = Val (inl lx) /\ parsed run_tokens run_es /\
  agreed lang run_es /\ steady run_es /\ (forall e, In e run_es -> loops_ok e = true) /\
  munches lang run_es (map snd run_tokens) (str "bbab!"%string) 0
    [{| lt_kind := 2; lt_source := str "bb"%string; lt_pos := (0, 2) |}; {| lt_kind := 0; lt_source := str "a"%string; lt_pos := (2, 3) |};
     {| lt_kind := 1; lt_source := str "b"%string; lt_pos := (3, 4) |}].
Proof.
  eexists. split; [vm_compute; reflexivity|]. split; [exact run_parsed|]. split; [exact run_agreed|]. split; [exact run_steady|].
  split; [intros e [<-|[<-|[]]]; reflexivity|].
  eapply (calls_munch run_tokens (str "bbab!"%string) _ run_es) with (ho := id_order) (fuel := 60) (n := 4);
    [vm_compute; reflexivity|exact run_parsed|exact run_agreed|exact run_steady|]. vm_compute. reflexivity.
Qed.
