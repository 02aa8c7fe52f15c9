(** Property C62: when matching ends, exactly. *)
From Verif Require Import Base RegexModel SpecRegex NfaModel SpecNfa LexerModel SpecLexer SpecCalls SpecSpin SpecStuck
  NfaSpin LexerSpin LexerWitness DecideLexer PropsLexer.

(** C62: for every regex and every text, with every hash order: the simulation
    never ends if a first part of the text makes the regex spin, and ends
    otherwise. *)
Theorem C62_matching_ends_exactly {env : Env} e m w : nfa_from e = Val m ->
  (spinning e w -> forall (ho : HashOrder) fuel, simulate fuel m w = Diverge) /\
  (~ spinning e w -> exists N, forall (ho : HashOrder) fuel, N <= fuel -> exists b, simulate fuel m w = Val b).
Proof. exact (spinning_exact e m w). Qed.
Print Assumptions C62_matching_ends_exactly.
(** For each hash order by itself: it never ends exactly then. *)
Theorem C62_matching_iff {env : Env} (ho : HashOrder) e m w : nfa_from e = Val m ->
  (forall fuel, simulate fuel m w = Diverge) <-> spinning e w.
Proof. exact (matching_never_ends ho e m w). Qed.
Print Assumptions C62_matching_iff.
(** The same in terms of the regular languages alone, for the regexes that are
    matched correctly. *)
Theorem C62_matching_ends_regular {env : Env} e m w : nfa_from e = Val m -> lead_ok e = true ->
  ((exists u v, w = u ++ v /\ u <> [] /\ spins e u) -> forall (ho : HashOrder) fuel, simulate fuel m w = Diverge) /\
  ((forall u v, w = u ++ v -> u <> [] -> ~ spins e u) ->
   exists N, forall (ho : HashOrder) fuel, N <= fuel -> exists b, simulate fuel m w = Val b).
Proof. exact (lead_spinning e m w). Qed.
Print Assumptions C62_matching_ends_regular.
(** The condition of C12 is sufficient. *)
Theorem C62_loops_never_spin {env : Env} e w : loops_ok e = true -> ~ spinning e w.
Proof. exact (loops_spinning e w). Qed.
Print Assumptions C62_loops_never_spin.
(** The lexer: if the calls of the specification come to a point where what is
    to be read next makes a pattern spin, the next call never returns. *)
Theorem C62_lexing_never_ends {env : Env} (K : Type) (ts : list (list char * generator K)) input lx es L os s (ho : HashOrder) fuel n :
  build_lexer ts input = Val (inl lx) -> parsed ts es -> agreed L es ->
  reaches L es (map snd ts) (starting input) os s -> stuck es s -> length os < n -> lex_calls fuel n lx = Diverge.
Proof. exact (lexer_stuck ts input lx es L os s ho fuel n). Qed.
Print Assumptions C62_lexing_never_ends.
(** Otherwise all calls return, with the results of the specification. *)
Theorem C62_lexing_ends {env : Env} (K : Type) (ts : list (list char * generator K)) input lx es L n :
  build_lexer ts input = Val (inl lx) -> parsed ts es -> agreed L es ->
  (forall os s, reaches L es (map snd ts) (starting input) os s -> length os < n -> ~ stuck es s) ->
  exists os N lx', length os = n /\ calls L es (map snd ts) (starting input) os /\
    forall (ho : HashOrder) fuel, N <= fuel -> lex_calls fuel n lx = Val (os, lx').
Proof. exact (lexer_free ts input lx es L n). Qed.
Print Assumptions C62_lexing_ends.
(** So calls of the lexer never return exactly if they come to such a point. *)
Theorem C62_lexing_iff {env : Env} (K : Type) (ts : list (list char * generator K)) input lx es L n (ho : HashOrder) :
  build_lexer ts input = Val (inl lx) -> parsed ts es -> agreed L es ->
  ((forall fuel, lex_calls fuel n lx = Diverge) <->
   exists os s, reaches L es (map snd ts) (starting input) os s /\ length os < n /\ stuck es s).
Proof. exact (lexing_never_ends ts input lx es L n ho). Qed.
Print Assumptions C62_lexing_iff.

(** A text that makes a correctly matched regex spin, and one that does not. *)
Definition spinner : expr :=
  EConcat [ELit (LMatch ($"a")) None; EGroup (ELit (LMatch ($"b")) (Some QAsterisk)) (Some QAsterisk)].
Lemma spinner_spins {env : Env} : spinning spinner (str "ab"%string).
Proof.
  exists (str "a"%string), (str "b"%string). split; [reflexivity|]. right. left. exists (str "a"%string), [].
  split; [reflexivity|]. split; [left; exists ($"a"); split; reflexivity|].
  left. exists 0, [], []. split; [reflexivity|]. split; [reflexivity|]. left. split; [reflexivity|]. exists 0. split; [exact I|reflexivity].
Qed.
Lemma spinner_free {env : Env} w : spinning spinner w -> exists v, w = $"a" :: v.
Proof.
  intros (u & v & -> & [[]|[(u1 & u2 & -> & [(c & -> & Hc)|[]] & _)|[[] _]]]).
  cbn in Hc. subst c. eexists. reflexivity.
Qed.
Example C62_sample {env : Env} : exists m, regex_parse (str "a(b*)*"%string) = Val (ParseOk spinner) /\ nfa_from spinner = Val m /\
  lead_ok spinner = true /\ spinning spinner (str "ab"%string) /\ ~ spinning spinner (str "xab"%string) /\ loops_ok spinner = false.
Proof.
  eexists. split; [vm_compute; reflexivity|]. split; [vm_compute; reflexivity|]. split; [reflexivity|]. split; [exact spinner_spins|].
  split; [|reflexivity]. intros H. destruct (spinner_free _ H) as (v & E). discriminate E.
Qed.
(** Rounds that match only the empty text cannot be entered: the condition of
    C12 is not necessary. *)
Definition still : expr := EGroup (ELit (LMatch ($"a")) (Some (QMax 0))) (Some QAsterisk).
Example C62_still {env : Env} : regex_parse (str "(a{0})*"%string) = Val (ParseOk still) /\ loops_ok still = false /\
  forall w, ~ spinning still w.
Proof.
  split; [vm_compute; reflexivity|]. split; [reflexivity|]. intros w (u & v & _ & [[]|(u1 & u2 & _ & [[]|H] & _)]).
  destruct H as (n & Hn & _). cbn in Hn. lia.
Qed.
(** The first call returns a token, the second never returns. *)
Definition spin_tokens : list (list char * generator (nat * list char)) := plain ["x"; "a(b*)*"]%string.
Definition spin_es : list expr := [ELit (LMatch ($"x")) None; spinner].
Example C62_lexer_sample {env : Env} : exists lx s, build_lexer spin_tokens (str "xab"%string) = Val (inl lx) /\ parsed spin_tokens spin_es /\
  agreed lang spin_es /\ reaches lang spin_es (map snd spin_tokens) (starting (str "xab"%string)) [Some (tok 0 "x" 0 1)] s /\
  stuck spin_es s /\ ~ stuck spin_es (starting (str "xab"%string)).
Proof.
  eexists. exists {| h_from := 1; h_junk := []; h_back := [(1, $"a")]; h_rest := [(2, $"b")] |}.
  split; [vm_compute; reflexivity|]. split; [repeat constructor|].
  assert (Ha : agreed lang spin_es) by (right; split; [reflexivity|]; intros e [<-|[<-|[]]]; reflexivity).
  split; [exact Ha|]. split; [|split].
  - eapply reaches_cons; [|constructor].
    apply (call_token lang spin_es (map snd spin_tokens) (starting (str "xab"%string)) [(0, $"x")] [] (1, $"a") [(2, $"b")] 0
      (GenMap (fun s => (0, s)))); [reflexivity|discriminate| | | |reflexivity|].
    + right. exists (ELit (LMatch ($"x")) None). split; [left; reflexivity|]. right. exists ($"x"). split; reflexivity.
    + intros [H|(e & [<-|[<-|[]]] & H)]; [discriminate H| |].
      * destruct H as [H|(c & H & _)]; discriminate H.
      * destruct H as [[H|(c & H & _)]|[(u & v & H & [(c & -> & Hc)|[]] & _)|[[] _]]]; [discriminate H..|].
        cbn in Hc. subst c. discriminate H.
    + split; [eexists; split; [reflexivity|exists ($"x"); split; reflexivity]|]. intros j e Hj. lia.
    + intros v1 v2 E Hv. destruct v1; [destruct (Hv eq_refl)|discriminate E].
  - exists spinner. split; [right; left; reflexivity|]. exact spinner_spins.
  - intros (e & [<-|[<-|[]]] & H).
    + destruct H as (u & v & _ & []).
    + destruct (spinner_free _ H) as (v & E). discriminate E.
Qed.
