(** C69: generators that panic or do not return. *)
From Verif Require Import Base RegexModel SpecRegex NfaModel SpecNfa LexerModel SpecLexer SpecCalls SpecSpin AskModel SpecAsk
  NfaSpin LexerWitness LexerAsk DecideLexer PropsSpin.

(** The calls that return are those where every generator that is asked returns
    and no pattern spins. *)
Theorem C69_calls_return {env : Env} (K : Type) (ts : list (list char * generator (res K))) input lx es L n (ho : HashOrder) os :
  build_lexer ts input = Val (inl lx) -> parsed ts es -> agreed L es ->
  ((exists fuel lx', ask_calls fuel n lx = Val (os, lx')) <->
   length os = n /\ exists s, asked L es (map snd ts) (starting input) os s).
Proof. intros H1 H2 H3. exact (proj1 (lexer_asked ts input lx es L n ho H1 H2 H3) os). Qed.
Print Assumptions C69_calls_return.

(** The calls panic exactly if the first generator that goes wrong panics and
    no pattern spins on the way to it. *)
Theorem C69_calls_panic {env : Env} (K : Type) (ts : list (list char * generator (res K))) input lx es L n (ho : HashOrder) :
  build_lexer ts input = Val (inl lx) -> parsed ts es -> agreed L es ->
  ((exists fuel, ask_calls fuel n lx = Panic) <->
   exists os s u, asked L es (map snd ts) (starting input) os s /\ length os < n /\
     wrong L es (map snd ts) s u Panic /\ ~ spun es u).
Proof. intros H1 H2 H3. exact (proj1 (proj2 (lexer_asked ts input lx es L n ho H1 H2 H3))). Qed.
Print Assumptions C69_calls_panic.

(** They never return exactly if they come to a point where the first generator
    that goes wrong does not return, or where a pattern spins before a generator
    goes wrong. *)
Theorem C69_calls_hang {env : Env} (K : Type) (ts : list (list char * generator (res K))) input lx es L n (ho : HashOrder) :
  build_lexer ts input = Val (inl lx) -> parsed ts es -> agreed L es ->
  ((forall fuel, ask_calls fuel n lx = Diverge) <->
   exists os s, asked L es (map snd ts) (starting input) os s /\ length os < n /\ hangs L es (map snd ts) s).
Proof. exact (asking_never_ends ts input lx es L n ho). Qed.
Print Assumptions C69_calls_hang.

(** Generators that always return leave the calls of C61. *)
Theorem C69_harmless {env : Env} {ho : HashOrder} (K : Type) (ts : list (list char * generator K)) input lx :
  build_lexer ts input = Val (inl lx) ->
  exists lx', build_lexer (map (fun x => (fst x, harmless (snd x))) ts) input = Val (inl lx') /\
    forall fuel n, results (ask_calls fuel n lx') = results (lex_calls fuel n lx).
Proof. exact (lexer_harmless ts input lx). Qed.
Print Assumptions C69_harmless.

(** ** Examples *)

(** The kinds of all the tokens that are returned can be computed, and yet the
    lexer panics, because it asks for a kind at every match on the way. *)
Definition choosy : list (list char * generator (res nat)) :=
  [(str "ab?"%string, GenMap (fun s => if length s =? 1 then Panic else Val (length s)))].
Example C69_beyond_tokens {env : Env} : exists lx,
  build_lexer choosy (str "ab"%string) = Val (inl lx) /\
  results (lex_calls (ho := id_order) 50 2 lx) = Val [Some {| lt_kind := Val 2; lt_source := str "ab"%string; lt_pos := (0, 2) |}; None] /\
  ask_calls (ho := id_order) 50 2 lx = Panic.
Proof. eexists. split; [vm_compute; reflexivity|]. split; vm_compute; reflexivity. Qed.

(** A generator that is asked though no token is returned: [a] is matched on the
    way, the text ends inside [abc], and the result would be no token. *)
Definition picky : list (list char * generator (res nat)) :=
  [(str "a"%string, GenUnit (fun _ => Panic)); (str "abc"%string, GenUnit (fun _ => Val 1))].
Definition picky_es : list expr :=
  [ELit (LMatch ($"a")) None;
   EConcat [ELit (LMatch ($"a")) None; ELit (LMatch ($"b")) None; ELit (LMatch ($"c")) None]].
Example C69_sample {env : Env} : exists lx,
  build_lexer picky (str "ab"%string) = Val (inl lx) /\ parsed picky picky_es /\ agreed lang picky_es /\
  wrong lang picky_es (map snd picky) (starting (str "ab"%string)) [(0, $"a")] Panic /\ ~ spun picky_es [(0, $"a")] /\
  results (lex_calls (ho := id_order) 50 1 lx) = Val [None] /\ ask_calls (ho := id_order) 50 1 lx = Panic.
Proof.
  eexists. split; [vm_compute; reflexivity|]. split; [repeat constructor|].
  split; [right; split; [reflexivity|]; intros e [<-|[<-|[]]]; reflexivity|]. split; [|split].
  - split; [|split].
    + split; [discriminate|]. split; [exists [(1, $"b")]; reflexivity|]. exists 0, (GenUnit (fun _ => Panic)).
      split; [|split; reflexivity]. split; [eexists; split; [reflexivity|exists ($"a"); split; reflexivity]|]. intros j e Hj. lia.
    + intros (k & E). discriminate E.
    + intros u1 u2 r' E Hu (Hu1 & _). destruct u1 as [|x u1]; [destruct (Hu1 eq_refl)|]. injection E as <- E. destruct u1; [|discriminate E].
      destruct (Hu (eq_sym E)).
  - intros (e & [<-|[<-|[]]] & H); revert H; apply loops_spinning; reflexivity.
  - split; vm_compute; reflexivity.
Qed.
(** The same text with a generator that does not return. *)
Definition slow : list (list char * generator (res nat)) :=
  [(str "a"%string, GenUnit (fun _ => Diverge)); (str "abc"%string, GenUnit (fun _ => Val 1))].
Example C69_slow {env : Env} : exists lx,
  build_lexer slow (str "ab"%string) = Val (inl lx) /\ parsed slow picky_es /\ agreed lang picky_es /\
  wrong lang picky_es (map snd slow) (starting (str "ab"%string)) [(0, $"a")] Diverge /\
  (forall s, ~ spun picky_es (ahead s)) /\ forall (ho : HashOrder) fuel, ask_calls fuel 1 lx = Diverge.
Proof.
  assert (Hns : forall u, ~ spun picky_es u) by (intros u (e & [<-|[<-|[]]] & H); revert H; apply loops_spinning; reflexivity).
  assert (Hp : parsed slow picky_es) by repeat constructor.
  assert (Ha : agreed lang picky_es) by (right; split; [reflexivity|]; intros e [<-|[<-|[]]]; reflexivity).
  assert (Hw : wrong lang picky_es (map snd slow) (starting (str "ab"%string)) [(0, $"a")] Diverge).
  { split; [|split].
    - split; [discriminate|]. split; [exists [(1, $"b")]; reflexivity|]. exists 0, (GenUnit (fun _ => Diverge)).
      split; [|split; reflexivity]. split; [eexists; split; [reflexivity|exists ($"a"); split; reflexivity]|]. intros j e Hj. lia.
    - intros (k & E). discriminate E.
    - intros u1 u2 r' E Hu (Hu1 & _). destruct u1 as [|x u1]; [destruct (Hu1 eq_refl)|]. injection E as <- E. destruct u1; [|discriminate E].
      destruct (Hu (eq_sym E)). }
  eexists. split; [vm_compute; reflexivity|]. split; [exact Hp|]. split; [exact Ha|]. split; [exact Hw|]. split; [intros s; apply Hns|].
  intros ho. apply (proj2 (C69_calls_hang nat slow (str "ab"%string) _ picky_es lang 1 ho ltac:(vm_compute; reflexivity) Hp Ha)).
  exists [], (starting (str "ab"%string)). split; [constructor|]. split; [cbn; lia|]. left. eexists. split; [exact Hw|apply Hns].
Qed.
(** A generator that panics before a pattern spins, and one that does not. *)
Definition early (r : res nat) : list (list char * generator (res nat)) :=
  [(str "a"%string, GenUnit (fun _ => r)); (str "ab(c*)*"%string, GenUnit (fun _ => Val 1))].
Definition late_spinner : expr :=
  EConcat [ELit (LMatch ($"a")) None; ELit (LMatch ($"b")) None; EGroup (ELit (LMatch ($"c")) (Some QAsterisk)) (Some QAsterisk)].
Definition early_es : list expr := [ELit (LMatch ($"a")) None; late_spinner].
Example C69_before_spinning {env : Env} : exists lx lx',
  build_lexer (early Panic) (str "ab"%string) = Val (inl lx) /\ build_lexer (early (Val 0)) (str "ab"%string) = Val (inl lx') /\
  (forall r, parsed (early r) early_es) /\ agreed lang early_es /\
  spun early_es (ahead (starting (str "ab"%string))) /\ ~ spun early_es [(0, $"a")] /\
  wrong lang early_es (map snd (early Panic)) (starting (str "ab"%string)) [(0, $"a")] Panic /\
  ask_calls (ho := id_order) 50 1 lx = Panic /\ forall (ho : HashOrder) fuel, ask_calls fuel 1 lx' = Diverge.
Proof.
  assert (Hs : spun early_es (ahead (starting (str "ab"%string)))).
  { exists late_spinner. split; [right; left; reflexivity|]. exists (str "ab"%string), []. split; [reflexivity|].
    right. left. exists (str "a"%string), (str "b"%string). split; [reflexivity|]. split; [left; exists ($"a"); split; reflexivity|].
    right. exists (str "b"%string), []. split; [reflexivity|]. split; [exists ($"b"); split; reflexivity|].
    left. exists 0, [], []. split; [reflexivity|]. split; [reflexivity|]. left. split; [reflexivity|]. exists 0. split; [exact I|reflexivity]. }
  assert (Ha : agreed lang early_es) by (right; split; [reflexivity|]; intros e [<-|[<-|[]]]; reflexivity).
  eexists. eexists. split; [vm_compute; reflexivity|]. split; [vm_compute; reflexivity|]. split; [repeat constructor|].
  split; [exact Ha|]. split; [exact Hs|]. split; [|split; [|split]].
  - intros (e & [<-|[<-|[]]] & u & v & E & H); [destruct H|].
    destruct H as [[]|[(u1 & u2 & -> & [(c & -> & _)|[]] & [[]|(u3 & u4 & -> & (c' & -> & _) & _)])|[[] _]]]. discriminate E.
  - split; [|split].
    + split; [discriminate|]. split; [exists [(1, $"b")]; reflexivity|]. exists 0, (GenUnit (fun _ => Panic)).
      split; [|split; reflexivity]. split; [eexists; split; [reflexivity|exists ($"a"); split; reflexivity]|]. intros j e Hj. lia.
    + intros (k & E). discriminate E.
    + intros u1 u2 r' E Hu (Hu1 & _). destruct u1 as [|x u1]; [destruct (Hu1 eq_refl)|]. injection E as <- E. destruct u1; [|discriminate E].
      destruct (Hu (eq_sym E)).
  - vm_compute. reflexivity.
  - intros ho.
    apply (proj2 (C69_calls_hang nat (early (Val 0)) (str "ab"%string) _ early_es lang 1 ho ltac:(vm_compute; reflexivity) ltac:(repeat constructor) Ha)).
    exists [], (starting (str "ab"%string)). split; [constructor|]. split; [cbn; lia|]. right. split; [exact Hs|].
    intros (u & r & ((_ & _ & i & g & _ & Hg & ->) & Hr & _) & _). apply Hr. destruct i as [|[|i]]; [| |destruct i; discriminate Hg].
    + injection Hg as <-. exists 0. reflexivity.
    + injection Hg as <-. exists 1. reflexivity.
Qed.
