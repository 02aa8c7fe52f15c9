(** Property C61: all calls of a lexer, for any patterns. *)
From Verif Require Import Base RegexModel SpecRegex NfaModel SpecNfa LexerModel SpecLexer SpecCalls LexerWitness LexerRef PropsLexer.

(** C61: the results of any number of calls are those of the specification, for
    the implemented language of all patterns and for the regular language if every
    pattern is [lead_ok]. *)
Theorem C61_calls {env : Env} (K : Type) (ts : list (list char * generator K)) input lx es (ho : HashOrder) fuel n os lx' L :
  build_lexer ts input = Val (inl lx) -> parsed ts es -> agreed L es -> lex_calls fuel n lx = Val (os, lx') ->
  length os = n /\ calls L es (map snd ts) (starting input) os.
Proof. exact (lexer_calls ts input lx es ho fuel n os lx' L). Qed.
Print Assumptions C61_calls.
(** There is only one list of results of each length. *)
Theorem C61_unique {env : Env} (K : Type) (ts : list (list char * generator K)) input lx es s os os' L :
  build_lexer ts input = Val (inl lx) -> parsed ts es -> agreed L es ->
  calls L es (map snd ts) s os -> calls L es (map snd ts) s os' -> length os = length os' -> os = os'.
Proof. exact (fun Hb Hp Ha => calls_unique L es (map snd ts) (fun x => matched_feedable L ts input lx es x Hb Hp Ha) os s os'). Qed.
Print Assumptions C61_unique.
(** If the loops cannot spin, the lexer returns the results of the specification,
    for every hash order. *)
Theorem C61_results_partial {env : Env} (K : Type) (ts : list (list char * generator K)) input lx es n L :
  build_lexer ts input = Val (inl lx) -> parsed ts es -> agreed L es -> (forall e, In e es -> loops_ok e = true) ->
  exists os N lx', length os = n /\ calls L es (map snd ts) (starting input) os /\
    forall (ho : HashOrder) fuel, N <= fuel -> lex_calls fuel n lx = Val (os, lx').
Proof. exact (lexer_reference ts input lx es n L). Qed.
Print Assumptions C61_results_partial.

Definition lost_tokens : list (list char * generator (nat * list char)) := plain ["a"; "abcd"; "b"; "c"; "x"; "y"]%string.
Definition lost_es : list expr :=
  [ELit (LMatch ($"a")) None; EConcat (map (fun c => ELit (LMatch c) None) (str "abcd"%string)); ELit (LMatch ($"b")) None;
   ELit (LMatch ($"c")) None; ELit (LMatch ($"x")) None; ELit (LMatch ($"y")) None].
Example C61_sample {env : Env} : exists lx, build_lexer lost_tokens (str "abcxy?a"%string) = Val (inl lx) /\ parsed lost_tokens lost_es /\
  agreed lang lost_es /\ (forall e, In e lost_es -> loops_ok e = true) /\
  calls lang lost_es (map snd lost_tokens) (starting (str "abcxy?a"%string))
    [Some (tok 0 "a" 0 1); Some (tok 2 "b" 1 2); Some (tok 3 "c" 2 3); Some (tok 5 "y" 3 5); None; Some (tok 0 "?a" 5 7); None].
Proof.
  eexists. split; [vm_compute; reflexivity|].
  assert (Hp : parsed lost_tokens lost_es) by repeat constructor.
  assert (Ha : agreed lang lost_es).
  { right. split; [reflexivity|]. intros e [<-|[<-|[<-|[<-|[<-|[<-|[]]]]]]]; reflexivity. }
  split; [exact Hp|]. split; [exact Ha|]. split; [intros e [<-|[<-|[<-|[<-|[<-|[<-|[]]]]]]]; reflexivity|].
  eapply (lexer_calls lost_tokens (str "abcxy?a"%string) _ lost_es id_order 60 7); [vm_compute; reflexivity|exact Hp|exact Ha|].
  vm_compute. reflexivity.
Qed.
