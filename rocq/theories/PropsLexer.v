(** Properties C16-C23 of the lexer, and C12, C13 for the lexer. *)
From Verif Require Import Base RegexModel SpecRegex NfaModel SpecNfa LexerModel SpecLexer LexerWitness.

(** C12 for the lexer: any number of calls terminates, with a result that does
    not depend on the hash order, if no repeated group of a pattern matches the
    empty text. *)
Theorem C12_lexing_terminates_partial {env : Env} (K : Type) (ts : list (list char * generator K)) input lx es n :
  build_lexer ts input = Val (inl lx) -> parsed ts es -> (forall e, In e es -> loops_ok e = true) ->
  exists N os lx', forall (ho : HashOrder) fuel, N <= fuel -> lex_calls fuel n lx = Val (os, lx').
Proof. exact (lexer_terminates ts input lx es n). Qed.
Print Assumptions C12_lexing_terminates_partial.
Example C12_lexing_sample {env : Env} input : exists lx, build_lexer run_tokens input = Val (inl lx) /\ parsed run_tokens run_es /\
  forall e, In e run_es -> loops_ok e = true.
Proof.
  destruct (run_build input) as (lx & H). exists lx. split; [assumption|]. split; [exact run_parsed|].
  intros e [<-|[<-|[]]]; reflexivity.
Qed.

(** C13 for the lexer: if the calls finish under one hash order, they finish
    under every other with the same tokens. *)
Theorem C13_tokens_order_independent {env : Env} (K : Type) (ts : list (list char * generator K)) input lx
    (ho1 ho2 : HashOrder) fuel n os lx' :
  build_lexer ts input = Val (inl lx) -> @lex_calls env ho1 K fuel n lx = Val (os, lx') ->
  exists N, forall fuel', N <= fuel' -> @lex_calls env ho2 K fuel' n lx = Val (os, lx').
Proof. exact (lexer_orders ts input lx ho1 ho2 fuel n os lx'). Qed.
Print Assumptions C13_tokens_order_independent.

Definition plain (l : list string) : list (list char * generator (nat * list char)) :=
  map (fun x => (str (snd x), GenMap (fun s => (fst x, s)))) (combine (seq 0 (length l)) l).
Definition tok (i : nat) (s : string) (a b : nat) : ltoken (nat * list char) :=
  {| lt_kind := (i, str s); lt_source := str s; lt_pos := (a, b) |}.
(** [n] calls on a lexer give the results [os], for every hash order. *)
Definition gives {env : Env} (l : list string) (input : string) (n : nat) (os : list (option (ltoken (nat * list char)))) : Prop :=
  exists lx, build_lexer (plain l) (str input) = Val (inl lx) /\
    forall ho : HashOrder, exists N, forall fuel, N <= fuel -> exists lx', lex_calls fuel n lx = Val (os, lx').
Ltac gives_tac := unfold gives; match goal with |- exists lx, build_lexer ?ts ?input = _ /\ _ =>
  eexists; split; [vm_compute; reflexivity|]; apply (lexer_order_free ts input); [vm_compute; reflexivity|];
  exists 60; eexists; vm_compute; reflexivity end.

Example C13_lexing_sample {env : Env} : gives ["if"; "[a-z]+"; " +"]%string "if iffy if" 6
  [Some (tok 0 "if" 0 2); Some (tok 2 " " 2 3); Some (tok 1 "iffy" 3 7); Some (tok 2 " " 7 8); Some (tok 0 "if" 8 10); None].
Proof. gives_tac. Qed.

(** C16 *)
Theorem C16_tokens_nonempty {env : Env} (K : Type) (ts : list (list char * generator K)) input lx (ho : HashOrder) fuel n os lx' :
  build_lexer ts input = Val (inl lx) -> lex_calls fuel n lx = Val (os, lx') ->
  consumed (somes os) <= length input /\ length (somes os) <= length input /\
  forall t, In (Some t) os -> lt_source t <> [].
Proof. exact (lexer_progress ts input lx ho fuel n os lx'). Qed.
Print Assumptions C16_tokens_nonempty.
Example C16_sample {env : Env} : gives ["a*"; "(b|c)?"]%string "aabca" 6
  [Some (tok 0 "aa" 0 2); Some (tok 1 "b" 2 3); Some (tok 1 "c" 3 4); Some (tok 0 "a" 4 5); None; None].
Proof. gives_tac. Qed.

(** C17 fails: a character that was handed back twice is lost.  The token [y]
    below has the source [y] but the position of [xy]. *)
Theorem C17_tokens_tile_refuted {env : Env} :
  gives ["a"; "abcd"; "b"; "c"; "x"; "y"]%string "abcxy" 4
    [Some (tok 0 "a" 0 1); Some (tok 2 "b" 1 2); Some (tok 3 "c" 2 3); Some (tok 5 "y" 3 5)] /\
  ~ tiles (str "abcxy"%string) 0 [tok 0 "a" 0 1; tok 2 "b" 1 2; tok 3 "c" 2 3; tok 5 "y" 3 5].
Proof.
  split; [gives_tac|]. intros H. repeat match goal with H : tiles _ _ (_ :: _) |- _ => inversion H; clear H; subst end. discriminate.
Qed.
Print Assumptions C17_tokens_tile_refuted.

(** C17, what holds: the tokens tile the input if what is read in vain after a
    match can always be read again from its beginning.  Missing: the other sets
    of patterns. *)
Theorem C17_tokens_tile_partial {env : Env} (K : Type) (ts : list (list char * generator K)) input lx es (ho : HashOrder) fuel n os lx' :
  build_lexer ts input = Val (inl lx) -> parsed ts es -> resumable es ->
  lex_calls fuel n lx = Val (os, lx') -> tiles input 0 (before_none os).
Proof. intros H1 H2. exact (lexer_tiles ts input lx es H1 H2 ho fuel n os lx'). Qed.
Print Assumptions C17_tokens_tile_partial.
Example C17_sample {env : Env} input : exists lx, build_lexer num_tokens input = Val (inl lx) /\ parsed num_tokens num_es /\
  resumable num_es.
Proof.
  destruct (num_build input) as (lx & H). exists lx. split; [assumption|]. split; [exact num_parsed|]. exact num_resumable.
Qed.
Example C17_sample_run {env : Env} : gives ["1"; "1\.1"; "\."]%string "11.1." 6
  [Some (tok 0 "1" 0 1); Some (tok 1 "1.1" 1 4); Some (tok 2 "." 4 5); None; None; None].
Proof. gives_tac. Qed.

(** C18 fails with the regular language: [bbb] is no word of [(a*b){2}]. *)
Theorem C18_first_pattern_refuted {env : Env} :
  gives ["(a*b){2}"]%string "bbb" 1 [Some (tok 0 "bbb" 0 3)] /\
  exists e, parsed (plain ["(a*b){2}"]%string) [e] /\ ~ lang e (str "bbb"%string).
Proof.
  split; [gives_tac|]. exists (NfaWitness.ab_group (QMax 2)). split; [repeat constructor|]. exact NfaWitness.ab_two_bbb.
Qed.
Print Assumptions C18_first_pattern_refuted.

(** C18, what holds for the tokens before the first [None]: the kind is the one
    of the first pattern matching the source, for the implemented language of
    all patterns and for the regular language if every pattern is [lead_ok]. *)
Theorem C18_first_pattern_partial {env : Env} (K : Type) (ts : list (list char * generator K)) input lx es (ho : HashOrder) fuel n os lx' t L :
  build_lexer ts input = Val (inl lx) -> parsed ts es -> agreed L es ->
  lex_calls fuel n lx = Val (os, lx') -> In t (before_none os) ->
  exists i g, first_match L es (lt_source t) i /\ nth_error (map snd ts) i = Some g /\ lt_kind t = gen_run g (lt_source t).
Proof. intros H1 H2. exact (lexer_kinds ts input lx es H1 H2 ho fuel n os lx' t L). Qed.
Print Assumptions C18_first_pattern_partial.
Example C18_sample {env : Env} : agreed lang num_es /\ gives ["ab"; "[a-b]+"; "ba"]%string "baab" 2 [Some (tok 1 "baab" 0 4); None] /\
  gives ["ab"; "[a-b]+"; "ba"]%string "ab" 2 [Some (tok 0 "ab" 0 2); None].
Proof. split; [exact num_agreed|]. split; gives_tac. Qed.

(** C19 fails: [x] is lost while looking for a longer match of [a], so [c] is
    returned although [cx] matches. *)
Theorem C19_longest_match_refuted {env : Env} :
  gives ["a"; "abcd"; "b"; "c"; "cx"]%string "abcx" 4
    [Some (tok 0 "a" 0 1); Some (tok 2 "b" 1 2); Some (tok 3 "c" 2 3); None] /\
  exists es, parsed (plain ["a"; "abcd"; "b"; "c"; "cx"]%string) es /\ agreed lang es /\ matched lang es (str "cx"%string).
Proof.
  split; [gives_tac|].
  exists [ELit (LMatch ($"a")) None; EConcat (map (fun c => ELit (LMatch c) None) (str "abcd"%string)); ELit (LMatch ($"b")) None;
          ELit (LMatch ($"c")) None; EConcat (map (fun c => ELit (LMatch c) None) (str "cx"%string))].
  split; [repeat constructor|]. split.
  - right. split; [reflexivity|]. intros e [<-|[<-|[<-|[<-|[<-|[]]]]]]; reflexivity.
  - eexists. split; [do 4 right; left; reflexivity|].
    exists [$"c"], [$"x"]. split; [reflexivity|]. split; [eexists; split; reflexivity|].
    exists [$"x"], []. split; [reflexivity|]. split; [eexists; split; reflexivity|reflexivity].
Qed.
Print Assumptions C19_longest_match_refuted.

(** C19, what holds: no longer prefix of the input left at the token matches, if
    what is read in vain can be read again.  Missing: the other sets of patterns. *)
Theorem C19_longest_match_partial {env : Env} (K : Type) (ts : list (list char * generator K)) input lx es (ho : HashOrder) fuel n os lx' t L :
  build_lexer ts input = Val (inl lx) -> parsed ts es -> agreed L es -> resumable es ->
  lex_calls fuel n lx = Val (os, lx') -> In t (before_none os) ->
  forall x y, skipn (fst (lt_pos t)) input = x ++ y -> length (lt_source t) < length x -> ~ matched L es x.
Proof. intros H1 H2. exact (lexer_longest ts input lx es H1 H2 ho fuel n os lx' t L). Qed.
Print Assumptions C19_longest_match_partial.

(** C20 fails: on [ab] the patterns [a] and [abc] give no token, and neither
    does [b{4}] on [bbbbb]. *)
Theorem C20_token_if_match_refuted {env : Env} :
  gives ["a"; "abc"]%string "ab" 2 [None; None] /\ gives ["b{4}"]%string "bbbbb" 2 [None; None] /\
  (exists e, regex_parse (str "a"%string) = Val (ParseOk e) /\ lang e (str "a"%string)) /\
  (exists e, regex_parse (str "b{4}"%string) = Val (ParseOk e) /\ lang e (str "bbbb"%string)).
Proof.
  split; [gives_tac|]. split; [gives_tac|]. split.
  - eexists. split; [vm_compute; reflexivity|]. eexists. split; reflexivity.
  - eexists. split; [vm_compute; reflexivity|]. exists 4. split; [cbn; lia|].
    do 4 (eexists [_], _; split; [reflexivity|]; split; [eexists; split; reflexivity|]). reflexivity.
Qed.
Print Assumptions C20_token_if_match_refuted.

(** C20, what holds: the first [None] comes where no prefix of the rest of the
    input matches, or where all of the rest could be fed and does not match.  If
    texts stay matched while they can be fed, only the former is possible.  Missing:
    a token when the rest of the input is the beginning of a longer match. *)
Theorem C20_token_if_match_partial {env : Env} (K : Type) (ts : list (list char * generator K)) input lx es (ho : HashOrder) fuel n tks rest lx' L :
  build_lexer ts input = Val (inl lx) -> parsed ts es -> agreed L es -> resumable es ->
  lex_calls fuel n lx = Val (map Some tks ++ None :: rest, lx') ->
  let left := skipn (consumed tks) input in
  (feedable es left /\ ~ (left <> [] /\ matched L es left) /\ Forall (fun o => o = None) rest) \/
  (forall x y, left = x ++ y -> x <> [] -> ~ matched L es x).
Proof. intros H1 H2. exact (lexer_first_none ts input lx es H1 H2 ho fuel n tks rest lx' L). Qed.
Print Assumptions C20_token_if_match_partial.
Theorem C20_token_if_match_steady_partial {env : Env} (K : Type) (ts : list (list char * generator K)) input lx es (ho : HashOrder) fuel n tks rest lx' L :
  build_lexer ts input = Val (inl lx) -> parsed ts es -> agreed L es -> steady es ->
  lex_calls fuel n lx = Val (map Some tks ++ None :: rest, lx') ->
  forall x y, skipn (consumed tks) input = x ++ y -> x <> [] -> ~ matched L es x.
Proof. intros H1 H2. exact (lexer_steady_none ts input lx es H1 H2 ho fuel n tks rest lx' L). Qed.
Print Assumptions C20_token_if_match_steady_partial.
Theorem C20_steady_is_resumable {env : Env} es : steady es -> resumable es.
Proof. exact (steady_resumable es). Qed.
Print Assumptions C20_steady_is_resumable.
Example C20_sample {env : Env} input : exists lx, build_lexer run_tokens input = Val (inl lx) /\ parsed run_tokens run_es /\
  agreed lang run_es /\ steady run_es.
Proof.
  destruct (run_build input) as (lx & H). exists lx. split; [assumption|]. split; [exact run_parsed|]. split; [exact run_agreed|].
  exact run_steady.
Qed.

(** C21 fails: with the only pattern [a], the input [?a] gives [None] and then
    the token [?a]. *)
Theorem C21_stays_ended_refuted {env : Env} :
  gives ["a"]%string "?a" 2 [None; Some (tok 0 "?a" 0 2)] /\
  exists e, parsed (plain ["a"]%string) [e] /\ ~ lang e (str "?a"%string).
Proof.
  split; [gives_tac|]. exists (ELit (LMatch ($"a")) None). split; [repeat constructor|]. intros (c & E & _). discriminate.
Qed.
Print Assumptions C21_stays_ended_refuted.

(** C21, what holds: after a [None] where all of the rest of the input could be
    fed, only [None] follows (see also C20).  Missing: a [None] at a character
    that cannot be fed. *)
Theorem C21_stays_ended_partial {env : Env} (K : Type) (ts : list (list char * generator K)) input lx es (ho : HashOrder) fuel n tks rest lx' L :
  build_lexer ts input = Val (inl lx) -> parsed ts es -> agreed L es -> resumable es ->
  lex_calls fuel n lx = Val (map Some tks ++ None :: rest, lx') ->
  feedable es (skipn (consumed tks) input) -> Forall (fun o => o = None) rest.
Proof. intros H1 H2 H3 H4 H5. exact (lexer_none_feedable ts input lx es H1 H2 ho fuel n tks rest lx' H4 H5). Qed.
Print Assumptions C21_stays_ended_partial.
(** And every token ever returned ends with a non-empty text whose first
    matching pattern is the one of its kind; what stands before it was skipped
    with [None]. *)
Theorem C21_tokens_end_with_match_partial {env : Env} (K : Type) (ts : list (list char * generator K)) input lx es (ho : HashOrder) fuel n os lx' t L :
  build_lexer ts input = Val (inl lx) -> parsed ts es -> agreed L es ->
  lex_calls fuel n lx = Val (os, lx') -> In (Some t) os ->
  exists junk x i g, lt_source t = junk ++ x /\ x <> [] /\ first_match L es x i /\ nth_error (map snd ts) i = Some g /\
    lt_kind t = gen_run g (lt_source t).
Proof. intros H1 H2. exact (lexer_all_kinds ts input lx es H1 H2 ho fuel n os lx' t L). Qed.
Print Assumptions C21_tokens_end_with_match_partial.

(** C22 *)
Theorem C22_lexing_never_panics {env : Env} (K : Type) (ts : list (list char * generator K)) input lx (ho : HashOrder) fuel n :
  build_lexer ts input = Val (inl lx) -> lex_calls fuel n lx <> Panic.
Proof. exact (lexer_no_panic ts input lx ho fuel n). Qed.
Print Assumptions C22_lexing_never_panics.

(** C23 *)
Theorem C23_kind_from_source {env : Env} (K : Type) (ts : list (list char * generator K)) input lx (ho : HashOrder) fuel n os lx' t :
  build_lexer ts input = Val (inl lx) -> lex_calls fuel n lx = Val (os, lx') -> In (Some t) os ->
  exists p g, In (p, g) ts /\ lt_kind t = gen_run g (lt_source t).
Proof. exact (lexer_generators ts input lx ho fuel n os lx' t). Qed.
Print Assumptions C23_kind_from_source.
Example C23_sample {env : Env} :
  exists lx, build_lexer [(str "d*"%string, GenMap (@length char)); (str "x"%string, GenUnit (fun _ => 7))] (str "dddx"%string) = Val (inl lx) /\
    forall ho : HashOrder, exists N, forall fuel, N <= fuel -> exists lx', lex_calls fuel 3 lx =
      Val ([Some {| lt_kind := 3; lt_source := str "ddd"%string; lt_pos := (0, 3) |};
            Some {| lt_kind := 7; lt_source := str "x"%string; lt_pos := (3, 4) |}; None], lx').
Proof. gives_tac. Qed.
