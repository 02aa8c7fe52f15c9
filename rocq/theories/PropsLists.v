(** Properties C84 to C87: another order of the patterns, fewer patterns, other
    kinds, and texts in parts. *)
From Verif Require Import Base RegexModel SpecRegex NfaModel SpecNfa SpecSpin LexerModel SpecLexer SpecLists SpecLines
  LexerWitness ListProofs LineProofs ListWitness PropsLexer.

(** C84: patterns that match no common text can change places: the lexer returns
    the same for every text, any number of calls and every hash order.  (It does not
    end where the other does not: the theorem can be used in both directions.) *)
Theorem C84_order {env : Env} (K : Type) (ts ts' : list (list char * generator K)) es es' input lx lx' L :
  parsed ts es -> parsed ts' es' -> agreed L es -> reordered L (combine es (map snd ts)) (combine es' (map snd ts')) ->
  build_lexer ts input = Val (inl lx) -> build_lexer ts' input = Val (inl lx') -> imitates (fun k => k) lx lx'.
Proof. exact (reordered_imitates L ts ts' es es' input lx lx'). Qed.
Print Assumptions C84_order.

Definition abc : list (list char * generator (nat * list char)) := plain ["a"; "ab"; "b"]%string.
Definition abc' : list (list char * generator (nat * list char)) :=
  [(str "b"%string, GenMap (fun s => (2, s))); (str "a"%string, GenMap (fun s => (0, s))); (str "ab"%string, GenMap (fun s => (1, s)))].
Example C84_sample {env : Env} : parsed abc [lit_a; lit_ab; lit_b] /\ parsed abc' [lit_b; lit_a; lit_ab] /\ agreed lang [lit_a; lit_ab; lit_b] /\
  reordered lang (combine [lit_a; lit_ab; lit_b] (map snd abc)) (combine [lit_b; lit_a; lit_ab] (map snd abc')) /\
  exists lx lx' lx1, build_lexer abc (str "babaa?"%string) = Val (inl lx) /\ build_lexer abc' (str "babaa?"%string) = Val (inl lx') /\
    lex_calls (ho := id_order) 60 5 lx' = Val ([Some (tok 2 "b" 0 1); Some (tok 1 "ab" 1 3); Some (tok 0 "a" 3 4); Some (tok 0 "a" 4 5); None], lx1).
Proof.
  split; [repeat constructor|]. split; [repeat constructor|]. split.
  { right. split; [reflexivity|]. intros e [<-|[<-|[<-|[]]]]; reflexivity. }
  split.
  - eapply reordered_again; [apply (reordered_swap lang [(lit_a, _)] (lit_ab, _) (lit_b, _) []); exact ab_b|].
    apply (reordered_swap lang [] (lit_a, _) (lit_b, _) [_]). exact a_b.
  - do 3 eexists. split; [vm_compute; reflexivity|]. split; vm_compute; reflexivity.
Qed.

(** C85 fails: what [a{1}] matches is matched by [a] before it, but without [a{1}]
    the lexer finds the tokens of [aa]. *)
Theorem C85_shadowed_refuted {env : Env} : exists e lx lx' lx1 lx2 t t',
  regex_parse (str "a{1}"%string) = Val (ParseOk e) /\ shadowed lang [lit_a] e /\
  build_lexer (plain ["a"; "a{1}"]%string) (str "aa"%string) = Val (inl lx) /\ build_lexer (plain ["a"]%string) (str "aa"%string) = Val (inl lx') /\
  lex_calls (ho := id_order) 20 2 lx = Val ([None; None], lx1) /\ lex_calls (ho := id_order) 20 2 lx' = Val ([Some t; Some t'], lx2).
Proof.
  exists (ELit (LMatch ($"a")) (Some (QMax 1))). do 6 eexists. split; [reflexivity|]. split.
  - intros x _ (n & Hn & Hx). cbn in Hn. assert (n = 1) as -> by lia. destruct Hx as (u & v & -> & (c & -> & ->) & ->).
    exists lit_a. split; [left; reflexivity|]. exists ($"a"). split; reflexivity.
  - split; [vm_compute; reflexivity|]. split; [vm_compute; reflexivity|]. split; vm_compute; reflexivity.
Qed.
Print Assumptions C85_shadowed_refuted.

(** C85, what holds: a pattern can be left out if all it matches is matched by an
    earlier pattern, and all that can be read along it can be read along another.
    Missing: the second condition is needed (refuted above). *)
Theorem C85_shadowed_partial {env : Env} (K : Type) (tl tr : list (list char * generator K)) pat g el e er input lx lx' L :
  parsed tl el -> regex_parse pat = Val (ParseOk e) -> parsed tr er -> agreed L (el ++ e :: er) ->
  shadowed L el e -> redundant (el ++ er) e ->
  build_lexer (tl ++ (pat, g) :: tr) input = Val (inl lx) -> build_lexer (tl ++ tr) input = Val (inl lx') ->
  imitates (fun k => k) lx lx' /\ imitates (fun k => k) lx' lx.
Proof. exact (shadowed_imitates L tl tr pat g el e er input lx lx'). Qed.
Print Assumptions C85_shadowed_partial.

(** A keyword after the names. *)
Example C85_sample {env : Env} : exists lx lx' lx1,
  parsed (plain ["[ab]+"]%string) [names] /\ regex_parse (str "ab"%string) = Val (ParseOk lit_ab) /\ agreed lang ([names] ++ [lit_ab]) /\
  shadowed lang [names] lit_ab /\ redundant ([names] ++ []) lit_ab /\
  build_lexer (plain ["[ab]+"; "ab"]%string) (str "ab?"%string) = Val (inl lx) /\ build_lexer (plain ["[ab]+"]%string) (str "ab?"%string) = Val (inl lx') /\
  lex_calls (ho := id_order) 20 2 lx = Val ([Some (tok 0 "ab" 0 2); None], lx1).
Proof.
  do 3 eexists. split; [repeat constructor|]. split; [reflexivity|]. split.
  { right. split; [reflexivity|]. intros e [<-|[<-|[]]]; reflexivity. }
  split; [exact ab_shadowed|]. split; [exact ab_redundant|]. split; [vm_compute; reflexivity|]. split; vm_compute; reflexivity.
Qed.

(** C86: the kinds have no influence on the texts and positions of tokens: with
    translated kinds the lexer returns the translated tokens. *)
Theorem C86_kinds {env : Env} (K K' : Type) (f : K -> K') (ts : list (list char * generator K)) (ts' : list (list char * generator K')) es input lx lx' :
  parsed ts es -> Forall2 (fun t t' => fst t = fst t' /\ forall y, f (gen_run (snd t) y) = gen_run (snd t') y) ts ts' ->
  build_lexer ts input = Val (inl lx) -> build_lexer ts' input = Val (inl lx') -> imitates f lx lx'.
Proof. exact (rekind_imitates f ts ts' es input lx lx'). Qed.
Print Assumptions C86_kinds.
Example C86_sample {env : Env} : let ts' := [(str "a"%string, GenUnit (fun _ => 0)); (str "ab"%string, GenUnit (fun _ => 1)); (str "b"%string, GenMap (fun _ => 2))] in
  parsed abc [lit_a; lit_ab; lit_b] /\
  Forall2 (fun t t' => fst t = fst t' /\ forall y, fst (gen_run (snd t) y) = gen_run (snd t') y) abc ts' /\
  exists lx lx' lx1 os, build_lexer abc (str "bab"%string) = Val (inl lx) /\ build_lexer ts' (str "bab"%string) = Val (inl lx') /\
    lex_calls (ho := id_order) 60 3 lx' = Val (os, lx1) /\ map (option_map lt_kind) os = [Some 2; Some 1; None].
Proof.
  split; [repeat constructor|]. split; [repeat constructor|]. do 4 eexists. split; [vm_compute; reflexivity|].
  split; [vm_compute; reflexivity|]. split; vm_compute; reflexivity.
Qed.

(** C87: with patterns as in C58 a new lexer on the text after any token returns
    the tokens that the first lexer returned after it. *)
Theorem C87_restart {env : Env} (K : Type) (ts : list (list char * generator K)) input lx es :
  build_lexer ts input = Val (inl lx) -> parsed ts es -> steady es -> (forall e, In e es -> loops_ok e = true) ->
  exists tks, tokens_are lx tks /\
    forall tks1 tks2 lx2, tks = tks1 ++ tks2 ->
      build_lexer ts (skipn (length (flat_map lt_source tks1)) input) = Val (inl lx2) ->
      exists tks2', tokens_are lx2 tks2' /\ tks2 = map (later (length (flat_map lt_source tks1))) tks2'.
Proof. exact (restart ts input lx es). Qed.
Print Assumptions C87_restart.

(** C87: if no pattern reads over the character [c], the text can be lexed in two
    parts: if the first part is lexed completely, the tokens are those of the first
    part and those of the second; if not, the lexer stops in the first part. *)
Theorem C87_parts {env : Env} (K : Type) (ts : list (list char * generator K)) es u c v lx lu lv :
  parsed ts es -> steady es -> (forall e, In e es -> loops_ok e = true) -> breaks es c ->
  build_lexer ts (u ++ c :: v) = Val (inl lx) -> build_lexer ts u = Val (inl lu) -> build_lexer ts (c :: v) = Val (inl lv) ->
  exists tu tv, tokens_are lu tu /\ tokens_are lv tv /\
    (flat_map lt_source tu = u -> tokens_are lx (tu ++ map (later (length u)) tv)) /\
    (flat_map lt_source tu <> u -> tokens_are lx tu).
Proof. exact (lines ts es u c v lx lu lv). Qed.
Print Assumptions C87_parts.

(** Runs of [b] between single [a]. *)
Example C87_sample {env : Env} u v : parsed run_tokens run_es /\ steady run_es /\ (forall e, In e run_es -> loops_ok e = true) /\
  breaks run_es ($"a") /\ (exists lx, build_lexer run_tokens (u ++ $"a" :: v) = Val (inl lx)) /\
  (exists lu, build_lexer run_tokens u = Val (inl lu)) /\ exists lv, build_lexer run_tokens ($"a" :: v) = Val (inl lv).
Proof.
  split; [exact run_parsed|]. split; [exact run_steady|]. split; [intros e [<-|[<-|[]]]; reflexivity|]. split; [exact run_breaks|].
  split; [apply run_build|]. split; apply run_build.
Qed.
(** Without the condition on the patterns the parts can be lexed differently. *)
Example C87_needed {env : Env} : gives ["a"; "abc"; "b"; "d"]%string "ab" 2 [None; None] /\
  gives ["a"; "abc"; "b"; "d"]%string "abd" 4 [Some (tok 0 "a" 0 1); Some (tok 2 "b" 1 2); Some (tok 3 "d" 2 3); None].
Proof. split; gives_tac. Qed.
