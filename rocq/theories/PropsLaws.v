(** Property C71: rewriting patterns by laws of regexes. *)
From Verif Require Import Base RegexModel SpecRegex NfaModel SpecNfa LexerModel SpecLexer SpecLaws LawProofs LexerLaws LexerWitness PropsLexer.

(** C71: patterns that differ by the laws give the same answer for every text
    (and so one never ends where the other never ends). *)
Theorem C71_matching {env : Env} (ho : HashOrder) e e' m m' fuel w b :
  same_pattern e e' -> nfa_from e = Val m -> nfa_from e' = Val m' -> simulate fuel m w = Val b ->
  exists N, forall (ho' : HashOrder) fuel', N <= fuel' -> simulate fuel' m' w = Val b.
Proof. exact (fun H => matching_alike ho e e' m m' fuel w b (pattern_alike e e' H)). Qed.
Print Assumptions C71_matching.

(** C71: a lexer whose patterns are rewritten returns the same for every text and
    any number of calls. *)
Theorem C71_lexing {env : Env} (K : Type) (ts ts' : list (list char * generator K)) es es' input lx lx' (ho : HashOrder) fuel n os lx1 :
  parsed ts es -> parsed ts' es' -> Forall2 same_pattern es es' -> map snd ts = map snd ts' ->
  build_lexer ts input = Val (inl lx) -> build_lexer ts' input = Val (inl lx') -> lex_calls fuel n lx = Val (os, lx1) ->
  exists N lx2, forall (ho' : HashOrder) fuel', N <= fuel' -> lex_calls fuel' n lx' = Val (os, lx2).
Proof.
  exact (fun Hp Hp' H Hg => lexing_alike ts ts' es es' input lx lx' ho fuel n os lx1 (patterns_alike es es' H) Hg Hp Hp').
Qed.
Print Assumptions C71_lexing.

(** Other laws of regular expressions do not hold: [a{1}] reads on after the
    first [a], and [a+] is not [aa*] inside a repetition. *)
Theorem C71_other_laws_refuted : let _ := ascii_env true in
  (exists lx lx' t t' lx1 lx2, build_lexer (plain ["a{1}"]%string) (str "aa"%string) = Val (inl lx) /\
     build_lexer (plain ["a"]%string) (str "aa"%string) = Val (inl lx') /\
     (let _ := id_order in lex_calls 20 2 lx = Val ([None; None], lx1)) /\ (let _ := id_order in lex_calls 20 2 lx' = Val ([Some t; Some t'], lx2))) /\
  (exists e e' m m', regex_parse (str "(a+b)+"%string) = Val (ParseOk e) /\ regex_parse (str "(aa*b)+"%string) = Val (ParseOk e') /\
     nfa_from e = Val m /\ nfa_from e' = Val m' /\
     (let _ := id_order in simulate 50 m (str "ab"%string) = Val false) /\ (let _ := id_order in simulate 50 m' (str "ab"%string) = Val true)).
Proof.
  split; do 2 eexists.
  - do 4 eexists. split; [vm_compute; reflexivity|]. split; [vm_compute; reflexivity|]. split; vm_compute; reflexivity.
  - do 2 eexists. do 4 (split; [vm_compute; reflexivity|]). split; vm_compute; reflexivity.
Qed.
Print Assumptions C71_other_laws_refuted.

(** Three patterns rewritten. *)
Definition law_tokens : list (list char * generator (nat * list char)) := plain ["(ab|ac){0,}d"; "x+"; "\D"]%string.
Definition law_tokens' : list (list char * generator (nat * list char)) := plain ["(a(c|b))*d"; "xx*"; "[^0-9]"]%string.
Definition law_es : list expr :=
  [EConcat [EGroup (EAlt (EConcat [ELit (LMatch ($"a")) None; ELit (LMatch ($"b")) None])
                         (EConcat [ELit (LMatch ($"a")) None; ELit (LMatch ($"c")) None])) (Some (QMin 0)); ELit (LMatch ($"d")) None];
   ELit (LMatch ($"x")) (Some QPlus); ELit (LClass CNonDigit) None].
Definition law_es' : list expr :=
  [EConcat [EGroup (EConcat [ELit (LMatch ($"a")) None; EGroup (EAlt (ELit (LMatch ($"c")) None) (ELit (LMatch ($"b")) None)) None]) (Some QAsterisk);
            ELit (LMatch ($"d")) None];
   EConcat [ELit (LMatch ($"x")) None; ELit (LMatch ($"x")) (Some QAsterisk)]; ELit (LGroup true [GRange ($"0") ($"9")]) None].
Example C71_sample : let _ := ascii_env true in
  parsed law_tokens law_es /\ parsed law_tokens' law_es' /\ Forall2 same_pattern law_es law_es' /\ map snd law_tokens = map snd law_tokens' /\
  exists lx lx' lx1, build_lexer law_tokens (str "acabdxx?"%string) = Val (inl lx) /\ build_lexer law_tokens' (str "acabdxx?"%string) = Val (inl lx') /\
    (let _ := id_order in lex_calls 60 4 lx = Val ([Some (tok 0 "acabd" 0 5); Some (tok 1 "xx" 5 7); Some (tok 2 "?" 7 8); None], lx1)).
Proof.
  split; [repeat constructor|]. split; [repeat constructor|]. split; [|split; [reflexivity|]].
  - constructor; [|constructor; [|constructor; [|constructor]]].
    + apply same_whole. apply same_cons; [|apply same_refl].
      eapply same_trans; [apply same_count with (q' := QAsterisk); intros n; cbn; split; [intros _; exact I|intros _; lia]|].
      apply same_in. eapply same_trans; [apply same_sym; apply same_right|]. apply same_cons; [apply same_refl|]. apply same_cons; [|apply same_refl].
      eapply same_trans; [apply same_comm|]. apply same_sym. apply same_paren.
    + apply same_plus.
    + apply same_whole. apply same_set. intros c. cbn. unfold digit_char. split.
      * intros H (g & [<-|[]] & Hg). apply H. exact Hg.
      * intros H Hd. apply H. eexists. split; [left; reflexivity|]. exact Hd.
  - do 3 eexists. split; [vm_compute; reflexivity|]. split; vm_compute; reflexivity.
Qed.
