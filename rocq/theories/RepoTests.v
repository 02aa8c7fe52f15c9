(** The unit tests of /repo, run on the model.  They are evidence that the model
    reads the code correctly: every assertion of the repository's own tests
    holds of the definitions the theorems are about. *)
From Verif Require Import Base Iter RegexModel NfaModel LexerModel.
From Verif Require GrammarModel CfsmModel SlrModel PangoModel ExprModel.
Open Scope N_scope.

#[local] Instance test_env : Env :=
  {| is_alphabetic := fun c => ((65 <=? c) && (c <=? 90)) || ((97 <=? c) && (c <=? 122));
     overflow_checks := true |}.

(** The two hash orders the tests are run with. *)
Inductive tried : HashOrder -> Prop := tried_id : tried id_order | tried_rev : tried rev_order.

(** ** pango-lexer/src/iter *)

(** peekable.rs:232-249 [cached_peek_and_current]. *)
Example cached_peek_and_current :
  cp_run list_next (cp_new (str "He!"))
    [OpPeek; OpCurrent; OpNext; OpCurrent; OpPeek; OpPeek; OpCurrent; OpNext; OpNext; OpPeek; OpCurrent]
  = [Some $"H"; None; Some $"H"; Some $"H"; Some $"e"; Some $"e"; Some $"H"; Some $"e"; Some $"!"; None; Some $"!"].
Proof. reflexivity. Qed.

(** peekable.rs:251-271 [chached_peek_and_peekable]. *)
Example chached_peek_and_peekable :
  cp_run list_next (cp_new (str "He!"))
    [OpPeek; OpCurrent; OpNextIf (fun c => negb (c =? $"H")); OpCurrent; OpNextIf (fun c => c =? $"H"); OpCurrent;
     OpPeek; OpPeek; OpCurrent; OpNextIf (fun c => c =? $"e"); OpCurrent; OpNext; OpPeek; OpCurrent]
  = [Some $"H"; None; None; None; Some $"H"; Some $"H";
     Some $"e"; Some $"e"; Some $"H"; Some $"e"; Some $"e"; Some $"!"; None; Some $"!"].
Proof. reflexivity. Qed.

(** cautious/map_while.rs:63-89 [cautious_map_while]. *)
Example cautious_map_while_test :
  exists c c' c'',
    cmw_drain list_next 10 (fun i => if negb (i =? $"b") then Some $"c" else None) (cp_new (str "foobar!"))
      = Some (str "ccc", c)
    /\ cp_next list_next c = (Some $"b", c')
    /\ cmw_drain list_next 10 (fun n => if negb (n =? 10) then Some $"c" else None) c' = Some (str "ccc", c'').
Proof. do 3 eexists. repeat split; reflexivity. Qed.

(** cautious/take_while.rs:61-81 [cautious_take_while]. *)
Example cautious_take_while_test :
  exists c c' c'',
    ctw_drain list_next 10 (fun i => negb (i =? $"b")) (cp_new (str "foobar!")) = Some (str "foo", c)
    /\ cp_next list_next c = (Some $"b", c')
    /\ ctw_drain list_next 10 (fun n => negb (n =? 10)) c' = Some (str "ar!", c'').
Proof. do 3 eexists. repeat split; reflexivity. Qed.

(** ** pango-lexer/src/regex *)

Definition mk_tok (a b : nat) (k : token_kind) : titem := Tok {| tk_kind := k; tk_pos := (a, b) |}.

(** Tokens of one character each. *)
Fixpoint each_match (n : nat) (l : list char) : list titem :=
  match l with
  | [] => []
  | c :: r => mk_tok n (S n) (TMatch c) :: each_match (S n) r
  end.

(** tokenizer.rs:467-487 [matches]. *)
Example matches_test : tokens_of (str "Hello, World!") = each_match 0 (str "Hello, World!").
Proof. reflexivity. Qed.

(** tokenizer.rs:489-517 [unicode_literals]; the characters by code point. *)
Example unicode_literals :
  let w := [0x2B1B; 0x3B1; 0x1F31F; 0x1F525; 0x17E; 0x20; 0x1F34E; 0x436; 0x1F436; 0x65E5; 0x21; 0x33; 0xE7;
            0x1F33A; 0x1F4A1; 0x15B; 0x20; 0x1F389; 0xEB; 0x1F31E; 0x1F427] in
  tokens_of w = each_match 0 w.
Proof. reflexivity. Qed.

(** tokenizer.rs:519-541 [unicode_constructs]. *)
Example unicode_constructs :
  tokens_of (str "\u{27A1}\u{1F319}\u{1F4A1}\u{1F34E}\u{2328}\u27A1\u27B7\u1CA1\u27BE\xF0\x9F\x8C\x99")
  = [mk_tok 0 8 (TMatch 0x27A1); mk_tok 8 17 (TMatch 0x1F319); mk_tok 17 26 (TMatch 0x1F4A1);
     mk_tok 26 35 (TMatch 0x1F34E); mk_tok 35 43 (TMatch 0x2328); mk_tok 43 49 (TMatch 0x27A1);
     mk_tok 49 55 (TMatch 0x27B7); mk_tok 55 61 (TMatch 0x1CA1); mk_tok 61 67 (TMatch 0x27BE);
     mk_tok 67 71 (TMatch 0xF0); mk_tok 71 75 (TMatch 0x9F); mk_tok 75 79 (TMatch 0x8C); mk_tok 79 83 (TMatch 0x99)].
Proof. reflexivity. Qed.

(** tokenizer.rs:543-553 [control_character_constructs]. *)
Example control_character_constructs :
  tokens_of (str "\cA\cZ\cJ") = [mk_tok 0 3 (TMatch 1); mk_tok 3 6 (TMatch 0x1a); mk_tok 6 9 (TMatch 10)].
Proof. reflexivity. Qed.

(** tokenizer.rs:555-581 [escape_characters]. *)
Example escape_characters :
  tokens_of (str "\f\n\r\t\v\0\^\$\\\.\*\+\?\(\)\[\]\|\/")
  = [mk_tok 0 2 (TMatch 0xc); mk_tok 2 4 (TMatch 10); mk_tok 4 6 (TMatch 13); mk_tok 6 8 (TMatch 9);
     mk_tok 8 10 (TMatch 0xb); mk_tok 10 12 (TMatch 0); mk_tok 12 14 (TMatch $"^"); mk_tok 14 16 (TMatch $"$");
     mk_tok 16 18 (TMatch $"\"); mk_tok 18 20 (TMatch $"."); mk_tok 20 22 (TMatch $"*"); mk_tok 22 24 (TMatch $"+");
     mk_tok 24 26 (TMatch $"?"); mk_tok 26 28 (TMatch $"("); mk_tok 28 30 (TMatch $")"); mk_tok 30 32 (TMatch $"[");
     mk_tok 32 34 (TMatch $"]"); mk_tok 34 36 (TMatch $"|"); mk_tok 36 38 (TMatch $"/")].
Proof. reflexivity. Qed.

(** tokenizer.rs:583-597 [character_classes]. *)
Example character_classes :
  tokens_of (str ".\d\D\w\W\s\S")
  = [mk_tok 0 1 (TClass CWildcard); mk_tok 1 3 (TClass CDigit); mk_tok 3 5 (TClass CNonDigit);
     mk_tok 5 7 (TClass CWord); mk_tok 7 9 (TClass CNonWord); mk_tok 9 11 (TClass CWhitespace);
     mk_tok 11 13 (TClass CNonWhitespace)].
Proof. reflexivity. Qed.

(** tokenizer.rs:599-613 [operators]. *)
Example operators :
  tokens_of (str "[]()^|-")
  = [mk_tok 0 1 (TOp OLBracket); mk_tok 1 2 (TOp ORBracket); mk_tok 2 3 (TOp OLParen); mk_tok 3 4 (TOp ORParen);
     mk_tok 4 5 (TOp OCarret); mk_tok 5 6 (TOp OVertical); mk_tok 6 7 (TOp OMinus)].
Proof. reflexivity. Qed.

(** tokenizer.rs:615-629 [quantifiers]. *)
Example quantifiers :
  tokens_of (str "?+*{123}{659,}{495,1003}")
  = [mk_tok 0 1 (TQuant QQuestion); mk_tok 1 2 (TQuant QPlus); mk_tok 2 3 (TQuant QAsterisk);
     mk_tok 3 8 (TQuant (QMax 123)); mk_tok 8 14 (TQuant (QMin 659)); mk_tok 14 24 (TQuant (QRange 495 1003))].
Proof. reflexivity. Qed.

(** parser.rs:423-427 [parse]; the last two characters by code point. *)
Example regex_parse_test :
  exists e, regex_parse (str "\w\d[q-z](0|4+)*." ++ [0x1F643; 0x23]) = Val (ParseOk e).
Proof. eexists. reflexivity. Qed.

(** ast.rs:100-108 [grouped_literal_kind]. *)
Example grouped_literal_kind :
  [glit_contains (GMatch $"z") $"z"; glit_contains (GMatch $"b") $"a"; glit_contains (GClass CDigit) $"1";
   glit_contains (GClass CDigit) $"a"; glit_contains (GRange $"a" $"f") $"e"; glit_contains (GRange $"a" $"z") $"0"]
  = [true; false; true; false; true; false].
Proof. reflexivity. Qed.

(** ast.rs:110-145 [literal_kind]. *)
Example literal_kind :
  let ls := [GMatch $"a"; GMatch $"b"; GClass CWhitespace; GRange $"_" $"-"] in
  [lit_contains (LMatch $"a") $"a"; lit_contains (LMatch $"b") $"a"; lit_contains (LClass CNonWord) $"1";
   lit_contains (LClass CNonWord) $"a";
   lit_contains (LGroup false ls) $" "; lit_contains (LGroup false ls) $"b"; lit_contains (LGroup false ls) $"z";
   lit_contains (LGroup true ls) $" "; lit_contains (LGroup true ls) $"b"; lit_contains (LGroup true ls) $"z"]
  = [true; false; true; false; true; true; false; false; false; true].
Proof. reflexivity. Qed.

(** ** pango-lexer/src/fsm/nfa/sim.rs *)

(** Parse, compile and simulate on each text. *)
Definition run_regex (ho : HashOrder) (pattern : list char) (ws : list (list char)) : list (res bool) :=
  map (fun w =>
         let! p := regex_parse pattern in
         match p with
         | ParseErr _ => Panic
         | ParseOk e => let! m := nfa_from e in simulate 60 m w
         end) ws.

(** The answers expected, whatever the hash order of the two tried here. *)
Definition answers (pattern : list char) (ws : list (list char)) (bs : list bool) : Prop :=
  run_regex id_order pattern ws = map Val bs /\ run_regex rev_order pattern ws = map Val bs.

(** sim.rs:227-236 [accepts]. *)
Example accepts_test :
  answers (str "(ab){3}c{2}") [str "aa"; str "abababcc"; str "abababccc"] [false; true; false].
Proof. split; vm_compute; reflexivity. Qed.

Definition moon : list char := [0x1F315].

(** sim.rs:238-248 [concat]. *)
Example concat_test :
  answers (str "abc" ++ moon)
    [str "abc" ++ moon; str "abd" ++ moon; str "abc" ++ moon ++ moon; str "aabc" ++ moon]
    [true; false; false; false].
Proof. split; vm_compute; reflexivity. Qed.

(** sim.rs:250-258 [empty]. *)
Example empty_test : answers [] [[]; str "a"] [true; false].
Proof. split; vm_compute; reflexivity. Qed.

(** sim.rs:260-274 [alt]. *)
Example alt_test :
  answers (str "(a|b){3,4}")
    [str "aaaa"; str "bbbb"; str "abab"; str "bbaa"; str "baba"; str "aabb"; str "aaab"; str "bbba"]
    [true; true; true; true; true; true; true; true].
Proof. split; vm_compute; reflexivity. Qed.

(** sim.rs:276-284 [lit]. *)
Example lit_test : answers (str "a") [str "a"; str "b"] [true; false].
Proof. split; vm_compute; reflexivity. Qed.

(** sim.rs:286-295 [group]. *)
Example group_test :
  answers (str "(abc)(ac)" ++ moon)
    [str "abcac" ++ moon; str "bcac" ++ moon; str "abcac" ++ moon ++ moon] [true; false; false].
Proof. split; vm_compute; reflexivity. Qed.

(** sim.rs:297-310 [range_quantifier]. *)
Example range_quantifier_test :
  answers (str "a{3}(bc){2,}\}{2,4}")
    [str "aaabcbcbc}}}"; str "aaabcbcbcbcbcbcbcbcbcbcbc}}}}"; str "aaabcbc}}"; str "aaabcbc}"; str "aaaabcbc}}";
     str "aaabc}}"; str "aaaabcbcbcbc}}}}}"]
    [true; true; true; false; false; false; false].
Proof. split; vm_compute; reflexivity. Qed.

(** sim.rs:312-322 [symbol_quantifiers]. *)
Example symbol_quantifiers_test :
  answers (str "a*(bc?)+c?") [str "b"; str "aaaaaaaabcbbbbbbcc"; str "bbcc"; str "aaaaabcbccc"]
    [true; true; true; false].
Proof. split; vm_compute; reflexivity. Qed.

(** ** pango-lexer/src/lexer/mod.rs *)

Inductive foo := FooA | FooB | FooC | FooD (len : nat) | FooE.

Definition foo_patterns : list (list char * generator foo) :=
  [(str "aaaa", GenUnit (fun _ => FooA)); (str "b{4,}", GenUnit (fun _ => FooB)); (str "b{4}", GenUnit (fun _ => FooC));
   (str "d*", GenMap (fun w => FooD (length w))); (str "/\* .*", GenUnit (fun _ => FooA));
   (str "/\* .* \*/", GenUnit (fun _ => FooE)); (str "a", GenUnit (fun _ => FooA))].

Definition lex_text (ho : HashOrder) {K} (ps : list (list char * generator K)) (n : nat) (w : list char)
    : res (list (option (ltoken K))) :=
  let! x := build_lexer ps w in
  match x with
  | inr _ => Panic
  | inl lx => let! (os, _) := lex_calls 60 n lx in Val os
  end.

Definition ltok {K} (a b : nat) (w : list char) (k : K) : option (ltoken K) :=
  Some {| lt_kind := k; lt_source := w; lt_pos := (a, b) |}.

(** lexer/mod.rs:271-314 [lexer]. *)
Example lexer_test : forall ho, tried ho ->
  lex_text ho foo_patterns 6
    (str "bbbbbbbaaaabbbbddddddddddddddddd/* foo bar baz **** * /* foo bar baz ***** */")
  = Val [ltok 0 7 (str "bbbbbbb") FooB; ltok 7 11 (str "aaaa") FooA; ltok 11 15 (str "bbbb") FooB;
         ltok 15 32 (str "ddddddddddddddddd") (FooD 17);
         ltok 32 77 (str "/* foo bar baz **** * /* foo bar baz ***** */") FooA; None].
Proof. intros ho [|]; vm_compute; reflexivity. Qed.

(** examples/ab.rs:12-29. *)
Example ab_example : forall ho, tried ho ->
  lex_text ho (firstn 6 foo_patterns) 6 (str "bbbbbbbaaaabbbbddddddddddddddddd/* foo bar baz **** *")
  = Val [ltok 0 7 (str "bbbbbbb") FooB; ltok 7 11 (str "aaaa") FooA; ltok 11 15 (str "bbbb") FooB;
         ltok 15 32 (str "ddddddddddddddddd") (FooD 17);
         ltok 32 53 (str "/* foo bar baz **** *") FooA; None].
Proof. intros ho [|]; vm_compute; reflexivity. Qed.
Close Scope N_scope.

(** ** pango-parser/src/grammar.rs *)

Import GrammarModel CfsmModel SlrModel PangoModel ExprModel.

(** Variables: Function 0, Body 1, Prototype 2, Statement 3.  Terminals: Bracket
    0, Identifier 1, Semi 2. *)
Notation t := (@Ter nat nat).
Notation v := (@Var nat nat).

Inductive gcall := Start (x : nat) | Rule (x : nat) (b : body nat nat) | Rules (x : nat) (bs : list (body nat nat)).
Definition gmake (l : list gcall) : res (grammar nat nat) :=
  build (fold_left (fun b c => match c with
                               | Start x => set_start_variable x b
                               | Rule x bd => snd (add_rule x bd b)
                               | Rules x bds => add_rules x bds b
                               end) l gbuilder_new).

(** grammar.rs:553-573 [grammar]. *)
Example grammar_test :
  exists g, gmake [Start 0; Rule 0 [v 2; t 0; v 1]; Rule 2 [t 0]; Rule 1 [t 1; t 2]] = Val g.
Proof. eexists. reflexivity. Qed.

(** grammar.rs:576-600 [multi_rule]. *)
Example multi_rule_test :
  exists g, gmake [Start 0; Rule 0 [v 2; t 0; v 1]; Rule 2 [t 0]; Rules 1 [[t 1; t 2]; [t 0; t 0]]] = Val g.
Proof. eexists. reflexivity. Qed.

(** grammar.rs:604-614 [empty_body]. *)
Example empty_body_test :
  exists g, gmake [Start 0; Rule 0 []] = Val g /\ mget 0 (g_rules g) = Some [[Eps]].
Proof. eexists. split; reflexivity. Qed.

(** grammar.rs:616-655 [no_start_variable], [variable_with_no_rule],
    [start_variable_without_rule]. *)
Example build_panics_test :
  gmake [Rule 0 [t 0; t 1; t 2]] = Panic /\ gmake [Start 0; Rule 0 [v 1; t 2]] = Panic /\ gmake [Start 0] = Panic.
Proof. repeat split; reflexivity. Qed.

(** Equality of hash sets. *)
Definition same_set {A} `{DecEq A} (x y : list A) : bool :=
  forallb (fun a => memb a y) x && forallb (fun a => memb a x) y.

Definition first_is (ho : HashOrder) (l : list gcall) (x : nat) (ss : list (symbol nat nat)) : Prop :=
  match (let! g := gmake l in first 40 [] g x) with Val r => same_set r ss = true | _ => False end.

(** grammar.rs:658-705 [first]. *)
Example first_test : forall ho, tried ho ->
  let l := [Start 0; Rule 0 [v 2; v 1]; Rules 2 [[t 0]; []]; Rules 1 [[t 1; t 2]; [t 2]]] in
  first_is ho l 0 [t 1; t 2; t 0] /\ first_is ho l 1 [t 1; t 2] /\ first_is ho l 2 [t 0; Eps].
Proof. intros ho [|]; vm_compute; repeat split; reflexivity. Qed.

(** grammar.rs:707-720 [first_recursive]. *)
Example first_recursive_test : forall ho, tried ho ->
  let l := [Start 0; Rule 1 [v 0]; Rule 0 [v 2]; Rules 2 [[v 1]; []]] in
  first_is ho l 1 [Eps] /\ first_is ho l 0 [Eps] /\ first_is ho l 2 [Eps].
Proof. intros ho [|]; vm_compute; repeat split; reflexivity. Qed.

(** grammar.rs:722-748 [first_recursive_self]. *)
Example first_recursive_self_test : forall ho, tried ho ->
  first_is ho [Start 0; Rules 0 [[v 0; Eps; v 1; t 0]; [v 2]]; Rule 2 [Eps]; Rule 1 [Eps]] 0 [t 0; Eps].
Proof. intros ho [|]; vm_compute; reflexivity. Qed.

(** grammar.rs:750-803 [follow]; S 0, B 1, C 2, D 3, E 4, F 5 and a 0, b 1, c 2,
    f 3, g 4, h 5. *)
Definition follow_get (fs : list (nat * list (symbol nat nat))) (x : nat) : list (symbol nat nat) :=
  match mget x fs with Some l => l | None => [] end.
Definition follow_is (ho : HashOrder) (l : list gcall) (expected : list (nat * list (symbol nat nat))) : Prop :=
  match (let! g := gmake l in follow_set 60 [] g) with
  | Val fs =>
      same_set (map fst fs) (map fst expected)
      && forallb (fun e => same_set (follow_get fs (fst e)) (snd e)) expected = true
  | _ => False
  end.
Example follow_test : forall ho, tried ho ->
  follow_is ho [Start 0; Rule 0 [t 0; v 1; v 3; t 5]; Rule 1 [t 2; v 2]; Rules 2 [[t 1; v 2]; []];
                Rule 3 [v 4; v 5]; Rules 4 [[t 4]; []]; Rules 5 [[t 3]; []]]
    [(1, [t 4; t 3; t 5]); (2, [t 4; t 3; t 5]); (3, [t 5]); (4, [t 3; t 5]); (5, [t 5])].
Proof. intros ho [|]; vm_compute; reflexivity. Qed.

(** ** pango-parser/src/cfsm *)

(** item.rs:295-302 [item_body_epsilon]. *)
Example item_body_epsilon_test :
  let ib := @item_from nat nat [Eps] in ib_cursor ib = 1 /\ cursor_symbol ib = None.
Proof. split; reflexivity. Qed.

(** item.rs:304-331 [item_body_epsilon_advance]. *)
Example item_body_epsilon_advance_test :
  let ib := item_from [v 0; Eps; Eps; Eps; t 2] in
  let ib' := advance ib in
  ib_cursor ib = 0 /\ cursor_symbol ib = Some (v 0) /\ cursor_variable ib = Val (Some 0)
  /\ cursor_terminal ib = Val None
  /\ cursor_symbol ib' = Some (t 2) /\ cursor_terminal ib' = Val (Some 2)
  /\ cursor_variable ib' = Val None /\ ib_cursor ib' = 4.
Proof. repeat split; reflexivity. Qed.

Definition cfsm_grammar : list gcall :=
  [Start 0; Rule 0 [v 2; v 1]; Rules 2 [[t 1]; [v 3; t 2]]; Rule 3 [t 1];
   Rules 1 [[t 0; v 0; t 0]; [t 0; t 1; t 2; t 0]]].

(** item.rs:333-390 [item_set_from_incomplete_map]. *)
Example item_set_from_incomplete_map_test : forall ho, tried ho ->
  match (let! g := gmake cfsm_grammar in
         let! bds := of_option (get_rule_bodies g (g_start g)) in
         item_set_from_rules 40 [] (g_start g) bds g) with
  | Val items =>
      same_items items [(0, item_from [v 2; v 1]); (2, item_from [t 1]); (2, item_from [v 3; t 2]);
                        (3, item_from [t 1])] = true
  | _ => False
  end.
Proof. intros ho [|]; vm_compute; reflexivity. Qed.

(** cfsm/mod.rs:256-297 [cfsm]. *)
Example cfsm_test : forall ho, tried ho ->
  match (let! g := gmake cfsm_grammar in from_grammar 60 [] g) with Val _ => True | _ => False end.
Proof. intros ho [|]; vm_compute; exact I. Qed.

(** ** pango-parser/src/parser/slr.rs *)

(** slr.rs:178-279 [parse], also examples/expr.rs. *)
Example parse_test : forall ho, tried ho ->
  run_expr 60 [] (str "3+4*3+1")
  = Val (Some
      (Node (Var 0)
        [Node (Ter (Num 1)) []; Node (Ter Plus) [];
         Node (Var 0)
           [Node (Ter (Num 3)) []; Node (Ter Mul) [];
            Node (Var 0)
              [Node (Ter (Num 4)) []; Node (Ter Plus) [];
               Node (Var 0) [Node (Ter (Num 3)) []]]]])).
Proof. intros ho [|]; vm_compute; reflexivity. Qed.
