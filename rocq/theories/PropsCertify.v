(** Property C125: a right front end is recognised by computation. *)
From Verif Require Import Base RegexModel SpecRegex NfaModel SpecNfa LexerModel SpecLexer SpecMunch SpecPanic SpecText
  GrammarModel CfsmModel SlrModel PangoModel SpecCfg SpecWrap SpecFront SlrWitness ExprModel ExprProofs SpecQuery QueryLexer PropsQuery
  SpecExactness SpecBuildable SpecTextbook SpecCertify CertifyProofs FrontProofs.

(** C125: what is computed of the patterns: whether no empty alternative and no endless loop is in them, the automata
    match the languages as written and no match is left that could still be continued to another one; whether
    every character is matched; and of a grammar, whether a variable and a terminal are new in it. *)
Theorem C125_conditions {env : Env} (bs : list N) (es : list expr) : changes bs is_alphabetic ->
  (lexb bs es = true <-> steady es /\ forall e, In e es -> ~ gapped e /\ loops_ok e = true /\ forall w, impl_lang e w <-> lang e w) /\
  (coverb bs es = true <-> forall c, matched impl_lang es [c]) /\
  forall V K (dv : DecEq V) (dk : DecEq K) (teq : K -> K -> bool) (g : grammar V K),
    (forall z, new_variable g z = true <-> fresh_variable g z) /\ (forall e, new_terminal teq g e = true <-> fresh_terminal teq g e).
Proof.
  exact (fun H => conj (lexb_ok bs H es) (conj (coverb_ok bs H es) (fun V K dv dk teq g => conj (new_variable_ok g) (new_terminal_ok teq g)))).
Qed.
Print Assumptions C125_conditions.

(** C125: if the computed answer for the patterns and the grammar is yes, then the
    lexer and the parser are built under every order of the iterations, for every text, and the parser returns a tree exactly if it is
    the derivation tree of the tokens that maximal munch of the languages as written makes of the text, which are all
    of it if every character is matched by a pattern. *)
Theorem C125_texts {env : Env} {V K} `{DecEq V} `{DecEq K} (bs : list N) (teq : K -> K -> bool) (ts : list (list char * generator K)) es (g : grammar V K) :
  changes bs is_alphabetic -> lawful teq -> parsed ts es -> built g -> texts_right bs es teq g = true ->
  forall (ho : HashOrder) p, exists n tb,
    (forall fuel, n <= fuel -> slr_new teq fuel p g = Val tb) /\
    forall input, exists lx tks, build_lexer ts input = Val (inl lx) /\ munches lang es (map snd ts) input 0 tks /\
      (coverb bs es = true -> flat_map lt_source tks = input) /\
      forall x, eventually (fun fuel => parse_lexer teq fuel tb lx) (Val (Some (to_node x))) <-> parses g teq (map lt_kind tks) x.
Proof. exact (fun Hbs Ht Hp => certified_texts bs Hbs teq Ht ts es Hp g). Qed.
Print Assumptions C125_texts.

(** C125: the same with an end token: the result for every text with the end
    character behind it is the one outcome that the patterns as written and the grammar prescribe. *)
Theorem C125_front_end {env : Env} {V K} `{DecEq V} `{DecEq K} (bs : list N) (teq : K -> K -> bool) (ts : list (list char * generator K)) es
    cs (g : grammar V K) z e o c :
  changes bs is_alphabetic -> lawful teq -> parsed ts es -> build (do_calls cs) = Val g -> front_right bs es teq g z e o = true ->
  (forall i gen x, nth_error (map snd ts) i = Some gen -> first_match lang es x i ->
     teq o (gen_run gen x) = false /\ (teq e (gen_run gen x) = true -> x = [c])) ->
  exists w, build (do_calls (wrapped cs (g_start g) z e o)) = Val w /\
    forall text, ~ In c text -> exists lx r, build_lexer ts (text ++ [c]) = Val (inl lx) /\
      outcome lang es (map snd ts) g teq z e (text ++ [c]) r /\
      forall (ho : HashOrder) p, exists N, forall fuel, N <= fuel ->
        (let! tb := slr_new teq fuel p w in parse_lexer teq fuel tb lx) = Val r.
Proof. exact (fun Hbs Ht Hp => certified_front bs Hbs teq Ht ts es Hp cs g z e o c). Qed.
Print Assumptions C125_front_end.

(** pango-parser/examples/expr.rs is recognised; not every character is matched by its patterns. *)
Example C125_expr : let _ := ascii_env true in
  changes ascii_cuts is_alphabetic /\ lawful terminal_eq /\ parsed expr_tokens expr_es /\ built expr_grammar /\
  texts_right ascii_cuts expr_es terminal_eq expr_grammar = true /\ coverb ascii_cuts expr_es = false.
Proof.
  split; [exact C119_ascii|]. split; [exact terminal_lawful|]. split; [exact expr_parsed|]. split; [exact expr_built|]. split; vm_compute; reflexivity.
Qed.

(** So are the calculations of C91 with their end token. *)
Example C125_calc : let _ := ascii_env true in
  changes ascii_cuts is_alphabetic /\ lawful calc_eq /\ parsed calc_tokens calc_es /\ build (do_calls calc_calls) = Val FrontProofs.calc /\
  front_right ascii_cuts calc_es calc_eq FrontProofs.calc 3 5 6 = true /\
  (forall i gen x, nth_error (map snd calc_tokens) i = Some gen -> first_match lang calc_es x i ->
     calc_eq 6 (gen_run gen x) = false /\ (calc_eq 5 (gen_run gen x) = true -> x = [59%N])).
Proof.
  split; [exact C119_ascii|]. split; [exact calc_lawful|]. split; [exact calc_parsed|]. split; [exact calc_build|]. split; [vm_compute; reflexivity|exact calc_kinds].
Qed.

(** Not recognised: patterns that miss the longest match, that differ from what is
    written, and the calculations with a token of the grammar as the end token, with a variable of it, or
    with one token for the end and as the unused one.
    Recognised: words, numbers and every other character, which cover every text. *)
Example C125_sample : let _ := ascii_env true in
  lexb ascii_cuts (map pattern_of ["a"; "abc"]%string) = false /\ lexb ascii_cuts (map pattern_of ["a"; "(b*c)+"]%string) = false /\
  lexb ascii_cuts (map pattern_of ["a(b*c)+"; "[^a]"]%string) = false /\
  lexb ascii_cuts (map pattern_of ["\w+"; "\d+"; "\W"]%string) = true /\ coverb ascii_cuts (map pattern_of ["\w+"; "\d+"; "\W"]%string) = true /\
  coverb ascii_cuts (map pattern_of ["\w+"; "\d+"]%string) = false /\
  front_right ascii_cuts calc_es calc_eq FrontProofs.calc 3 4 6 = false /\ front_right ascii_cuts calc_es calc_eq FrontProofs.calc 2 5 6 = false /\
  front_right ascii_cuts calc_es calc_eq FrontProofs.calc 3 5 5 = false.
Proof. vm_compute. repeat split. Qed.
