(** Property C131, continued: front ends checked against patterns that say what is meant. *)
From Verif Require Import Base RegexModel SpecRegex NfaModel SpecNfa LexerModel SpecLexer SpecMunch SpecPanic SpecText
  GrammarModel CfsmModel SlrModel PangoModel SpecCfg SpecWrap SpecFront SlrWitness ExprModel ExprProofs SpecQuery QueryLexer PropsQuery
  SpecExactness SpecBuildable SpecTextbook SpecCertify FrontProofs PropsCertify PropsBuildable SpecKinds SpecAlike SpecMisread MeantProofs.

(** C131: if no text is misread and the grammar passes the test of C122, then under every order of the iterations the
    parser is built and returns a tree exactly if it is the derivation tree of the tokens that are meant. *)
Theorem C131_texts {env : Env} {V K} `{DecEq V} `{DecEq K} (bs : list N) (teq : K -> K -> bool) (ts : list (list char * generator K)) es es' gens' (g : grammar V K) :
  changes bs is_alphabetic -> lawful teq -> parsed ts es -> goodb bs es = true -> length gens' = length es' ->
  forallb unit_kind (map snd ts) = true -> forallb unit_kind gens' = true -> misread bs es (map snd ts) es' gens' = None ->
  built g -> always_exact g teq = true ->
  forall (ho : HashOrder) p, exists n tb,
    (forall fuel, n <= fuel -> slr_new teq fuel p g = Val tb) /\
    forall input, exists lx tks, build_lexer ts input = Val (inl lx) /\ munches lang es' gens' input 0 tks /\
      forall x, eventually (fun fuel => parse_lexer teq fuel tb lx) (Val (Some (to_node x))) <-> parses g teq (map lt_kind tks) x.
Proof. exact (fun Hbs Ht Hp => meant_texts bs Hbs teq Ht ts es Hp es' gens' g). Qed.
Print Assumptions C131_texts.

(** The expressions of pango-parser/examples/expr.rs with numbers of several digits, written in two ways. *)
Definition sum_gens : list (generator terminals) := [GenUnit (fun _ => Num 0); GenUnit (fun _ => Plus); GenUnit (fun _ => Mul)].
Definition sum_tokens : list (list char * generator terminals) := combine (map str ["[0-9]+"; "\+"; "\*"]%string) sum_gens.
Example C131_expr : let _ := ascii_env true in
  let es := map pattern_of ["[0-9]+"; "\+"; "\*"]%string in
  let meant := map pattern_of ["\d\d*"; "\+"; "\*"]%string in
  changes ascii_cuts is_alphabetic /\ lawful terminal_eq /\ parsed sum_tokens es /\ goodb ascii_cuts es = true /\ length sum_gens = length meant /\
  forallb unit_kind (map snd sum_tokens) = true /\ forallb unit_kind sum_gens = true /\ misread ascii_cuts es (map snd sum_tokens) meant sum_gens = None /\
  built expr_grammar /\ always_exact expr_grammar terminal_eq = true.
Proof.
  intros e0 es meant. split; [exact C119_ascii|]. split; [exact terminal_lawful|]. split; [repeat constructor|]. split; [vm_compute; reflexivity|].
  split; [reflexivity|]. split; [reflexivity|]. split; [reflexivity|]. split; [vm_compute; reflexivity|]. split; [exact expr_built|vm_compute; reflexivity].
Qed.
