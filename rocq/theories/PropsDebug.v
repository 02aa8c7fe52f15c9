(** C79, C80: the [Debug] texts. *)
From Verif Require Import Base RegexModel NfaModel LexerModel DotModel GrammarModel CfsmModel SlrModel ExprModel DebugModel.
From Verif Require Import SpecRegex SpecCfg SpecDebug DebugProofs DebugTypes DebugSlr DebugLexer DebugCfsm.

(** ** C79: the [Debug] text of a parse result or of a grammar determines it *)

(** [{:?}] and [{:#?}] of the result of [Slr::parse]. *)
Theorem C79_result : forall (V T : Type) (dbg_v : V -> dbg) (dbg_t : T -> dbg), telling dbg_v -> telling dbg_t ->
  forall r r' : option (node V T),
  (plain (dbg_result dbg_v dbg_t r) = plain (dbg_result dbg_v dbg_t r') -> r = r') /\
  (pretty (dbg_result dbg_v dbg_t r) = pretty (dbg_result dbg_v dbg_t r') -> r = r') /\
  (firstn 4 (plain (dbg_result dbg_v dbg_t r)) = str "Err(" <-> r = None) /\
  (firstn 4 (pretty (dbg_result dbg_v dbg_t r)) = str "Err(" <-> r = None).
Proof. exact (fun V T dbg_v dbg_t Hv Ht => result_texts dbg_v dbg_t Hv Ht). Qed.
Print Assumptions C79_result.

(** Of a grammar, whatever the hash orders. *)
Theorem C79_grammar : forall (V T : Type) (dbg_v : V -> dbg) (dbg_t : T -> dbg), telling dbg_v -> telling dbg_t ->
  forall (ho ho' : HashOrder) p p' (g g' : grammar V T),
  (plain (dbg_grammar (ho := ho) dbg_v dbg_t p g) = plain (dbg_grammar (ho := ho') dbg_v dbg_t p' g') -> same_grammar g g') /\
  (pretty (dbg_grammar (ho := ho) dbg_v dbg_t p g) = pretty (dbg_grammar (ho := ho') dbg_v dbg_t p' g') -> same_grammar g g').
Proof.
  intros V T dbg_v dbg_t Hv Ht ho ho' p p' g g'.
  split; intros E; apply (grammar_dbg_inj dbg_v dbg_t Hv Ht ho ho' p p');
    [apply plain_inj in E|apply pretty_inj in E]; auto using (tame_grammar dbg_v dbg_t Hv Ht ho), (tame_grammar dbg_v dbg_t Hv Ht ho').
Qed.
Print Assumptions C79_grammar.

(** Of an automaton, whatever the hash orders; in the form [{:#?}] its transitions
    are labelled in the form [{:?}]. *)
Theorem C79_automaton : forall (V T : Type) (dv : DecEq V) (dbg_v : V -> dbg) (dbg_t : T -> dbg), telling dbg_v -> telling dbg_t ->
  forall (ho ho' : HashOrder) p p' (c c' : cfsm V T),
  (plain (dbg_cfsm (ho := ho) dbg_v dbg_t p c) = plain (dbg_cfsm (ho := ho') dbg_v dbg_t p' c') -> same_cfsm c c') /\
  (pretty (dbg_cfsm (ho := ho) dbg_v dbg_t p c) = pretty (dbg_cfsm (ho := ho') dbg_v dbg_t p' c') -> same_cfsm c c').
Proof. exact (fun V T dv dbg_v dbg_t Hv Ht ho ho' p p' c c' => cfsm_texts dbg_v dbg_t Hv Ht ho ho' p p' c c'). Qed.
Print Assumptions C79_automaton.

(** Of a token of the lexer, whatever characters count as printable. *)
Theorem C79_token : forall (printable : char -> bool) (K : Type) (dbg_k : K -> dbg), telling dbg_k ->
  forall t t' : ltoken K,
  (plain (dbg_token printable dbg_k t) = plain (dbg_token printable dbg_k t') -> t = t') /\
  (pretty (dbg_token printable dbg_k t) = pretty (dbg_token printable dbg_k t') -> t = t').
Proof.
  intros printable K dbg_k Hk t t'. destruct (telling_token printable dbg_k Hk) as [H1 H2].
  split; intros E; apply H2; [exact (plain_inj _ _ (H1 t) (H1 t') E)|exact (pretty_inj _ _ (H1 t) (H1 t') E)].
Qed.
Print Assumptions C79_token.

(** The [Debug] implementations of strings, characters and numbers are such
    implementations. *)
Theorem C79_leaves : forall printable,
  telling (dbg_str printable) /\ telling (fun c => Atom (show_char printable c)) /\ telling dbg_nat.
Proof. intros printable. exact (conj (telling_str printable) (conj (telling_char printable) telling_nat)). Qed.
Print Assumptions C79_leaves.

(** The two forms of any tame [Debug] tree determine it. *)
Theorem C79_builders : forall d d', tame d -> tame d' -> (plain d = plain d' \/ pretty d = pretty d') -> d = d'.
Proof. intros d d' H H' [E|E]; [exact (plain_inj d d' H H' E)|exact (pretty_inj d d' H H' E)]. Qed.
Print Assumptions C79_builders.

(** The result of the expression example on [3+4] (children are stored last to
    first). *)
Example C79_sample : telling expr_v /\ telling expr_t /\
  let tree := Node (Var 0) [Node (Ter (Num 4)) []; Node (Ter Plus) []; Node (Var 0) [Node (Ter (Num 3)) []]] in
  run_expr (env := ascii_env true) (ho := id_order) 100 [] (str "3+4") = Val (Some tree) /\
  plain (dbg_result expr_v expr_t (Some tree)) =
    str "Ok(Cst { root: Node { symbol: Variable(Expr), children: [Node { symbol: Terminal(Val(4)), children: [] }, Node { symbol: Terminal(Plus), children: [] }, Node { symbol: Variable(Expr), children: [Node { symbol: Terminal(Val(3)), children: [] }] }] } })" /\
  pretty (dbg_result expr_v expr_t None) = str "Err(" ++ [10%N] ++ str "    ()," ++ [10%N] ++ str ")".
Proof. split; [exact telling_expr_v|]. split; [exact telling_expr_t|]. vm_compute. repeat split; reflexivity. Qed.

(** The text of the automaton of [Expr -> Mul]. *)
Example C79_automaton_sample :
  exists g c, build (add_rules 0 [[Ter Mul]] (set_start_variable 0 gbuilder_new)) = Val g /\
  from_grammar (ho := id_order) 100 [] g = Val c /\
  plain (dbg_cfsm (ho := id_order) expr_v expr_t [] c) =
    str "Cfsm { start_state: 0, states: {State { id: 0, item_set: ItemSet { items: {Expr: {ItemBody { body: [Terminal(Mul)], cursor: 0 }}} }, transitions: {Terminal(Mul): 1} }, State { id: 1, item_set: ItemSet { items: {Expr: {ItemBody { body: [Terminal(Mul)], cursor: 1 }}} }, transitions: {} }}, grammar: Grammar { start_variable: Expr, rules: {Expr: {[Terminal(Mul)]}} }, _pin: PhantomPinned }" /\
  firstn 17 (skipn 547 (pretty (dbg_cfsm (ho := id_order) expr_v expr_t [] c))) = str "Terminal(Mul): 1,".
Proof. eexists; eexists. split; [vm_compute; reflexivity|]. split; [vm_compute; reflexivity|]. split; vm_compute; reflexivity. Qed.

(** The text of a token with a quote, a newline and a bell in it. *)
Example C79_token_sample :
  plain (dbg_token (fun c => (32 <=? c)%N) expr_t {| lt_kind := Num 7; lt_source := [97; 34; 10; 7; 39]%N; lt_pos := (3, 8) |}) =
    str "Token { kind: Val(7), source: " ++ [34; 97; 92; 34; 92; 110; 92; 117; 123; 55; 125; 39; 34]%N ++ str ", pos: (3, 8) }".
Proof. vm_compute. reflexivity. Qed.

(** A [Debug] that writes user text as it is loses this. *)
Example C79_wild :
  let two : node nat (list char) := Node (Var 0) [Node (Ter (str "a")) []; Node (Ter (str "b")) []] in
  let one : node nat (list char) := Node (Var 0) [Node (Ter (str "a), children: [] }, Node { symbol: Terminal(b")) []] in
  plain (dbg_result expr_v Atom (Some one)) = plain (dbg_result expr_v Atom (Some two)) /\ one <> two.
Proof. cbn zeta. split; [vm_compute; reflexivity|discriminate]. Qed.

(** ** C80: parsers with the same [Debug] text parse alike *)

Theorem C80_parsers : forall (V T : Type) (dv : DecEq V) (dt : DecEq T) (teq : T -> T -> bool), lawful teq ->
  forall (dbg_v : V -> dbg) (dbg_t : T -> dbg), telling dbg_v -> telling dbg_t ->
  forall (ho ho' po po' : HashOrder) fuel fuel' q q' (g g' : grammar V T) tb tb' p p',
  slr_new (ho := ho) teq fuel q g = Val tb -> slr_new (ho := ho') teq fuel' q' g' = Val tb' ->
  plain (dbg_slr (ho := po) dbg_v dbg_t p tb) = plain (dbg_slr (ho := po') dbg_v dbg_t p' tb') \/
  pretty (dbg_slr (ho := po) dbg_v dbg_t p tb) = pretty (dbg_slr (ho := po') dbg_v dbg_t p' tb') ->
  forall L (next : L -> res (option T * L)) n inp, parse_from teq next n tb inp = parse_from teq next n tb' inp.
Proof.
  intros V T dv dt teq Hteq dbg_v dbg_t Hv Ht ho ho' po po' fuel fuel' q q' g g' tb tb' p p' E E' Ed.
  apply (slr_text_parse teq Hteq dbg_v dbg_t Hv Ht ho ho' po po' fuel fuel' q q' g g' tb tb' p p' E E').
  apply C79_builders; [apply (tame_slr dbg_v dbg_t Hv Ht)|apply (tame_slr dbg_v dbg_t Hv Ht)|exact Ed].
Qed.
Print Assumptions C80_parsers.

(** Two different grammars with the same parser: a variable that is not used. *)
Example C80_sample :
  exists g g' tb tb',
  build expr_builder = Val g /\ build (add_rules 1 [[Ter Mul]] expr_builder) = Val g' /\ ~ same_grammar g g' /\
  slr_new (ho := id_order) terminal_eq 100 [] g = Val tb /\ slr_new (ho := id_order) terminal_eq 100 [] g' = Val tb' /\
  plain (dbg_slr (ho := id_order) expr_v expr_t [] tb) = plain (dbg_slr (ho := id_order) expr_v expr_t [] tb').
Proof.
  eexists; eexists; eexists; eexists. split; [vm_compute; reflexivity|]. split; [vm_compute; reflexivity|]. split.
  - intros (_ & H & _). specialize (proj2 (H 1)). cbn. intros K. destruct K as [K|[]]; [right; left; reflexivity|discriminate].
  - split; [vm_compute; reflexivity|]. split; vm_compute; reflexivity.
Qed.

(** The text of a parser. *)
Example C80_text :
  exists g tb, build expr_builder = Val g /\ slr_new (ho := id_order) terminal_eq 100 [] g = Val tb /\
  plain (dbg_slr (ho := id_order) expr_v expr_t [] tb) =
    str "Slr { table: ParseTable { action: [{T(Val(0)): Shift { dest_state: 2 }}, {T(Mul): Shift { dest_state: 3 }, T(Plus): Shift { dest_state: 4 }}, {T(Mul): Reduce { variable: Expr, amount: 1 }, T(Plus): Reduce { variable: Expr, amount: 1 }, Eof: Accept { variable: Expr, amount: 1 }}, {T(Val(0)): Shift { dest_state: 5 }}, {T(Val(0)): Shift { dest_state: 6 }}, {T(Mul): Reduce { variable: Expr, amount: 3 }, T(Plus): Reduce { variable: Expr, amount: 3 }, Eof: Accept { variable: Expr, amount: 3 }}, {T(Mul): Reduce { variable: Expr, amount: 3 }, T(Plus): Reduce { variable: Expr, amount: 3 }, Eof: Accept { variable: Expr, amount: 3 }}], goto: [{Expr: 1}] } }".
Proof. eexists; eexists. split; [vm_compute; reflexivity|]. split; vm_compute; reflexivity. Qed.
