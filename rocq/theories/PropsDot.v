(** Properties C49-C52: several regexes at once, the iterators of a grammar,
    the textual forms of the automata. *)
From Verif Require Import Base RegexModel SpecRegex NfaModel SpecNfa LexerModel DotModel SpecDot NfaVecProofs DotProofs.
From Verif Require GrammarModel CfsmModel SlrModel SpecCfg GrammarIterProofs NfaWitness.

(** C49: the automaton of several regexes is built exactly if the automaton of
    each one is. *)
Theorem C49_union_built es :
  (exists m, nfa_from_vec es = Val m) <-> forall e, In e es -> exists m, nfa_from e = Val m.
Proof. exact (vec_some es). Qed.
Print Assumptions C49_union_built.

(** C49: it accepts what the automaton of one of them accepts. *)
Theorem C49_union {env : Env} (ho : HashOrder) es m fuel w b :
  nfa_from_vec es = Val m -> simulate fuel m w = Val b ->
  (b = true <-> exists e, In e es /\ impl_lang e w).
Proof. exact (vec_impl ho es m fuel w b). Qed.
Print Assumptions C49_union.
Example C49_sample : let _ := ascii_env true in let _ := id_order in
  exists e1 e2 m, regex_parse (str "ab*"%string) = Val (ParseOk e1) /\ regex_parse (str "0|1"%string) = Val (ParseOk e2) /\
    nfa_from_vec [e1; e2] = Val m /\ simulate 20 m (str "abb"%string) = Val true /\ simulate 20 m (str "1"%string) = Val true /\
    simulate 20 m (str "a1"%string) = Val false /\ simulate 20 m [] = Val false.
Proof.
  eexists. eexists. eexists. split; [vm_compute; reflexivity|]. split; [vm_compute; reflexivity|].
  split; [vm_compute; reflexivity|]. repeat split; vm_compute; reflexivity.
Qed.

(** C51: the text of an automaton names the final states and has one line for
    every transition. *)
Theorem C51_nfa_text {ho : HashOrder} printable k m : built m ->
  exists es, NoDup es /\ (forall s i t, In (s, i, t) es <-> transition m s i t) /\
    lines (nfa_to_dot printable k m) =
    [str "digraph nfa {"; [9%N] ++ str "rankdir = LR;"; []; [9%N] ++ str "// final states";
     [9%N] ++ str "node [shape = doublecircle]; " ++
       CfsmModel.join (str " ") (map (fun s => show_id (st_id s)) (filter st_fin (nfa_states m)));
     [9%N] ++ str "node [shape = circle]; 0;"; []] ++
    match es with [] => [[]] | _ => map (fun e => [9%N] ++ edge_line printable e) es end ++ [str "}"].
Proof. exact (nfa_dot_exact printable k m). Qed.
Print Assumptions C51_nfa_text.
Example C51_sample : let _ := ascii_env true in let _ := id_order in
  exists e m, regex_parse (str "a|\d"%string) = Val (ParseOk e) /\ nfa_from e = Val m /\ built m /\
    lines (nfa_to_dot (fun _ => true) 0 m) =
    [str "digraph nfa {"; 9%N :: str "rankdir = LR;"; []; 9%N :: str "// final states";
     9%N :: str "node [shape = doublecircle]; 1"; 9%N :: str "node [shape = circle]; 0;"; [];
     9%N :: str "0 -> 1 [label = " ++ [34%N] ++ str "Literal(Match('a'))" ++ [34%N] ++ str "];";
     9%N :: str "0 -> 1 [label = " ++ [34%N] ++ str "Literal(Class(Digit))" ++ [34%N] ++ str "];"; str "}"]%string.
Proof.
  eexists. eexists. split; [vm_compute; reflexivity|]. assert (H : forall e m, nfa_from e = Val m -> nfa_from e = Val m /\ built m).
  { intros e m H. split; [assumption|exact (NfaWitness.nfa_from_built e m H)]. }
  match goal with |- ?A /\ ?B /\ ?C => assert (HAB : A /\ B) end.
  { apply H. vm_compute. reflexivity. }
  destruct HAB as [HA HB]. split; [exact HA|]. split; [exact HB|]. vm_compute. reflexivity.
Qed.

(** C51, the labels: false that the label of every line ends where it should;
    a double quote is not escaped. *)
Theorem C51_labels_closed_refuted {env : Env} (ho : HashOrder) printable k : printable 34%N = true ->
  exists e m l, regex_parse [34%N] = Val (ParseOk e) /\ nfa_from e = Val m /\
    In l (lines (nfa_to_dot printable k m)) /\ open_quotes false l = 3.
Proof. exact (quote_open printable k). Qed.
Print Assumptions C51_labels_closed_refuted.

(** C51, the labels of transitions that do not name a double quote. *)
Theorem C51_labels_closed_partial printable s i t :
  input_free 34%N i -> open_quotes false (edge_line printable (s, i, t)) = 2.
Proof. exact (edge_line_quotes printable s i t). Qed.
Print Assumptions C51_labels_closed_partial.
Example C51_labels_sample :
  open_quotes false (edge_line (fun _ => true) (0, ILit (LGroup true [GMatch 92%N; GRange ($"a") ($"z")]), 12)) = 2 /\
  input_free 34%N (ILit (LGroup true [GMatch 92%N; GRange ($"a") ($"z")])).
Proof. split; [vm_compute; reflexivity|]. intros g [<-|[<-|[]]]; cbn; repeat split; discriminate. Qed.

Section Grammar.
  Import GrammarModel CfsmModel SpecCfg GrammarIterProofs.

  (** C50 *)
  Theorem C50_variables {V T} `{DecEq V} `{DecEq T} {ho : HashOrder} (g : grammar V T) p : SpecCfg.built g ->
    NoDup (iter_variables p g) /\ forall v, In v (iter_variables p g) <-> exists bd, rule g v bd.
  Proof. exact (variables_exact g p). Qed.
  Print Assumptions C50_variables.
  Theorem C50_terminals {V T} `{DecEq V} `{DecEq T} {ho : HashOrder} (g : grammar V T) p :
    NoDup (iter_terminals p g) /\ forall t, In t (iter_terminals p g) <-> exists v bd, rule g v bd /\ In (Ter t) bd.
  Proof. exact (terminals_exact g p). Qed.
  Print Assumptions C50_terminals.
  Theorem C50_new_rule {V T} `{DecEq V} `{DecEq T} (cs : list (call V T)) v bd :
    fst (add_rule v bd (do_calls cs)) = true <-> ~ added cs v (match bd with [] => [Eps] | _ => bd end).
  Proof. exact (add_rule_new cs v bd). Qed.
  Print Assumptions C50_new_rule.
  Definition pairs : list (call nat nat) :=
    [CallStart 0; CallRule 0 [Ter 5; Var 0; Ter 6]; CallRule 0 []; CallRule 1 [Ter 6; Ter 5; Ter 7]].
  Example C50_sample : let _ := rev_order in exists g, build (do_calls pairs) = Val g /\
    iter_variables [] g = [1; 0] /\ iter_terminals [] g = [7; 5; 6] /\
    fst (add_rule 0 [Eps] (do_calls pairs)) = false /\ fst (add_rule 1 [Eps] (do_calls pairs)) = true.
  Proof. eexists. split; [vm_compute; reflexivity|]. repeat split; vm_compute; reflexivity. Qed.

  (** C52 *)
  Theorem C52_cfsm_text {V T} `{DecEq V} `{DecEq T} {ho : HashOrder} show_v show_t (g : grammar V T) fuel p c k :
    SpecCfg.built g -> from_grammar fuel p g = Val c ->
    exists es its,
      NoDup es /\ (forall s x t, In (s, x, t) es <-> goes c s x t) /\
      Forall2 (fun st l => NoDup l /\ forall it, In it l <-> In it (cs_items st)) (cf_states c) its /\
      cfsm_to_dot show_v show_t k c =
      str "digraph cfsm {" ++ [10; 9]%N ++ str "rankdir=LR;" ++ [10; 10; 9]%N ++ str "node [shape=rectangle];" ++ [10%N] ++
      concat (map (fun e => [9%N] ++ node_line show_v show_t (cs_id (fst e)) (snd e) ++ [10%N]) (combine (cf_states c) its)) ++
      [10; 10]%N ++
      concat (map (fun e => [9%N] ++ goes_line show_v show_t e ++ [10%N]) es) ++ [10%N] ++ str "}".
  Proof. exact (cfsm_dot_exact show_v show_t g fuel p c k). Qed.
  Print Assumptions C52_cfsm_text.
  Example C52_sample : let _ := id_order in
    exists g c, build (do_calls [CallStart 0; CallRule 0 [Ter 5]]) = Val g /\ from_grammar 20 [] g = Val c /\
      lines (cfsm_to_dot (fun v : nat => show_id v) (fun t : nat => show_id t) 0 c) =
      [str "digraph cfsm {"; 9%N :: str "rankdir=LR;"; []; 9%N :: str "node [shape=rectangle];";
       9%N :: str "0 [label=" ++ [34%N] ++ str "0 " ++ [10142%N] ++ str " " ++ [8226%N] ++ str " 5" ++ [34%N] ++ str "];";
       9%N :: str "1 [label=" ++ [34%N] ++ str "0 " ++ [10142%N] ++ str " 5 " ++ [8226%N; 34%N] ++ str "];"; []; [];
       9%N :: str "0 -> 1 [label = " ++ [34%N] ++ str "5" ++ [34%N] ++ str "]"; []; str "}"]%string.
  Proof. eexists. eexists. split; [vm_compute; reflexivity|]. split; [vm_compute; reflexivity|]. vm_compute. reflexivity. Qed.
End Grammar.
