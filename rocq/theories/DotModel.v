(** Model of the textual forms of the automata: pango-lexer/src/fsm/nfa/dot.rs
    and the rest of pango-parser/src/cfsm/dot.rs. *)
From Verif Require Import Base RegexModel NfaModel.
From Verif Require GrammarModel CfsmModel.

(** [usize::to_string] and [{:?}] of a [u32] (standard library). *)
Fixpoint dec_digits (fuel : nat) (n : N) (acc : list char) : list char :=
  match fuel with
  | 0 => acc
  | S fuel' =>
      let acc' := (48 + n mod 10)%N :: acc in
      if (n <? 10)%N then acc' else dec_digits fuel' (n / 10)%N acc'
  end.
Definition show_num (n : N) : list char := dec_digits (S (N.to_nat (N.log2 n))) n [].
Definition show_id (i : nat) : list char := show_num (N.of_nat i).

(** Lower case hexadecimal digits, as in [{:x}] (standard library). *)
Fixpoint hex_digits (fuel : nat) (n : N) (acc : list char) : list char :=
  match fuel with
  | 0 => acc
  | S fuel' =>
      let d := (n mod 16)%N in
      let acc' := (if (d <? 10)%N then 48 + d else 87 + d)%N :: acc in
      if (n <? 16)%N then acc' else hex_digits fuel' (n / 16)%N acc'
  end.

Section Debug.
  (** The Unicode table behind [char::escape_debug]: the characters that are
      printed as they are. *)
  Context (printable : char -> bool).

  (** [Debug for char] (standard library): quotes, and escapes for NUL, tab,
      newline, carriage return, single quote, backslash and what is not
      printable. *)
  Definition show_char (c : char) : list char :=
    [$"'"] ++
    (if (c =? 0)%N then str "\0"
     else if (c =? 9)%N then str "\t"
     else if (c =? 10)%N then str "\n"
     else if (c =? 13)%N then str "\r"
     else if (c =? 39)%N then str "\'"
     else if (c =? 92)%N then str "\\"
     else if printable c then [c]
     else str "\u{" ++ hex_digits (S (N.to_nat (N.log2 c))) c [] ++ str "}")
    ++ [$"'"].

  (** Derived [Debug] of tokenizer.rs:48-59 [ClassKind]. *)
  Definition show_class (k : class_kind) : list char :=
    match k with
    | CWildcard => str "Wildcard"
    | CWord => str "Word"
    | CWhitespace => str "Whitespace"
    | CDigit => str "Digit"
    | CNonWord => str "NonWord"
    | CNonDigit => str "NonDigit"
    | CNonWhitespace => str "NonWhitespace"
    end.

  (** Derived [Debug] of tokenizer.rs:73-90 [QuantifierKind]. *)
  Definition show_quant (q : quant) : list char :=
    match q with
    | QAsterisk => str "Asterisk"
    | QPlus => str "Plus"
    | QQuestion => str "QuestionMark"
    | QMax n => str "Range(Max(" ++ show_num n ++ str "))"
    | QMin n => str "Range(Min(" ++ show_num n ++ str "))"
    | QRange a b => str "Range(Range(" ++ show_num a ++ str ", " ++ show_num b ++ str "))"
    end.

  (** Derived [Debug] of ast.rs:51-61 [GroupedLiteralKind]. *)
  Definition show_glit (g : glit) : list char :=
    match g with
    | GMatch c => str "Match(" ++ show_char c ++ str ")"
    | GClass k => str "Class(" ++ show_class k ++ str ")"
    | GRange a b => str "Range(" ++ show_char a ++ str ", " ++ show_char b ++ str ")"
    end.

  (** Derived [Debug] of ast.rs:36-49 [LiteralKind] and prelude.rs:2-3 [W]. *)
  Definition show_lit (l : lit) : list char :=
    match l with
    | LMatch c => str "Match(" ++ show_char c ++ str ")"
    | LClass k => str "Class(" ++ show_class k ++ str ")"
    | LGroup neg ls =>
        str "Group { negated: " ++ (if neg then str "true" else str "false") ++
        str ", literals: W([" ++ CfsmModel.join (str ", ") (map show_glit ls) ++ str "]) }"
    end.

  (** Derived [Debug] of model.rs:36-47 [Input]. *)
  Definition show_input (i : input) : list char :=
    match i with
    | ILit l => str "Literal(" ++ show_lit l ++ str ")"
    | IEps => str "Eps"
    | IQuant q => str "Quantified(" ++ show_quant q ++ str ")"
    end.

  Definition newline : list char := [10%N].
  Definition tab : list char := [9%N].
  Definition dquote : list char := [34%N].

  Context {ho : HashOrder}.

  (** nfa/dot.rs:54-65 [transition_tuples]. *)
  Definition transition_tuples (k : nat) (s : state) : list (nat * nat * list char) :=
    flat_map (fun p => map (fun dest => (st_id s, dest, show_input (fst p))) (snd p)) (iter_trans k s).

  (** nfa/dot.rs:44-51 [transition_dot]. *)
  Definition transition_dot (k : nat) (m : nfa) : list (list char) :=
    flat_map (fun s => map (fun '(start, dest, label) =>
        show_id start ++ str " -> " ++ show_id dest ++ str " [label = " ++ dquote ++ label ++ dquote ++ str "];")
      (transition_tuples k s)) (nfa_states m).

  (** nfa/dot.rs:12-41 [Nfa::to_dot], also behind [Display] (lines 6-10), with
      model.rs:76-78 [get_final_states]. *)
  Definition nfa_to_dot (k : nat) (m : nfa) : list char :=
    let final_dot := str "node [shape = doublecircle]; " ++
      CfsmModel.join (str " ") (map (fun s => show_id (st_id s)) (filter st_fin (nfa_states m))) in
    str "digraph nfa {" ++ newline ++
    tab ++ str "rankdir = LR;" ++ newline ++
    newline ++
    tab ++ str "// final states" ++ newline ++
    tab ++ final_dot ++ newline ++
    tab ++ str "node [shape = circle]; 0;" ++ newline ++
    newline ++
    CfsmModel.join newline (map (fun l => tab ++ l) (transition_dot k m)) ++ newline ++
    str "}".
End Debug.

Section CfsmDot.
  Import GrammarModel CfsmModel.
  Context {V T : Type} {ho : HashOrder} (show_v : V -> list char) (show_t : T -> list char).

  (** cfsm/dot.rs:33-44 [node_labels_dot]. *)
  Definition node_labels_dot (k : nat) (c : cfsm V T) : list (list char) :=
    map (fun st =>
      let label := join (str "\n") (map (fun it => show_v (fst it) ++ [32; 10142; 32]%N ++ display_item show_v show_t (snd it))
                                       (hash_at [cs_id st; 0; k] (cs_items st))) in
      show_id (cs_id st) ++ str " [label=" ++ dquote ++ label ++ dquote ++ str "];") (cf_states c).

  (** cfsm/dot.rs:46-68 [transitions_dot]. *)
  Definition transitions_dot (k : nat) (c : cfsm V T) : list (list char) :=
    flat_map (fun st => map (fun e =>
        show_id (cs_id st) ++ str " -> " ++ show_id (snd e) ++ str " [label = " ++ dquote ++
        show_symbol show_v show_t (fst e) ++ dquote ++ str "]") (hash_at [cs_id st; 1; k] (cs_trans st))) (cf_states c).

  (** cfsm/dot.rs:14-31 [Cfsm::to_dot]. *)
  Definition cfsm_to_dot (k : nat) (c : cfsm V T) : list char :=
    let lines l := concat (map (fun x => tab ++ x ++ newline) l) in
    str "digraph cfsm {" ++ newline ++
    tab ++ str "rankdir=LR;" ++ newline ++
    newline ++
    tab ++ str "node [shape=rectangle];" ++ newline ++
    lines (node_labels_dot k c) ++ newline ++
    newline ++
    lines (transitions_dot k c) ++ newline ++
    str "}".
End CfsmDot.
