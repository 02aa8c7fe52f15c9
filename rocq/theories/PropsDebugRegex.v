(** Property C103: the [Debug] texts of regexes, of their errors and of runs. *)
From Verif Require Import Base RegexModel SpecRegex NfaModel DotModel DebugModel DebugRegexModel SpecDebug DebugProofs DebugRegex.

(** C103: of a regex and of its tokens, whatever characters count as printable. *)
Theorem C103_regex : forall printable,
  (forall e e', (plain (dbg_expr printable e) = plain (dbg_expr printable e') -> e = e') /\
                (pretty (dbg_expr printable e) = pretty (dbg_expr printable e') -> e = e')) /\
  (forall t t', (plain (dbg_rtoken printable t) = plain (dbg_rtoken printable t') -> t = t') /\
                (pretty (dbg_rtoken printable t) = pretty (dbg_rtoken printable t') -> t = t')).
Proof. intros printable. exact (conj (telling_texts _ (telling_expr printable)) (telling_texts _ (telling_rtoken printable))). Qed.
Print Assumptions C103_regex.

(** C103: of the errors of a pattern, and the message when such a result is
    unwrapped. *)
Theorem C103_errors : forall errs errs',
  (plain (dbg_errors errs) = plain (dbg_errors errs') -> errs = errs') /\
  (pretty (dbg_errors errs) = pretty (dbg_errors errs') -> errs = errs') /\
  (unwrap_message errs = unwrap_message errs' -> errs = errs').
Proof.
  intros errs errs'. destruct (telling_texts _ telling_errors errs errs') as [H1 H2].
  exact (conj H1 (conj H2 (unwrap_tells errs errs'))).
Qed.
Print Assumptions C103_errors.

(** C103: of the inputs of an automaton; these are the labels of its dot text. *)
Theorem C103_inputs : forall printable i i',
  plain (dbg_input printable i) = show_input printable i /\
  (show_input printable i = show_input printable i' -> i = i') /\
  (pretty (dbg_input printable i) = pretty (dbg_input printable i') -> i = i').
Proof.
  intros printable i i'. destruct (telling_texts _ (telling_input printable) i i') as [H1 H2].
  split; [exact (plain_input printable i)|]. split; [|exact H2].
  rewrite <- !plain_input. exact H1.
Qed.
Print Assumptions C103_inputs.

(** C103: of the runs of a simulator with their counters. *)
Theorem C103_runs : forall r r',
  (plain (dbg_run r) = plain (dbg_run r') -> r = r') /\ (pretty (dbg_run r) = pretty (dbg_run r') -> r = r').
Proof. exact (telling_texts _ telling_run). Qed.
Print Assumptions C103_runs.

(** The regex [[^a-c]{2,}|(x\d)?] and the errors of [(a]. *)
Example C103_sample :
  exists e errs, regex_parse (env := ascii_env true) (str "[^a-c]{2,}|(x\d)?") = Val (ParseOk e) /\
  plain (dbg_expr (fun c => (32 <=? c)%N) e) =
    str "Alt(Lit(Group { negated: true, literals: W([Range('a', 'c')]) }, Some(Range(Min(2)))), Group(Concat([Lit(Match('x'), None), Lit(Class(Digit), None)]), Some(QuestionMark)))" /\
  regex_parse (env := ascii_env true) (str "(a") = Val (ParseErr errs) /\
  unwrap_message errs = str "called `Result::unwrap()` on an `Err` value: W([ParseError { kind: RightParan, pos: (0, 1) }])".
Proof. eexists; eexists. split; [vm_compute; reflexivity|]. split; [vm_compute; reflexivity|]. split; vm_compute; reflexivity. Qed.
