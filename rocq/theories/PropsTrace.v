(** Property C104: what a build with debug assertions writes while lexing. *)
From Verif Require Import Base RegexModel SpecRegex NfaModel SpecNfa LexerModel SpecLexer SpecCalls DotModel DebugModel DebugRegexModel
  TraceModel SpecTrace TraceProofs CountProofs.

(** C104: writing changes nothing: the same tokens, panics and endless loops. *)
Theorem C104_silent {env : Env} (K : Type) (ho : HashOrder) printable place place' fuel n (lx : lexer K) :
  lex_calls fuel n lx = match trace_calls printable place place' fuel n lx with
                        | Val (q, _) => Val q
                        | Panic => Panic
                        | Diverge => Diverge
                        end.
Proof. exact (trace_same printable place place' fuel n lx). Qed.
Print Assumptions C104_silent.

(** C104: what is written, call by call: every character up to the first that
    cannot be fed, with whether the text up to it is matched. *)
Theorem C104_text {env : Env} (K : Type) printable place place' (ts : list (list char * generator K)) input lx es (ho : HashOrder) fuel n os lx' w L :
  build_lexer ts input = Val (inl lx) -> parsed ts es -> agreed L es ->
  trace_calls printable place place' fuel n lx = Val (os, lx', w) ->
  exists l, w = concat (map (fun e => feed_text printable place place' (sh_char e) (sh_runs e) (sh_accepts e)) l) /\
    show_calls L es (map snd ts) (starting input) os l.
Proof. exact (built_shows printable place place' ts input lx es ho fuel n os lx' w L). Qed.
Print Assumptions C104_text.

(** C104: the text tells the characters, the runs with all counters, and the
    answers. *)
Theorem C104_tells : forall printable place place' l l',
  concat (map (fun e => feed_text printable place place' (sh_char e) (sh_runs e) (sh_accepts e)) l) =
  concat (map (fun e => feed_text printable place place' (sh_char e) (sh_runs e) (sh_accepts e)) l') -> l = l'.
Proof. exact text_tells. Qed.
Print Assumptions C104_tells.

(** C104: what the first call writes tells the token it returns, whatever the
    texts, the hash orders and the generators. *)
Theorem C104_token {env : Env} (K : Type) printable place place' (ts : list (list char * generator K)) input input' lx lx2
  (ho ho' : HashOrder) fuel fuel' t t' lx' lx2' w :
  build_lexer ts input = Val (inl lx) -> build_lexer ts input' = Val (inl lx2) ->
  trace_next (ho := ho) printable place place' fuel lx = Val (Some t, lx', w) ->
  trace_next (ho := ho') printable place place' fuel' lx2 = Val (Some t', lx2', w) ->
  t = t'.
Proof. exact (text_source printable place place' ts input input' lx lx2 ho ho' fuel fuel' t t' lx' lx2' w). Qed.
Print Assumptions C104_token.

(** The patterns [a] and [a*b] on [ac]: one character is fed. *)
Definition trace_lexer : lexer nat :=
  Eval vm_compute in match build_lexer (env := ascii_env true) slow_tokens (str "ac") with
                     | Val (inl lx) => lx
                     | _ => {| lx_iter := iter_new []; lx_nfa := {| nfa_start := 0; nfa_states := [] |}; lx_tokens := [] |}
                     end.
Definition trace_lines : list (list char) :=
    [str "[sim.rs:174:13] input = 'a'";
     str "[sim.rs:174:13] &self.runs = [";
     str "    Run {";
     str "        state_id: 2,";
     str "        state_counters: {";
     str "            0: 1,";
     str "        },";
     str "    },";
     str "    Run {";
     str "        state_id: 5,";
     str "        state_counters: {";
     str "            5: 1,";
     str "        },";
     str "    },";
     str "    Run {";
     str "        state_id: 4,";
     str "        state_counters: {";
     str "            5: 0,";
     str "        },";
     str "    },";
     str "]";
     str "[sim.rs:175:13] self.is_accepting() = true"].
Example C104_sample :
  build_lexer (env := ascii_env true) slow_tokens (str "ac") = Val (inl trace_lexer) /\
  parsed (env := ascii_env true) slow_tokens slow_es /\ agreed (env := ascii_env true) (lang (env := ascii_env true)) slow_es /\
  exists lx', trace_calls (env := ascii_env true) (ho := id_order) (fun c => (32 <=? c)%N) (str "sim.rs:174:13") (str "sim.rs:175:13") 100 1 trace_lexer =
    Val ([Some {| lt_kind := 0; lt_source := str "a"; lt_pos := (0, 1) |}], lx', concat (map (fun l => l ++ [10%N]) trace_lines)).
Proof.
  split; [vm_compute; reflexivity|]. split; [exact (slow_parsed (env := ascii_env true))|]. split; [exact (slow_agreed (env := ascii_env true))|].
  eexists. vm_compute. reflexivity.
Qed.

(** Two texts with the same first token and the same text written: [ac] and
    [ax]. *)
Example C104_token_sample :
  exists lx2, build_lexer (env := ascii_env true) slow_tokens (str "ax") = Val (inl lx2) /\
  match trace_next (env := ascii_env true) (ho := id_order) (fun c => (32 <=? c)%N) [] [] 100 trace_lexer,
        trace_next (env := ascii_env true) (ho := id_order) (fun c => (32 <=? c)%N) [] [] 100 lx2 with
  | Val (Some t, _, w), Val (Some t', _, w') => w = w' /\ t = t'
  | _, _ => False
  end.
Proof. eexists. split; [vm_compute; reflexivity|]. vm_compute. split; reflexivity. Qed.
