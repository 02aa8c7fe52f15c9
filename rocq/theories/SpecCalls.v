(** Specification of all calls of a lexer, for any patterns: what a call reads,
    returns and hands back, in terms of the languages of the regexes. *)
From Verif Require Import Base RegexModel SpecNfa LexerModel SpecLexer.

(** Characters with their positions in the text. *)
Definition places (w : list char) : list (nat * char) := combine (seq 0 (length w)) w.
Definition letters (l : list (nat * char)) : list char := map snd l.

(** Between two calls: where the next token is said to begin, what the calls
    since the last token have read in vain, what was handed back, and what has not
    been read yet. *)
Record held := { h_from : nat; h_junk : list (nat * char); h_back : list (nat * char); h_rest : list (nat * char) }.

Definition starting (w : list char) : held := {| h_from := 0; h_junk := []; h_back := []; h_rest := places w |}.

Section Calls.
  Context {env : Env} {K : Type}.
  Context (L : expr -> list char -> Prop) (es : list expr) (gens : list (generator K)).

  (** Reading comes first from what was handed back. *)
  Definition ahead (s : held) : list (nat * char) := h_back s ++ h_rest s.
  Definition back_after (s : held) (n : nat) : list (nat * char) := skipn n (h_back s).
  Definition rest_after (s : held) (n : nat) : list (nat * char) := skipn (n - length (h_back s)) (h_rest s).

  (** The end of the character read last. *)
  Definition end_of (u : list (nat * char)) : nat := S (fst (last u (0, 0%N))).

  (** The token for the text [u] contains what was read in vain before. *)
  Definition token_of (s : held) (u : list (nat * char)) (g : generator K) : ltoken K :=
    {| lt_kind := gen_run g (letters (h_junk s ++ u)); lt_source := letters (h_junk s ++ u);
       lt_pos := (h_from s, end_of u) |}.

  (** Of the texts [u], [u] and a first part of [v], ..., [u v] only [u] is
      matched. *)
  Definition last_match (u v : list (nat * char)) : Prop :=
    forall v1 v2, v = v1 ++ v2 -> v1 <> [] -> ~ matched L es (letters (u ++ v1)).

  Inductive call (s : held) : option (ltoken K) -> held -> Prop :=
  (** [u v] can be fed, not so with [c], and [u] is the longest match: [v c] is
      handed back, in place of what is left of the characters handed back before. *)
  | call_token u v c r i g :
      ahead s = u ++ v ++ c :: r -> u <> [] ->
      feedable es (letters (u ++ v)) -> ~ feedable es (letters (u ++ v ++ [c])) ->
      first_match L es (letters u) i -> nth_error gens i = Some g -> last_match u v ->
      call s (Some (token_of s u g))
        {| h_from := end_of u; h_junk := []; h_back := v ++ [c]; h_rest := rest_after s (length (u ++ v ++ [c])) |}
  (** The same without a match: all is kept for the next token. *)
  | call_vain v c r :
      ahead s = v ++ c :: r ->
      feedable es (letters v) -> ~ feedable es (letters (v ++ [c])) -> last_match [] v ->
      call s None
        {| h_from := h_from s; h_junk := h_junk s ++ v ++ [c];
           h_back := back_after s (length (v ++ [c])); h_rest := rest_after s (length (v ++ [c])) |}
  (** All that is left is matched. *)
  | call_last i g :
      ahead s <> [] ->
      first_match L es (letters (ahead s)) i -> nth_error gens i = Some g ->
      call s (Some (token_of s (ahead s) g))
        {| h_from := end_of (ahead s); h_junk := []; h_back := []; h_rest := [] |}
  (** All that is left can be fed but is not matched, or nothing is left. *)
  | call_over :
      feedable es (letters (ahead s)) -> (ahead s = [] \/ ~ matched L es (letters (ahead s))) ->
      call s None {| h_from := h_from s; h_junk := []; h_back := []; h_rest := [] |}.

  Inductive calls : held -> list (option (ltoken K)) -> Prop :=
  | calls_nil s : calls s []
  | calls_cons s o s' os : call s o s' -> calls s' os -> calls s (o :: os).
End Calls.
