(** Model of pango-lexer/src/lexer: the input iterator, the lexer and its
    builder. *)
From Verif Require Import Base RegexModel NfaModel.

(** ** Input iterator *)

(** input.rs:19-24 [InputIterToken]. *)
Record itoken := { it_source : list char; it_pos : nat * nat }.

(** input.rs:7-17 [InputIter]: the characters of the [Chars] iterator not yet
    read and the number of the next one, the token being built, the suffix read
    but not accepted, and the characters handed back. *)
Record iter := {
  ii_rest : list char;
  ii_count : nat;
  ii_token : itoken;
  ii_suffix : list (nat * char);
  ii_prev : list (nat * char)
}.

(** input.rs:65-72 [InputIter::new]. *)
Definition iter_new (w : list char) : iter :=
  {| ii_rest := w; ii_count := 0; ii_token := {| it_source := []; it_pos := (0, 0) |};
     ii_suffix := []; ii_prev := [] |}.

(** input.rs:50-60 [next]. *)
Definition iter_next (i : iter) : option char * iter :=
  match ii_prev i with
  | (p, c) :: r =>
      (Some c, {| ii_rest := ii_rest i; ii_count := ii_count i; ii_token := ii_token i;
                  ii_suffix := ii_suffix i ++ [(p, c)]; ii_prev := r |})
  | [] =>
      match ii_rest i with
      | c :: r =>
          (Some c, {| ii_rest := r; ii_count := S (ii_count i); ii_token := ii_token i;
                      ii_suffix := ii_suffix i ++ [(ii_count i, c)]; ii_prev := [] |})
      | [] => (None, i)
      end
  end.

(** input.rs:76-87 [consume_token]. *)
Definition consume_token (i : iter) : itoken * iter :=
  (ii_token i,
   {| ii_rest := ii_rest i; ii_count := ii_count i;
      ii_token := {| it_source := []; it_pos := (snd (it_pos (ii_token i)), 0) |};
      ii_suffix := []; ii_prev := ii_suffix i |}).

(** input.rs:96-110 [accept_suffix]. *)
Definition accept_suffix (i : iter) : iter :=
  let last_pos := last (map fst (ii_suffix i)) 0 in
  {| ii_rest := ii_rest i; ii_count := ii_count i;
     ii_token := {| it_source := it_source (ii_token i) ++ map snd (ii_suffix i);
                    it_pos := (fst (it_pos (ii_token i)), last_pos + 1) |};
     ii_suffix := []; ii_prev := ii_prev i |}.

(** ** Lexer *)

(** lexer/mod.rs:39-49 [Token]. *)
Record ltoken (K : Type) := { lt_kind : K; lt_source : list char; lt_pos : nat * nat }.
Arguments lt_kind {K} _.
Arguments lt_source {K} _.
Arguments lt_pos {K} _.

Section Lexer.
  Context {env : Env} {ho : HashOrder} {K : Type}.

  (** lexer/mod.rs:25-37 [TokenKindGenerator].  The public constructors
      (lines 151-205) only store plain functions ([fn() -> K], [fn(&str) -> K])
      or a copied value, so a generator is a function of the source text. *)
  Inductive generator := GenMap (f : list char -> K) | GenUnit (f : unit -> K).

  Definition gen_run (g : generator) (src : list char) : K :=
    match g with GenMap f => f src | GenUnit f => f tt end.

  (** lexer/mod.rs:11-23 [Lexer]; the map from final states to generators. *)
  Record lexer := { lx_iter : iter; lx_nfa : nfa; lx_tokens : list (nat * generator) }.

  Fixpoint find_token (i : nat) (l : list (nat * generator)) : option generator :=
    match l with
    | [] => None
    | (j, g) :: r => if i =? j then Some g else find_token i r
    end.

  Definition lx_with_iter (lx : lexer) (i : iter) : lexer :=
    {| lx_iter := i; lx_nfa := lx_nfa lx; lx_tokens := lx_tokens lx |}.

  (** lexer/mod.rs:51-59 [from_input_iter_token] with [consume_token]. *)
  Definition emit (lx : lexer) (i : iter) (kind : option K) : option (ltoken K) * lexer :=
    match kind with
    | Some k =>
        let '(t, i') := consume_token i in
        (Some {| lt_kind := k; lt_source := it_source t; lt_pos := it_pos t |}, lx_with_iter lx i')
    | None => (None, lx_with_iter lx i)
    end.

  (** lexer/mod.rs:72-119, the loop of [Lexer::next].  [fuel] is the fuel of the
      simulator; [steps] bounds the number of characters read. *)
  Fixpoint lex_loop (fuel steps : nat) (lx : lexer) (i : iter) (runs : list run) (kind : option K)
      : res (option (ltoken K) * lexer) :=
    match iter_next i with
    | (None, i') =>
        let! a := sim_accepting (lx_nfa lx) runs in
        if a then Val (emit lx i' kind) else Val (None, lx_with_iter lx i')
    | (Some ch, i1) =>
        match steps with
        | 0 => Diverge
        | S steps' =>
            let! can := sim_can_feed (lx_nfa lx) runs ch in
            if negb can then Val (emit lx i1 kind)
            else
              let! (runs', accepts) := sim_feed fuel (lx_nfa lx) runs ch in
              if accepts then
                let i2 := accept_suffix i1 in
                let! f := of_option (hd_error (sim_final_states (lx_nfa lx) runs')) in
                let! g := of_option (find_token f (lx_tokens lx)) in
                lex_loop fuel steps' lx i2 runs' (Some (gen_run g (it_source (ii_token i2))))
              else lex_loop fuel steps' lx i1 runs' kind
        end
    end.

  (** Characters the iterator can still deliver. *)
  Definition iter_left (i : iter) : nat := length (ii_prev i) + length (ii_rest i).

  (** lexer/mod.rs:68-120 [Lexer::next]. *)
  Definition lex_next (fuel : nat) (lx : lexer) : res (option (ltoken K) * lexer) :=
    let! runs := sim_new fuel (lx_nfa lx) in
    lex_loop fuel (iter_left (lx_iter lx)) lx (lx_iter lx) runs None.

  (** [n] calls of [next], as [collect] or a [for] loop makes them (without
      stopping at [None]). *)
  Fixpoint lex_calls (fuel n : nat) (lx : lexer) : res (list (option (ltoken K)) * lexer) :=
    match n with
    | 0 => Val ([], lx)
    | S n' =>
        let! (o, lx1) := lex_next fuel lx in
        let! (os, lx2) := lex_calls fuel n' lx1 in
        Val (o :: os, lx2)
    end.

  (** ** Builder *)

  (** lexer/mod.rs:130-134 [LexerGenerator]. *)
  Record lexgen := { lg_compiler : compiler; lg_tokens : list (nat * generator) }.

  (** lexer/mod.rs:136-149 [LexerGenerator::new]. *)
  Definition lexgen_new : res lexgen :=
    let! c := compiler_new in
    Val {| lg_compiler := c; lg_tokens := [] |}.

  (** lexer/mod.rs:212-226 [add_token], through [with_token],
      [with_token_unit] and [with_token_map] (lines 151-205).  The inner result
      is the [ParseResult]. *)
  Definition add_token (lg : lexgen) (pattern : list char) (g : generator)
      : res (lexgen + list perr) :=
    let '(c1, f) := new_final (lg_compiler lg) in
    let! p := regex_parse pattern in
    match p with
    | ParseErr errs => Val (inr errs)
    | ParseOk e =>
        let! c2 := add_expression c1 e in
        Val (inl {| lg_compiler := c2; lg_tokens := lg_tokens lg ++ [(f, g)] |})
    end.

  (** lexer/mod.rs:229-236 [tokenize]. *)
  Definition tokenize (lg : lexgen) (input : list char) : res lexer :=
    let! m := compiler_compile (lg_compiler lg) in
    Val {| lx_iter := iter_new input; lx_nfa := m; lx_tokens := lg_tokens lg |}.

  (** A chain of [with_token..(..)?] calls. *)
  Fixpoint add_tokens (lg : lexgen) (l : list (list char * generator)) : res (lexgen + list perr) :=
    match l with
    | [] => Val (inl lg)
    | (p, g) :: r =>
        let! x := add_token lg p g in
        match x with
        | inl lg' => add_tokens lg' r
        | inr errs => Val (inr errs)
        end
    end.

  Definition build_lexer (l : list (list char * generator)) (input : list char)
      : res (lexer + list perr) :=
    let! lg := lexgen_new in
    let! x := add_tokens lg l in
    match x with
    | inl lg' => let! lx := tokenize lg' input in Val (inl lx)
    | inr errs => Val (inr errs)
    end.
End Lexer.
Arguments generator K : clear implicits.
Arguments lexer K : clear implicits.
Arguments lexgen K : clear implicits.
