(** The parser with a limited stack: [None] is returned when the [Vec] of
    [ParseNode]s (parser/slr.rs:50-56) would get more than [d] entries. *)
From Verif Require Import Base GrammarModel CfsmModel SlrModel.

Section Limited.
  Context {V T : Type} {dv : DecEq V} {dt : DecEq T}.
  Variable teq : T -> T -> bool.
  Variable d : nat.
  Notation outcome := (option (res (option (node V T)))).

  (** parser/slr.rs:73-89: the loop at the end of the input; the node is pushed
      at line 85. *)
  Fixpoint s_eof_loop (fuel : nat) (tb : table V T) (stack : list (parse_node V T)) (cur : nat) : outcome :=
    match fuel with
    | 0 => Some Diverge
    | S fuel' =>
        match handle_token teq tb None stack cur with
        | Val None => Some (Val None)
        | Val (Some (_, stack', pn, accept)) =>
            if accept : bool then Some (Val (Some (fst pn)))
            else if length stack' <? d then s_eof_loop fuel' tb (pn :: stack') (snd pn) else None
        | Panic => Some Panic
        | Diverge => Some Diverge
        end
    end.

  (** parser/slr.rs:58-71: the loop over the tokens; the node is pushed at line
      70. *)
  Fixpoint s_parse_loop (fuel : nat) (tb : table V T) (inp : list T) (tok : option T)
      (stack : list (parse_node V T)) (cur : nat) : outcome :=
    match fuel with
    | 0 => Some Diverge
    | S fuel' =>
        match match tok with Some t => (Some t, inp) | None => match inp with [] => (None, []) | t :: r => (Some t, r) end end with
        | (None, _) => s_eof_loop fuel' tb stack cur
        | (Some t, inp') =>
            match handle_token teq tb (Some t) stack cur with
            | Val None => Some (Val None)
            | Val (Some (tok2, stack', pn, accept)) =>
                if accept : bool then Some (Val (Some (fst pn)))
                else if length stack' <? d then s_parse_loop fuel' tb inp' tok2 (pn :: stack') (snd pn) else None
            | Panic => Some Panic
            | Diverge => Some Diverge
            end
        end
    end.

  (** parser/slr.rs:44-90 [Slr::parse]. *)
  Definition s_parse (fuel : nat) (tb : table V T) (ts : list T) : outcome :=
    if 0 <? d then s_parse_loop fuel tb ts None [(Node (Var (g_start (tb_grammar tb))) [], 0)] 0 else None.
End Limited.
