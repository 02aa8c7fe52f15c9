(** Property C88: every iteration over a hash container may have its own order. *)
From Verif Require Import Base RegexModel SpecRegex NfaModel LexerModel LexerWitness PropsLexer TickModel TickLexer.

(** C88: [Nfa::simulate] gives the answer it gives with any other orders, and
    gives one if and only if it does with others. *)
Theorem C88_answers_of_any_orders {env : Env} m m' w (ho1 ho2 : HashOrder) b : nfa_build m' = Val m ->
  (exists fuel, @simulate env ho1 fuel m w = Val b) <->
  (exists N, forall fuel t, N <= fuel -> exists t', @tick_simulate env ho2 fuel t m w = Val (b, t')).
Proof. exact (simulate_tick m m' w ho1 ho2 b). Qed.
Print Assumptions C88_answers_of_any_orders.

(** ... and [Lexer::next], called any number of times, returns the tokens it
    returns with any other orders, returns them if and only if it does with
    others, and never panics. *)
Theorem C88_tokens_of_any_orders {env : Env} (K : Type) (ts : list (list char * generator K)) input (lx : lexer K) n os lx' (ho1 ho2 : HashOrder) :
  build_lexer ts input = Val (inl lx) ->
  ((exists fuel, @lex_calls env ho1 K fuel n lx = Val (os, lx')) <->
   (exists N, forall fuel t, N <= fuel -> exists t', @tick_calls env ho2 K fuel t n lx = Val (os, lx', t'))) /\
  (forall fuel t os' l t', @tick_calls env ho2 K fuel t n lx = Val (os', l, t') ->
    exists fuel', @lex_calls env ho1 K fuel' n lx = Val (os', l)) /\
  (forall fuel t, @tick_calls env ho2 K fuel t n lx <> Panic).
Proof. exact (lexer_tick ts input lx n os lx' ho1 ho2). Qed.
Print Assumptions C88_tokens_of_any_orders.

(** An order that turns round with every iteration. *)
Definition restless : HashOrder :=
  {| hash_at := fun k A l => if Nat.odd (hd 0 k) then rev l else l;
     hash_at_perm := fun k A l => match Nat.odd (hd 0 k) as b return Permutation (if b then rev l else l) l with
                                  | true => Permutation_sym (Permutation_rev l)
                                  | false => Permutation_refl l
                                  end |}.
Example C88_sample {env : Env} : exists lx lx' t', build_lexer (plain ["if"; "[a-z]+"; " +"]%string) (str "if iffy if"%string) = Val (inl lx) /\
  @tick_calls env restless _ 60 0 6 lx =
    Val ([Some (tok 0 "if" 0 2); Some (tok 2 " " 2 3); Some (tok 1 "iffy" 3 7); Some (tok 2 " " 7 8); Some (tok 0 "if" 8 10); None], lx', t') /\
  (exists s, In s (nfa_states (lx_nfa lx)) /\ @tick_trans restless 0 s <> @tick_trans restless 1 s).
Proof.
  eexists. eexists. eexists. split; [vm_compute; reflexivity|]. split; [vm_compute; reflexivity|].
  eexists. split; [left; reflexivity|]. vm_compute. discriminate.
Qed.
