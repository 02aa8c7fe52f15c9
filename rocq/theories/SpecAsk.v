(** Specification of the calls of a lexer whose generators may panic or not
    return ([res K]). *)
From Verif Require Import Base RegexModel SpecNfa LexerModel SpecLexer SpecCalls SpecSpin.

Section Ask.
  Context {env : Env} {K : Type}.
  Context (L : expr -> list char -> Prop) (es : list expr) (gens : list (generator (res K))).

  (** After reading [u] the generator of the first pattern that matches [u] is
      called, with what was read in vain before in front of [u]. *)
  Definition asks (s : held) (u : list (nat * char)) (r : res K) : Prop :=
    u <> [] /\ (exists v, ahead s = u ++ v) /\
    exists i g, first_match L es (letters u) i /\ nth_error gens i = Some g /\ r = gen_run g (letters (h_junk s ++ u)).

  Definition returns (r : res K) : Prop := exists k, r = Val k.

  (** The first generator that goes wrong is the one called after [u]. *)
  Definition wrong (s : held) (u : list (nat * char)) (r : res K) : Prop :=
    asks s u r /\ ~ returns r /\ forall u1 u2 r', u = u1 ++ u2 -> u2 <> [] -> asks s u1 r' -> returns r'.

  (** No generator goes wrong. *)
  Definition content (s : held) : Prop := forall u r, asks s u r -> returns r.

  (** A pattern spins on the way to [u]. *)
  Definition spun (u : list (nat * char)) : Prop := exists e, In e es /\ spinning e (letters u).

  (** The next call never returns: the first generator that goes wrong does not
      return, or a pattern spins before a generator goes wrong. *)
  Definition hangs (s : held) : Prop :=
    (exists u, wrong s u Diverge /\ ~ spun u) \/ (spun (ahead s) /\ ~ exists u r, wrong s u r /\ ~ spun u).

  (** The token with its kind, if the generator returned it. *)
  Definition given (o : option (ltoken (res K))) (o' : option (ltoken K)) : Prop :=
    match o, o' with
    | None, None => True
    | Some t, Some t' => lt_kind t = Val (lt_kind t') /\ lt_source t' = lt_source t /\ lt_pos t' = lt_pos t
    | _, _ => False
    end.

  (** Calls in which nothing goes wrong. *)
  Inductive asked : held -> list (option (ltoken K)) -> held -> Prop :=
  | asked_nil s : asked s [] s
  | asked_cons s o o' s1 os s2 :
      ~ spun (ahead s) -> content s -> call L es gens s o s1 -> given o o' -> asked s1 os s2 -> asked s (o' :: os) s2.
End Ask.

(** Generators that always return. *)
Definition harmless {K} (g : generator K) : generator (res K) :=
  match g with
  | GenMap f => GenMap (fun s => Val (f s))
  | GenUnit f => GenUnit (fun u => Val (f u))
  end.

(** The results without the lexer that is left. *)
Definition results {A B} (r : res (A * B)) : res A := let! (a, _) := r in Val a.
