(** A function that tells whether two lexers return the same tokens. *)
From Verif Require Import Base RegexModel SpecRegex NfaModel SpecNfa LexerModel SpecLexer SpecKleene KleeneProofs SpecQuery SpecCertify.

Section Alike.
  Context {env : Env} {K : Type} {dk : DecEq K} (bs : list N).
  (** The lexer tokenizes by maximal munch of what its automata match. *)
  Definition goodb (es : list expr) : bool := munching bs es && forallb (fun e => negb (gapb e) && loops_ok e) es.

  (** The patterns with those before them and what makes their tokens. *)
  Fixpoint entries (before es : list expr) (gens : list (generator K)) : list (list expr * expr * generator K) :=
    match es, gens with
    | x :: es', k :: gens' => (before, x, k) :: entries (before ++ [x]) es' gens'
    | _, _ => []
    end.
  (** Some text that is not empty becomes a token of both. *)
  Definition both_first (a b : list expr * expr * generator K) : bool :=
    exists_text bs [r_some (r_impl (snd (fst a))); r_matched (fst (fst a)); r_impl (snd (fst b)); r_matched (fst (fst b))]
      (fun l => match l with [p; q; r; s] => p && negb q && r && negb s | _ => false end).
  Definition alikeb (es : list expr) (gens : list (generator K)) (es' : list expr) (gens' : list (generator K)) : bool :=
    negb (exists_text bs [r_some (r_matched es); r_some (r_matched es')] differ) &&
    forallb (fun a => forallb (fun b => eqb (gen_run (snd a) []) (gen_run (snd b) []) || negb (both_first a b)) (entries [] es' gens')) (entries [] es gens).
End Alike.
