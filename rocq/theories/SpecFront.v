(** Specification of a whole front end: what comes of a text for given
    patterns and a given grammar, without automata and tables. *)
From Verif Require Import Base RegexModel SpecRegex LexerModel SpecLexer SpecMunch GrammarModel SlrModel SpecCfg.

(** The languages [L] of the patterns [es] with the functions [gens] that make
    the tokens, the grammar [g], the new start variable [z] and the end token [e]: the result for a text is the
    tree of the sentence that maximal munch makes of the whole text, up to the
    end token, and [None] if there is no such sentence. *)
Definition outcome {env : Env} {V K} (L : expr -> list char -> Prop) (es : list expr) (gens : list (generator K)) (g : grammar V K)
    (teq : K -> K -> bool) (z : V) (e : K) (input : list char) (r : option (node V K)) : Prop :=
  match r with
  | Some n => exists ks e' x, reads_all L es gens input (ks ++ [e']) /\ teq e e' = true /\ parses g teq ks x /\
      n = Node (Var z) [Node (Ter e') []; to_node x]
  | None => forall ks e' x, reads_all L es gens input (ks ++ [e']) -> teq e e' = true -> ~ parses g teq ks x
  end.
