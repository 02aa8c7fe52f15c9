(** A function that finds a shortest text that a lexer does not read as other patterns are written. *)
From Verif Require Import Base RegexModel SpecRegex NfaModel SpecNfa SpecKleene KleeneProofs LexerModel SpecQuery SpecFind.

(** [es] and [gens] are those of the lexer, [es'] and [gens'] say what is meant. *)
Definition misread {env : Env} {K : Type} {dk : DecEq K} (bs : list N) (es : list expr) (gens : list (generator K)) (es' : list expr) (gens' : list (generator K)) : option (list char) :=
  find_text bs (Times r_char (Star r_char) :: map r_impl es ++ map r_lang es')
    (fun l => match l with
              | b :: l' => b && negb (eqb (first_kind gens (firstn (length es) l')) (first_kind gens' (skipn (length es) l')))
              | [] => false
              end).
