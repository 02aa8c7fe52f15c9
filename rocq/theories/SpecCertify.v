(** Functions that recognise patterns and grammars that make a right front end. *)
From Verif Require Import Base RegexModel SpecRegex NfaModel SpecNfa LexerModel SpecLexer GrammarModel SpecCfg SpecPossible SpecExactness SpecBuildable SpecTextbook SpecQuery.

(** An alternative with nothing in it. *)
Fixpoint gapb (e : expr) : bool :=
  match e with
  | EConcat es => match es with [] => true | _ => existsb gapb es end
  | EAlt l r => gapb l || gapb r
  | EGroup e _ => gapb e
  | _ => false
  end.

Section Lexer.
  Context {env : Env} (bs : list N) (es : list expr).
  (** The lexer tokenizes by maximal munch of the languages as written. *)
  Definition lexb : bool := munching bs es && forallb (fun e => negb (gapb e) && loops_ok e && as_written bs e) es.
  (** Every character is matched by some pattern. *)
  Definition coverb : bool := negb (exists_text bs [r_char; r_matched es] one_only).
End Lexer.

Section Parser.
  Context {V K : Type} {dv : DecEq V} {dk : DecEq K} (teq : K -> K -> bool) (g : grammar V K).
  Definition new_variable (z : V) : bool :=
    forallb (fun x : V * body V K => negb (eqb (fst x) z) && negb (memb (Var z) (snd x))) (all_rules g).
  Definition new_terminal (e : K) : bool :=
    forallb (fun x : V * body V K => forallb (fun s => match s with Ter t => negb (teq t e) | _ => true end) (snd x)) (all_rules g).
End Parser.

Section Both.
  Context {env : Env} {V K : Type} {dv : DecEq V} {dk : DecEq K} (bs : list N) (es : list expr) (teq : K -> K -> bool) (g : grammar V K).
  (** Without an end token. *)
  Definition texts_right : bool := lexb bs es && always_exact g teq.
  (** With a new start variable, an end token and an unused token. *)
  Definition front_right (z : V) (e o : K) : bool :=
    lexb bs es && cleanb g && negb (textb g teq) && new_variable g z && new_terminal teq g e && new_terminal teq g o && negb (teq o e).
End Both.
