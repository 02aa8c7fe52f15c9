(** A function that finds a shortest text for which the lexer returns a token after it has returned none. *)
From Verif Require Import Base RegexModel SpecRegex NfaModel SpecNfa SpecKleene KleeneProofs LexerModel SpecQuery SpecFind.

Section Late.
  Context {env : Env} (bs : list N).
  (** A text whose last character cannot be read any more and that does not begin with a token. *)
  Definition stop_text (es : list expr) : option (list char) :=
    find_text bs [Times (r_feedable es) r_char; r_feedable es; Times (r_some (r_matched es)) (Times r_char (Star r_char))]
      (fun l => match l with [a; b; c] => a && negb b && negb c | _ => false end).
  (** A text that is a token. *)
  Definition token_text (es : list expr) : option (list char) := find_text bs [r_some (r_matched es); One] (fun l => match l with [a; b] => a | _ => false end).
  Definition late_text (es : list expr) : option (list char) :=
    match stop_text es, token_text es with
    | Some v, Some u => Some (v ++ u)
    | _, _ => None
    end.
End Late.
