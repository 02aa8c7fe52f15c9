(** Ordinary lists of patterns: a condition on the regexes that can be read off
    them, under which the lexer works by maximal munch. *)
From Verif Require Import Base RegexModel SpecRegex NfaModel SpecNfa LexerModel SpecLexer.

(** Any number of rounds but zero is allowed. *)
Definition from_one (q : quant) : bool :=
  match q with
  | QAsterisk | QPlus => true
  | QMin m => (m <=? 1)%N
  | _ => false
  end.

(** Whatever has been read of the regex is a match: single literals, repetitions
    without bounds, and sequences in which all but the first part can be left out. *)
Fixpoint eager (e : expr) : bool :=
  match e with
  | EConcat es => match es with
                  | [] => true
                  | e :: es' => eager e && (fix go (l : list expr) : bool :=
                                              match l with [] => true | x :: l' => eager x && nullable x && go l' end) es'
                  end
  | EEmpty => true
  | EAlt l r => eager l && eager r
  | ELit _ q => match q with None => true | Some q => from_one q end
  | EGroup e q => eager e && match q with None => true | Some q => from_one q end
  end.

(** A word, such as a keyword or an operator. *)
Definition word (w : list char) : expr := EConcat (map (fun c => ELit (LMatch c) None) w).

(** Everything between [d] and the next [d']. *)
Definition quoted (d d' : char) : expr :=
  EConcat [ELit (LMatch d) None; ELit (LGroup true [GMatch d']) (Some QAsterisk); ELit (LMatch d') None].

Section Plain.
  Context {env : Env}.

  (** A regex of the list [es]: an eager one; a word all of whose proper first parts are tokens too; or
      a quoted text, if no other pattern can begin with the quote. *)
  Inductive plain_in (es : list expr) : expr -> Prop :=
  | plain_eager e : eager e = true -> plain_in es e
  | plain_word w : (forall u v, w = u ++ v -> u <> [] -> v <> [] -> matched lang es u) -> plain_in es (word w)
  | plain_quoted d d' : (forall e, In e es -> e = quoted d d' \/ ~ begun e [d]) -> plain_in es (quoted d d').

  Definition plain (es : list expr) : Prop :=
    forall e, In e es -> lead_ok e = true /\ loops_ok e = true /\ plain_in es e.
End Plain.
