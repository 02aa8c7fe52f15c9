(** Laws for rewriting regexes. *)
From Verif Require Import Base RegexModel SpecRegex.

Section Laws.
  Context {env : Env}.

  (** The same regex, up to laws that may be used anywhere inside it. *)
  Inductive same : expr -> expr -> Prop :=
  | same_refl e : same e e
  | same_sym e e' : same e e' -> same e' e
  | same_trans e e' e'' : same e e' -> same e' e'' -> same e e''
  (** inside a regex *)
  | same_cons e e' es es' : same e e' -> same (EConcat es) (EConcat es') -> same (EConcat (e :: es)) (EConcat (e' :: es'))
  | same_both l l' r r' : same l l' -> same r r' -> same (EAlt l r) (EAlt l' r')
  | same_in e e' q : same e e' -> same (EGroup e q) (EGroup e' q)
  (** characters and counts *)
  | same_set l l' q : (forall c, lit_set l c <-> lit_set l' c) -> same (ELit l q) (ELit l' q)
  | same_count_lit l q q' : (forall n, allowed q n <-> allowed q' n) -> same (ELit l (Some q)) (ELit l (Some q'))
  | same_count e q q' : (forall n, allowed q n <-> allowed q' n) -> same (EGroup e (Some q)) (EGroup e (Some q'))
  | same_letter l q : same (ELit l (Some q)) (EGroup (ELit l None) (Some q))
  (** sequences *)
  | same_paren e : same (EGroup e None) e
  | same_one e : same (EConcat [e]) e
  | same_flat es es' : es <> [] -> same (EConcat (EConcat es :: es')) (EConcat (es ++ es'))
  (** alternatives *)
  | same_comm l r : same (EAlt l r) (EAlt r l)
  | same_assoc a b c : same (EAlt a (EAlt b c)) (EAlt (EAlt a b) c)
  | same_twice e : same (EAlt e e) e
  | same_left l r es : same (EConcat (EAlt l r :: es)) (EAlt (EConcat (l :: es)) (EConcat (r :: es)))
  | same_right e l r : same (EConcat [e; EAlt l r]) (EAlt (EConcat [e; l]) (EConcat [e; r])).

  (** Laws for whole patterns: [l+] and [l l*]. *)
  Inductive same_pattern : expr -> expr -> Prop :=
  | same_whole e e' : same e e' -> same_pattern e e'
  | same_plus l : same_pattern (ELit l (Some QPlus)) (EConcat [ELit l None; ELit l (Some QAsterisk)])
  | same_plus_trans e e' e'' : same_pattern e e' -> same_pattern e' e'' -> same_pattern e e''
  | same_plus_sym e e' : same_pattern e e' -> same_pattern e' e.
End Laws.
