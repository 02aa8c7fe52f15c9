(** Regexes in which every character can be read in at most one way once
    something has been read. *)
From Verif Require Import Base RegexModel SpecRegex.

(** The literals that can read the first character of a text for [e] followed by
    what [k] can begin, one entry for each way to get there. *)
Fixpoint openers (e : expr) (k : list lit) : list lit :=
  match e with
  | EConcat es => (fix go (es : list expr) : list lit :=
                     match es with [] => k | e :: es' => openers e (go es') end) es
  | EEmpty => k
  | EAlt l r => openers l k ++ openers r k
  | ELit l None => [l]
  | ELit l (Some q) => l :: (if is_satisfied q 0 then k else [])
  | EGroup e None => openers e k
  | EGroup e (Some q) => openers e [] ++ (if is_satisfied q 0 then k else [])
  end.

Section Once.
  Context {env : Env}.

  (** No character is in two of the literals. *)
  Definition apart (ls : list lit) : Prop :=
    ForallOrdPairs (fun a b => forall c, ~ (lit_set a c /\ lit_set b c)) ls.

  (** After every literal of [e] the ones that can read the next character are
      apart; [k] are the ones that can follow [e]. *)
  Fixpoint settled (e : expr) (k : list lit) : Prop :=
    match e with
    | EConcat es => (fix go (es : list expr) : Prop :=
                       match es with [] => True | e :: es' => settled e (openers (EConcat es') k) /\ go es' end) es
    | EEmpty => True
    | EAlt l r => settled l k /\ settled r k
    | ELit l None => apart k
    | ELit l (Some _) => apart (l :: k)
    | EGroup e None => settled e k
    | EGroup e (Some _) => settled e (openers e [] ++ k)
    end.
End Once.
