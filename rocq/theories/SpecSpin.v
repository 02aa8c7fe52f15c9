(** Texts on which matching never ends, described on the regex alone. *)
From Verif Require Import Base RegexModel SpecRegex NfaModel SpecNfa.

Section Spins.
  Context {env : Env}.

  (** Reading the text along the regex arrives at a repeated group with a round
      that matches the empty text: after it the group can go around for ever. *)
  Fixpoint spins (e : expr) : list char -> Prop :=
    match e with
    | EConcat es => (fix go (es : list expr) : list char -> Prop :=
                       match es with
                       | [] => fun _ => False
                       | e :: es' => fun w => spins e w \/ lang_cat (lang e) (go es') w
                       end) es
    | EEmpty => fun _ => False
    | EAlt l r => fun w => spins l w \/ spins r w
    | ELit _ _ => fun _ => False
    | EGroup e None => spins e
    | EGroup e (Some _) => fun w =>
        exists n, lang_cat (lang_pow (lang e) n) (fun v => (v = [] /\ lang e []) \/ spins e v) w
    end.

  (** The same when the simulator starts inside the regex.  The set of states
      where it starts is computed without counters, so at least one character
      has to be read. *)
  Fixpoint impl_spins (e : expr) : list char -> Prop :=
    match e with
    | EConcat es => (fix go (es : list expr) : list char -> Prop :=
                       match es with
                       | [] => fun _ => False
                       | e :: es' => fun w =>
                           impl_spins e w \/
                           lang_cat (fun u => lit_first e u \/ rep_first e u) (spins (EConcat es')) w \/
                           (skippable e /\ go es' w)
                       end) es
    | EEmpty => fun _ => False
    | EAlt l r => fun w => impl_spins l w \/ impl_spins r w
    | ELit _ _ => fun _ => False
    | EGroup e None => impl_spins e
    | EGroup e (Some q) => fun w =>
        impl_spins e w \/ lang_cat (fun u => lit_first e u \/ rep_first e u) (spins (EGroup e (Some q))) w
    end.

  (** Some part of the text, from its beginning, makes the regex spin. *)
  Definition spinning (e : expr) (w : list char) : Prop := exists u v, w = u ++ v /\ impl_spins e u.
End Spins.
