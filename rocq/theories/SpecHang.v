(** Which regexes make the simulator run for ever on some text, as a function of
    the regex. *)
From Verif Require Import Base RegexModel SpecRegex NfaModel SpecNfa.

Section Hang.
  Context {env : Env}.
  (** Which literals fit some character. *)
  Variable fits : lit -> bool.

  (** [fits] is right about the literals of the regex. *)
  Fixpoint told (e : expr) : Prop :=
    match e with
    | EConcat es => (fix go (es : list expr) : Prop := match es with [] => True | e :: es' => told e /\ go es' end) es
    | EEmpty => True
    | EAlt l r => told l /\ told r
    | ELit l _ => fits l = true <-> exists c, lit_set l c
    | EGroup e _ => told e
    end.

  (** The regex matches some text. *)
  Fixpoint filled (e : expr) : bool :=
    match e with
    | EConcat es => (fix go (es : list expr) : bool := match es with [] => true | e :: es' => filled e && go es' end) es
    | EEmpty => true
    | EAlt l r => filled l || filled r
    | ELit l None => fits l
    | ELit l (Some q) => is_satisfied q 0 || (fits l && some_count q)
    | EGroup e None => filled e
    | EGroup e (Some q) => is_satisfied q 0 || (filled e && some_count q)
    end.

  (** Some number of rounds is allowed, and at least one. *)
  Definition more_count (q : quant) : bool :=
    match q with QMax m => (0 <? m)%N | QRange a b => (a <=? b)%N && (0 <? b)%N | _ => true end.

  (** The simulator can read a text to the end of the regex that begins with an
      unquantified literal, or that begins inside a repetition. *)
  Fixpoint lit_front (e : expr) : bool :=
    match e with
    | EConcat es => match es with [] => false | e :: es' => lit_front e && filled (EConcat es') end
    | EEmpty => false
    | EAlt l r => lit_front l || lit_front r
    | ELit l None => fits l
    | ELit _ (Some _) => false
    | EGroup e None => lit_front e
    | EGroup _ (Some _) => false
    end.
  Fixpoint rep_front (e : expr) : bool :=
    match e with
    | EConcat es => (fix go (es : list expr) : bool :=
                       match es with
                       | [] => false
                       | e :: es' => (rep_front e && filled (EConcat es')) || (may_skip e && (lit_front (EConcat es') || go es'))
                       end) es
    | EEmpty => false
    | EAlt l r => rep_front l || rep_front r
    | ELit _ None => false
    | ELit l (Some q) => fits l && more_count q
    | EGroup e None => rep_front e
    | EGroup e (Some q) => (lit_front e && more_count q) || (rep_front e && filled (EGroup e (Some q)))
    end.
  Definition front (e : expr) : bool := lit_front e || rep_front e.

  (** There is a way to a repeated group whose rounds can be empty. *)
  Fixpoint inside (e : expr) : bool :=
    match e with
    | EConcat es => (fix go (es : list expr) : bool :=
                       match es with [] => false | e :: es' => inside e || (filled e && go es') end) es
    | EEmpty => false
    | EAlt l r => inside l || inside r
    | ELit _ _ => false
    | EGroup e None => inside e
    | EGroup e (Some _) => nullable e || inside e
    end.

  (** There is one from where the simulator starts, on which a character is read. *)
  Fixpoint hangs (e : expr) : bool :=
    match e with
    | EConcat es => (fix go (es : list expr) : bool :=
                       match es with
                       | [] => false
                       | e :: es' => hangs e || (front e && inside (EConcat es')) || (may_skip e && go es')
                       end) es
    | EEmpty => false
    | EAlt l r => hangs l || hangs r
    | ELit _ _ => false
    | EGroup e None => hangs e
    | EGroup e (Some q) => hangs e || (front e && inside (EGroup e (Some q)))
    end.
End Hang.
