(** Descriptions of what the automata do, independent of the automata: which
    regexes are matched correctly, and the language matched in general. *)
From Verif Require Import Base RegexModel SpecRegex NfaModel.

(** The regex can be passed without reading a character, without going around
    a repeated group. *)
Fixpoint skippable (e : expr) : Prop :=
  match e with
  | EConcat es => (fix go (es : list expr) : Prop :=
                     match es with [] => True | e :: es' => skippable e /\ go es' end) es
  | EEmpty => True
  | EAlt l r => skippable l \/ skippable r
  | ELit _ None => False
  | ELit _ (Some q) => allowed q 0
  | EGroup e None => skippable e
  | EGroup _ (Some q) => allowed q 0
  end.

Section Langs.
  Context {env : Env}.

  (** Texts matched by a regex whose first part is an unquantified literal. *)
  Fixpoint lit_first (e : expr) : list char -> Prop :=
    match e with
    | EConcat es => (fix go (es : list expr) : list char -> Prop :=
                       match es with
                       | [] => fun _ => False
                       | e :: es' => lang_cat (lit_first e) (lang (EConcat es'))
                       end) es
    | EEmpty => fun _ => False
    | EAlt l r => fun w => lit_first l w \/ lit_first r w
    | ELit l None => fun w => exists c, w = [c] /\ lit_set l c
    | ELit _ (Some _) => fun _ => False
    | EGroup e None => lit_first e
    | EGroup _ (Some _) => fun _ => False
    end.

  (** Texts matched through a repetition at the front when the simulator
      starts inside it: the repetition counter misses the first round of a
      group unless that round begins with an unquantified literal. *)
  Fixpoint rep_first (e : expr) : list char -> Prop :=
    match e with
    | EConcat es => (fix go (es : list expr) : list char -> Prop :=
                       match es with
                       | [] => fun _ => False
                       | e :: es' => fun w =>
                           lang_cat (rep_first e) (lang (EConcat es')) w \/
                           (skippable e /\ (lit_first (EConcat es') w \/ go es' w))
                       end) es
    | EEmpty => fun _ => False
    | EAlt l r => fun w => rep_first l w \/ rep_first r w
    | ELit _ None => fun _ => False
    | ELit l (Some q) => fun w =>
        exists n, allowed q (S n) /\ lang_pow (fun w => exists c, w = [c] /\ lit_set l c) (S n) w
    | EGroup e None => rep_first e
    | EGroup e (Some q) => fun w =>
        (exists n, allowed q (S n) /\ lang_cat (lit_first e) (lang_pow (lang e) n) w) \/
        (exists n, allowed q n /\ lang_cat (rep_first e) (lang_pow (lang e) n) w)
    end.

  (** The language the automaton of a regex really accepts. *)
  Definition impl_lang (e : expr) (w : list char) : Prop :=
    (skippable e /\ w = []) \/ lit_first e w \/ rep_first e w.

  (** Texts that can be read along a regex, to its end or not.  A repetition is
      checked when it is left, so inside it any number of rounds can be read. *)
  Fixpoint begun (e : expr) : list char -> Prop :=
    match e with
    | EConcat es => (fix go (es : list expr) : list char -> Prop :=
                       match es with
                       | [] => fun w => w = []
                       | e :: es' => fun w => begun e w \/ lang_cat (lang e) (go es') w
                       end) es
    | EEmpty => fun w => w = []
    | EAlt l r => fun w => begun l w \/ begun r w
    | ELit l None => fun w => w = [] \/ exists c, w = [c] /\ lit_set l c
    | ELit l (Some _) => fun w => exists n, lang_pow (fun w => exists c, w = [c] /\ lit_set l c) n w
    | EGroup e None => begun e
    | EGroup e (Some _) => fun w => exists n, lang_cat (lang_pow (lang e) n) (begun e) w
    end.

  (** The same for the implemented language. *)
  Fixpoint impl_begun (e : expr) : list char -> Prop :=
    match e with
    | EConcat es => (fix go (es : list expr) : list char -> Prop :=
                       match es with
                       | [] => fun w => w = []
                       | e :: es' => fun w =>
                           impl_begun e w \/
                           lang_cat (fun u => lit_first e u \/ rep_first e u) (begun (EConcat es')) w \/
                           (skippable e /\ go es' w)
                       end) es
    | EEmpty => fun w => w = []
    | EAlt l r => fun w => impl_begun l w \/ impl_begun r w
    | ELit l q => begun (ELit l q)
    | EGroup e None => impl_begun e
    | EGroup e (Some q) => fun w =>
        impl_begun e w \/ lang_cat (fun u => lit_first e u \/ rep_first e u) (begun (EGroup e (Some q))) w
    end.

  (** Every literal fits some character, and no repetition has an upper bound. *)
  Definition unbounded (q : quant) : Prop :=
    match q with QAsterisk | QPlus | QMin _ => True | _ => False end.
  Fixpoint endless (e : expr) : Prop :=
    match e with
    | EConcat es => (fix go (es : list expr) : Prop :=
                       match es with [] => True | e :: es' => endless e /\ go es' end) es
    | EEmpty => True
    | EAlt l r => endless l /\ endless r
    | ELit l q => (exists c, lit_set l c) /\ match q with None => True | Some q => unbounded q end
    | EGroup e q => endless e /\ match q with None => True | Some q => unbounded q end
    end.
End Langs.

(** No round of the regex begins with a repetition or with nothing. *)
Fixpoint lit_start (e : expr) : bool :=
  match e with
  | EConcat es => match es with [] => false | e :: _ => lit_start e end
  | EEmpty => false
  | EAlt l r => lit_start l && lit_start r
  | ELit _ None => true
  | ELit _ (Some _) => false
  | EGroup e None => lit_start e
  | EGroup _ (Some _) => false
  end.

(** Any number of rounds is allowed. *)
Definition any_count (q : quant) : bool :=
  match q with
  | QAsterisk => true
  | QMin m => (m =? 0)%N
  | _ => false
  end.

Fixpoint may_skip (e : expr) : bool :=
  match e with
  | EConcat es => (fix go (es : list expr) : bool :=
                     match es with [] => true | e :: es' => may_skip e && go es' end) es
  | EEmpty => true
  | EAlt l r => may_skip l || may_skip r
  | ELit _ None => false
  | ELit _ (Some q) => is_satisfied q 0
  | EGroup e None => may_skip e
  | EGroup _ (Some q) => is_satisfied q 0
  end.

(** Every repeated group that can begin a match allows any number of rounds,
    or all its rounds begin with an unquantified literal. *)
Fixpoint lead_ok (e : expr) : bool :=
  match e with
  | EConcat es => (fix go (es : list expr) : bool :=
                     match es with
                     | [] => true
                     | e :: es' => lead_ok e && (negb (may_skip e) || go es')
                     end) es
  | EEmpty => true
  | EAlt l r => lead_ok l && lead_ok r
  | ELit _ _ => true
  | EGroup e None => lead_ok e
  | EGroup e (Some q) => lead_ok e && (lit_start e || any_count q)
  end.

(** Some number of rounds is allowed. *)
Definition some_count (q : quant) : bool :=
  match q with QRange a b => (a <=? b)%N | _ => true end.

(** The regex matches the empty text. *)
Fixpoint nullable (e : expr) : bool :=
  match e with
  | EConcat es => (fix go (es : list expr) : bool :=
                     match es with [] => true | e :: es' => nullable e && go es' end) es
  | EEmpty => true
  | EAlt l r => nullable l || nullable r
  | ELit _ None => false
  | ELit _ (Some q) => is_satisfied q 0
  | EGroup e None => nullable e
  | EGroup e (Some q) => is_satisfied q 0 || (nullable e && some_count q)
  end.

(** No repeated group matches the empty text in one round. *)
Fixpoint loops_ok (e : expr) : bool :=
  match e with
  | EConcat es => (fix go (es : list expr) : bool :=
                     match es with [] => true | e :: es' => loops_ok e && go es' end) es
  | EEmpty => true
  | EAlt l r => loops_ok l && loops_ok r
  | ELit _ _ => true
  | EGroup e None => loops_ok e
  | EGroup e (Some _) => loops_ok e && negb (nullable e)
  end.

(** Automata obtained with the operations of the builder. *)
Inductive built : nfa -> Prop :=
| built_new fin : built (builder_new fin)
| built_state b fin : built b -> built (fst (add_state b fin))
| built_edge b s t i b' : built b -> add_transition b s t i = Val b' -> built b'.

(** The parts of a well formed automaton. *)
Definition closed_nfa (m : nfa) : Prop :=
  (exists st, In st (nfa_states m) /\ st_id st = nfa_start m) /\
  forall st i ts t, In st (nfa_states m) -> In (i, ts) (st_trans st) -> In t ts ->
    exists st', In st' (nfa_states m) /\ st_id st' = t.
Definition start_not_entered (m : nfa) : Prop :=
  forall st i ts, In st (nfa_states m) -> In (i, ts) (st_trans st) -> ~ In (nfa_start m) ts.
Definition finals_dead (m : nfa) : Prop :=
  forall st, In st (nfa_states m) -> st_fin st = true -> st_trans st = [].
