(** Vocabulary of the lexer properties. *)
From Verif Require Import Base RegexModel SpecRegex NfaModel SpecNfa LexerModel.

(** The results of the calls before the first [None]. *)
Fixpoint before_none {A} (os : list (option A)) : list A :=
  match os with
  | Some x :: r => x :: before_none r
  | _ => []
  end.

(** The tokens among the results. *)
Fixpoint somes {A} (os : list (option A)) : list A :=
  match os with
  | [] => []
  | Some x :: r => x :: somes r
  | None :: r => somes r
  end.

(** Number of characters in the tokens. *)
Definition consumed {K} (ts : list (ltoken K)) : nat := list_sum (map (fun t => length (lt_source t)) ts).

Section Spec.
  Context {env : Env}.

  (** [es] are the regexes of the patterns. *)
  Definition parsed {B} (ts : list (list char * B)) (es : list expr) : Prop :=
    Forall2 (fun t e => regex_parse (fst t) = Val (ParseOk e)) ts es.

  (** The first regex of the list whose language [L] contains [x] is number [i]. *)
  Definition first_match (L : expr -> list char -> Prop) (es : list expr) (x : list char) (i : nat) : Prop :=
    (exists e, nth_error es i = Some e /\ L e x) /\
    forall j e, j < i -> nth_error es j = Some e -> ~ L e x.

  Definition matched (L : expr -> list char -> Prop) (es : list expr) (x : list char) : Prop :=
    exists e, In e es /\ L e x.

  (** The languages the lexer properties are stated for: the implemented one, and
      the regular one where the two agree. *)
  Definition agreed (L : expr -> list char -> Prop) (es : list expr) : Prop :=
    L = impl_lang \/ (L = lang /\ forall e, In e es -> lead_ok e = true).

  (** All of [x] can be read along one of the regexes (see C57 for the
      simulator). *)
  Definition feedable (es : list expr) (x : list char) : Prop := x = [] \/ exists e, In e es /\ impl_begun e x.

  (** After a match [u], the text read in the hope of a longer match can always
      be read again from the beginning. *)
  Definition resumable (es : list expr) : Prop :=
    forall u s, u <> [] -> matched impl_lang es u ->
      (forall s' r, s = s' ++ r -> s' <> [] -> ~ matched impl_lang es (u ++ s')) ->
      feedable es (u ++ s) -> feedable es s.

  (** Once a text is matched, it stays matched as long as it can be fed. *)
  Definition steady (es : list expr) : Prop :=
    forall u c, u <> [] -> matched impl_lang es u -> feedable es (u ++ [c]) -> matched impl_lang es (u ++ [c]).

  (** The tokens tile the input from position [p] on. *)
  Inductive tiles {K} (input : list char) : nat -> list (ltoken K) -> Prop :=
  | tiles_nil p : tiles input p []
  | tiles_cons p t ts :
      lt_pos t = (p, p + length (lt_source t)) ->
      lt_source t <> [] ->
      lt_source t = firstn (length (lt_source t)) (skipn p input) ->
      tiles input (p + length (lt_source t)) ts ->
      tiles input p (t :: ts).
End Spec.
