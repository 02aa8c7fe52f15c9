(** Questions about regular expressions that have an answer by computation: the
    texts are run through all of them at once, one character for every set of
    characters that no literal tells apart. *)
From Verif Require Import Base RegexModel SpecRegex NfaModel SpecNfa GrammarModel SpecKleene KleeneProofs.

(** ** Where sets of characters change *)

(** The set is the same at [x + 1] as at [x], except at the given places. *)
Definition changes (bs : list N) (P : char -> bool) : Prop := forall x, ~ In (x + 1)%N bs -> P (x + 1)%N = P x.

Section Cuts.
  (** Where being alphabetic changes. *)
  Context (bs : list N).

  Definition space_cuts : list N := [9; 14; 32; 33; 0x85; 0x86; 0xA0; 0xA1; 0x1680; 0x1681; 0x2000; 0x200B; 0x2028; 0x202A; 0x202F; 0x2030; 0x205F; 0x2060; 0x3000; 0x3001]%N.
  Definition class_cuts (k : class_kind) : list N :=
    match k with
    | CWildcard => []
    | CWord | CNonWord => bs
    | CDigit | CNonDigit => [48; 58]%N
    | CWhitespace | CNonWhitespace => space_cuts
    end.
  Definition glit_cuts (g : glit) : list N :=
    match g with
    | GMatch c => [c; c + 1]%N
    | GClass k => class_cuts k
    | GRange a b => [a; b + 1]%N
    end.
  Definition lit_cuts (l : lit) : list N :=
    match l with
    | LMatch c => [c; c + 1]%N
    | LClass k => class_cuts k
    | LGroup _ gs => flat_map glit_cuts gs
    end.
  Fixpoint rx_cuts (r : rx) : list N :=
    match r with
    | Zero | One => []
    | Sym l => lit_cuts l
    | Plus r s | Times r s => rx_cuts r ++ rx_cuts s
    | Star r => rx_cuts r
    end.

  (** Every character is like one of these for the literals of the regexes. *)
  Definition some_chars (rs : list rx) : list char := nodup N.eq_dec (0%N :: flat_map rx_cuts rs).
End Cuts.

(** ** What is left after one character *)
Definition rx_dec : forall r s : rx, {r = s} + {r <> s}.
Proof. repeat decide equality. Defined.
#[global] Instance rx_deceq : DecEq rx.
Proof. refine {| eqb := fun r s => if rx_dec r s then true else false |}. intros r s. destruct (rx_dec r s); split; congruence. Defined.

Fixpoint heads (r : rx) : list (lit * rx) :=
  match r with
  | Zero | One => []
  | Sym l => [(l, One)]
  | Plus r s => heads r ++ heads s
  | Times r s => map (fun x => (fst x, Times (snd x) s)) (heads r) ++ (if has_one r then heads s else [])
  | Star r => map (fun x => (fst x, Times (snd x) (Star r))) (heads r)
  end.
(** All that can ever be left. *)
Fixpoint tails (r : rx) : list rx :=
  match r with
  | Zero | One => []
  | Sym l => [One]
  | Plus r s => tails r ++ tails s
  | Times r s => map (fun x => Times x s) (tails r) ++ tails s
  | Star r => map (fun x => Times x (Star r)) (tails r)
  end.

Section Search.
  Context {env : Env}.

  (** A point of the search: for each of the regexes, what may be left of it. *)
  Definition point : Type := list (nat * rx).
  Definition universe (rs : list rx) : point :=
    nodup (fun x y : nat * rx => ltac:(decide equality; [apply rx_dec|apply Nat.eq_dec]))
      (flat_map (fun x => map (pair (fst x)) (snd x :: tails (snd x))) (combine (seq 0 (length rs)) rs)).
  Definition origin (rs : list rx) : point := combine (seq 0 (length rs)) rs.

  Definition reached (p : point) (c : char) (x : nat * rx) : bool :=
    existsb (fun y => (fst y =? fst x) && existsb (fun h => lit_contains (fst h) c && eqb (snd h) (snd x)) (heads (snd y))) p.
  Definition move (u p : point) (c : char) : point := filter (reached p c) u.
  Definition done_at (p : point) (i : nat) : bool := existsb (fun x => (fst x =? i) && has_one (snd x)) p.

  (** One more character after every known point. *)
  Definition widen (u : point) (cs : list char) (l : list point) : list point :=
    fold_left (fun acc p => if memb p acc then acc else acc ++ [p]) (flat_map (fun p => map (move u p) cs) l) l.
  (** Until there is nothing new, or 2^k times. *)
  Fixpoint widen_all (k : nat) (u : point) (cs : list char) (l : list point) : list point :=
    match k with
    | 0 => widen u cs l
    | S k' => let l' := widen_all k' u cs l in if length l' =? length l then l' else widen_all k' u cs l'
    end.

  (** Is there a text for which the answers of the regexes satisfy [phi]? *)
  Definition exists_text (bs : list N) (rs : list rx) (phi : list bool -> bool) : bool :=
    let u := universe rs in
    existsb (fun p => phi (map (done_at p) (seq 0 (length rs)))) (widen_all (S (length u)) u (some_chars bs rs) [origin rs]).
End Search.

(** ** Questions about patterns *)

(** The texts that can be read along a regex. *)
Fixpoint r_begun (e : expr) : rx :=
  match e with
  | EConcat es => (fix go (es : list expr) : rx := match es with [] => One | e :: es' => Plus (r_begun e) (Times (r_lang e) (go es')) end) es
  | EEmpty => One
  | EAlt l r => Plus (r_begun l) (r_begun r)
  | ELit l None => Plus One (Sym l)
  | ELit l (Some _) => Star (Sym l)
  | EGroup e None => r_begun e
  | EGroup e (Some _) => Times (Star (r_lang e)) (r_begun e)
  end.
Fixpoint r_impl_begun (e : expr) : rx :=
  match e with
  | EConcat es => (fix go (es : list expr) : rx :=
                     match es with
                     | [] => One
                     | e :: es' =>
                         Plus (r_impl_begun e) (Plus (Times (Plus (r_lit e) (r_rep e)) (r_begun (EConcat es'))) (if may_skip e then go es' else Zero))
                     end) es
  | EEmpty => One
  | EAlt l r => Plus (r_impl_begun l) (r_impl_begun r)
  | ELit l q => r_begun (ELit l q)
  | EGroup e None => r_impl_begun e
  | EGroup e (Some q) => Plus (r_impl_begun e) (Times (Plus (r_lit e) (r_rep e)) (r_begun (EGroup e (Some q))))
  end.

(** The texts that are not empty. *)
Fixpoint r_some (r : rx) : rx :=
  match r with
  | Zero | One => Zero
  | Sym l => Sym l
  | Plus r s => Plus (r_some r) (r_some s)
  | Times r s => Plus (Times (r_some r) s) (if has_one r then r_some s else Zero)
  | Star r => Times (r_some r) (Star r)
  end.
Definition r_char : rx := Sym (LClass CWildcard).
Definition r_any (rs : list rx) : rx := fold_right Plus Zero rs.
Definition r_matched (es : list expr) : rx := r_any (map r_impl es).
Definition r_feedable (es : list expr) : rx := Plus One (r_any (map r_impl_begun es)).

Section Questions.
  Context {env : Env} (bs : list N).

  Definition differ : list bool -> bool := fun l => match l with [a; b] => xorb a b | _ => false end.
  Definition both : list bool -> bool := fun l => match l with [a; b] => a && b | _ => false end.
  Definition one_only : list bool -> bool := fun l => match l with [a; b] => a && negb b | _ => false end.

  (** A literal fits some character. *)
  Definition fitting (l : lit) : bool := exists_text bs [Sym l] (fun x => match x with [a] => a | _ => false end).
  (** Two patterns match the same texts. *)
  Definition same_matches (e e' : expr) : bool := negb (exists_text bs [r_impl e; r_impl e'] differ).
  (** A pattern is matched as it is written. *)
  Definition as_written (e : expr) : bool := negb (exists_text bs [r_impl e; r_lang e] differ).
  (** Two patterns match a common text that is not empty. *)
  Definition overlapping (e e' : expr) : bool := exists_text bs [r_some (r_impl e); r_impl e'] both.
  (** A pattern never gives a token, because earlier ones match all it matches. *)
  Definition hidden (before : list expr) (e : expr) : bool := negb (exists_text bs [r_some (r_impl e); r_matched before] one_only).
  (** What is matched stays matched as long as it can be fed. *)
  Definition munching (es : list expr) : bool :=
    negb (exists_text bs [Times (r_some (r_matched es)) r_char; r_feedable es; r_matched es]
      (fun l => match l with [a; b; c] => a && b && negb c | _ => false end)).
  (** A call can stop in vain before the end of a text. *)
  Definition stuck (es : list expr) : bool :=
    exists_text bs [Times (r_feedable es) r_char; r_feedable es; Times (r_some (r_matched es)) (Times r_char (Star r_char))]
      (fun l => match l with [a; b; c] => a && negb b && negb c | _ => false end).
  (** Some text can become a token. *)
  Definition giving (es : list expr) : bool := exists_text bs [r_some (r_matched es)] (fun l => match l with [a] => a | _ => false end).
  Definition ending (es : list expr) : bool := negb (stuck es && giving es).
End Questions.
