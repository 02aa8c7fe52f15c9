(** Functions that find a shortest text for which the answers of regular
    expressions are as asked, or tell that there is none. *)
From Verif Require Import Base RegexModel SpecRegex NfaModel SpecNfa GrammarModel SpecKleene KleeneProofs LexerModel SpecQuery.

(** A point of the search with a text that leads to it. *)
Notation trail := (list char * point)%type (only parsing).

Section Find.
  Context {env : Env}.
  Definition onward (u : point) (cs : list char) (t : trail) : list trail := map (fun c => (fst t ++ [c], move u (snd t) c)) cs.
  Definition spread (u : point) (cs : list char) (l : list trail) : list trail :=
    fold_left (fun acc t => if memb (snd t) (map snd acc) then acc else acc ++ [t]) (flat_map (onward u cs) l) l.
  Fixpoint spread_all (k : nat) (u : point) (cs : list char) (l : list trail) : list trail :=
    match k with
    | 0 => spread u cs l
    | S k' => let l' := spread_all k' u cs l in if length l' =? length l then l' else spread_all k' u cs l'
    end.
  Definition find_text (bs : list N) (rs : list rx) (phi : list bool -> bool) : option (list char) :=
    let u := universe rs in
    option_map fst (find (fun t : trail => phi (map (done_at (snd t)) (seq 0 (length rs)))) (spread_all (S (length u)) u (some_chars bs rs) [([], origin rs)])).
End Find.

Section Counterexamples.
  Context {env : Env} (bs : list N).
  (** A text that the automaton of only one of the two patterns matches. *)
  Definition difference (e e' : expr) : option (list char) := find_text bs [r_impl e; r_impl e'] differ.
  (** A text that the automaton matches otherwise than it is written. *)
  Definition mistake (e : expr) : option (list char) := find_text bs [r_impl e; r_lang e] differ.
  (** A text that is not empty and that both match. *)
  Definition common (e e' : expr) : option (list char) := find_text bs [r_some (r_impl e); r_impl e'] both.
  (** A text that becomes a token of the pattern. *)
  Definition token_of (before : list expr) (e : expr) : option (list char) := find_text bs [r_some (r_impl e); r_matched before] one_only.
End Counterexamples.

Section Lexers.
  Context {env : Env} {K : Type} {dk : DecEq K} (bs : list N).
  (** The token of the first pattern that matches, if the answers are [l]. *)
  Fixpoint first_kind (gens : list (generator K)) (l : list bool) : option K :=
    match gens, l with
    | k :: gens', b :: l' => if b then Some (gen_run k []) else first_kind gens' l'
    | _, _ => None
    end.
  (** A text that is not empty and that becomes another token, or none, with the second lexer. *)
  Definition odd_text (es : list expr) (gens : list (generator K)) (es' : list expr) (gens' : list (generator K)) : option (list char) :=
    find_text bs (Times r_char (Star r_char) :: map r_impl es ++ map r_impl es')
      (fun l => match l with
                | b :: l' => b && negb (eqb (first_kind gens (firstn (length es) l')) (first_kind gens' (skipn (length es) l')))
                | [] => false
                end).
End Lexers.

(** A text of which a beginning matches, but that can be read to its end and is not matched there. *)
Definition dropped {env : Env} (bs : list N) (es : list expr) : option (list char) :=
  find_text bs [Times (r_some (r_matched es)) r_char; r_feedable es; r_matched es] (fun l => match l with [a; b; c] => a && b && negb c | _ => false end).
