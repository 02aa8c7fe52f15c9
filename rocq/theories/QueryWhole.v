(** The questions and what the program does. *)
From Verif Require Import Base RegexModel SpecRegex NfaModel SpecNfa SpecSpin NfaProofs KleeneProofs LexerModel SpecLexer SpecMunch SpecLists SpecExact SpecPanic SpecHang HangProofs
  TurnProofs SpecQuery QueryProofs QueryLexer PropsExact PropsLists PropsTurns PropsHang.

Section Matching.
  Context {env : Env} (bs : list N) (Hbs : changes bs is_alphabetic).

  Lemma query_hangs e m : nfa_from e = Val m -> hangs (fitting bs) e = true <-> exists w, forall (ho : HashOrder) fuel, simulate fuel m w = Diverge.
  Proof. intros Hf. exact (C117_matching (fitting bs) e m Hf (fitting_told bs Hbs e)). Qed.

  Lemma safe_answer e m w : nfa_from e = Val m -> hangs (fitting bs) e = false -> exists b, (b = true <-> impl_lang e w) /\
    forall (ho : HashOrder) fuel, patience m <= fuel -> simulate fuel m w = Val b.
  Proof.
    intros Hf Hh. pose proof (C117_matching_safe (fitting bs) e m Hf (fitting_told bs Hbs e) Hh w) as Hs.
    destruct (Hs id_order (patience m) (Nat.le_refl _)) as (b & Hb). exists b. pose proof (simulate_impl id_order e m _ w b Hf Hb) as Hi. split; [exact Hi|].
    intros ho fuel Hl. destruct (Hs ho fuel Hl) as (b' & Hb'). rewrite Hb'. f_equal. apply Bool.eq_iff_eq_true. rewrite (simulate_impl ho e m fuel w b' Hf Hb'). symmetry. exact Hi.
  Qed.

  Lemma query_same e m e' m' : nfa_from e = Val m -> nfa_from e' = Val m' -> hangs (fitting bs) e = false -> hangs (fitting bs) e' = false ->
    same_matches bs e e' = true <->
    forall w (ho ho' : HashOrder) fuel fuel', patience m <= fuel -> patience m' <= fuel' -> @simulate env ho fuel m w = @simulate env ho' fuel' m' w.
  Proof.
    intros Hf Hf' Hh Hh'. rewrite (same_matches_ok bs Hbs). split.
    - intros H w ho ho' fuel fuel' Hl Hl'. destruct (safe_answer e m w Hf Hh) as (b & Hb & Hs). destruct (safe_answer e' m' w Hf' Hh') as (b' & Hb' & Hs').
      rewrite (Hs ho fuel Hl), (Hs' ho' fuel' Hl'). f_equal. apply Bool.eq_iff_eq_true. rewrite Hb, Hb'. apply H.
    - intros H w. destruct (safe_answer e m w Hf Hh) as (b & Hb & Hs). destruct (safe_answer e' m' w Hf' Hh') as (b' & Hb' & Hs').
      specialize (H w id_order id_order _ _ (Nat.le_refl _) (Nat.le_refl _)). rewrite (Hs id_order _ (Nat.le_refl _)), (Hs' id_order _ (Nat.le_refl _)) in H.
      injection H as ->. rewrite <- Hb, <- Hb'. reflexivity.
  Qed.
  Lemma query_same_any e m e' m' (ho ho' : HashOrder) fuel fuel' w b b' : nfa_from e = Val m -> nfa_from e' = Val m' -> same_matches bs e e' = true ->
    @simulate env ho fuel m w = Val b -> @simulate env ho' fuel' m' w = Val b' -> b = b'.
  Proof.
    intros Hf Hf' Hs H H'. apply Bool.eq_iff_eq_true. rewrite (simulate_impl ho e m fuel w b Hf H), (simulate_impl ho' e' m' fuel' w b' Hf' H').
    apply (proj1 (same_matches_ok bs Hbs e e') Hs).
  Qed.

  Lemma query_written e m : nfa_from e = Val m -> hangs (fitting bs) e = false ->
    as_written bs e = true <->
    forall w (ho : HashOrder) fuel, patience m <= fuel -> exists b, simulate fuel m w = Val b /\ (b = true <-> lang e w).
  Proof.
    intros Hf Hh. rewrite (as_written_ok bs Hbs). split.
    - intros H w ho fuel Hl. destruct (safe_answer e m w Hf Hh) as (b & Hb & Hs). exists b. split; [apply Hs; exact Hl|]. rewrite Hb. apply H.
    - intros H w. destruct (safe_answer e m w Hf Hh) as (b & Hb & Hs). destruct (H w id_order _ (Nat.le_refl _)) as (b' & Hb' & Hl).
      rewrite (Hs id_order _ (Nat.le_refl _)) in Hb'. injection Hb' as <-. rewrite <- Hb. exact Hl.
  Qed.

  Context (K : Type) (ts : list (list char * generator K)) (es : list expr) (Hp : parsed ts es).

  Lemma query_lexing input lx : build_lexer ts input = Val (inl lx) ->
    (existsb (hangs (fitting bs)) es = true <->
     exists input' lx' n, build_lexer ts input' = Val (inl lx') /\ forall (ho : HashOrder) fuel, lex_calls fuel n lx' = Diverge).
  Proof. intros Hb. exact (C117_lexing (fitting bs) K ts es input lx Hb Hp (fun e _ => fitting_told bs Hbs e)). Qed.

  Lemma query_munch : (forall e, In e es -> ~ gapped e) -> (forall e, In e es -> loops_ok e = true) ->
    munching bs es = true <->
    forall input lx, build_lexer ts input = Val (inl lx) ->
      exists tks, munches impl_lang es (map snd ts) input 0 tks /\
        exists N lx', forall (ho : HashOrder) fuel, N <= fuel -> lex_calls fuel (S (length tks)) lx = Val (map Some tks ++ [None], lx').
  Proof. intros Hg Hl. rewrite (munching_ok bs Hbs). exact (C98_munch K ts es impl_lang Hp (or_introl eq_refl) Hg Hl). Qed.
  Lemma query_end : (forall e, In e es -> ~ gapped e) -> (forall e, In e es -> loops_ok e = true) ->
    ending bs es = true <->
    forall input lx (ho : HashOrder) fuel n tks rest lx', build_lexer ts input = Val (inl lx) ->
      lex_calls fuel n lx = Val (map Some tks ++ None :: rest, lx') -> Forall (fun o => o = None) rest.
  Proof. intros Hg Hl. rewrite (ending_ok bs Hbs). exact (C98_end K ts es impl_lang Hp (or_introl eq_refl) Hg Hl). Qed.
End Matching.
