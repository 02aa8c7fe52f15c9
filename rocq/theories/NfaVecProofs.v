(** The automaton of several regexes with one final state. *)
From Verif Require Import Base RegexModel SpecRegex NfaModel SpecNfa RegexParseProofs NfaCompileProofs NfaProofs NfaSimProofs
  NfaMachineProofs.

(** The alternation of regexes. *)
Fixpoint alternation (e : expr) (es : list expr) : expr :=
  match es with [] => e | e' :: es' => EAlt e (alternation e' es') end.

Lemma alternation_compiled : forall es e c, wfb (co_nfa c) -> nfa_start (co_nfa c) < nstates (co_nfa c) ->
  add_expressions c (e :: es) = add_expression c (alternation e es).
Proof.
  induction es as [|e' es IH]; intros e c Hw Hs; cbn [add_expressions alternation].
  - unfold add_expression. destruct (compile_expr _ _ _ _); reflexivity.
  - unfold add_expression at 1 3. cbn [compile_expr].
    destruct (has_empty e) eqn:He.
    + rewrite compile_empty by assumption. reflexivity.
    + destruct (compile_spec e (co_nfa c) (nfa_start (co_nfa c)) (co_final c) He Hw Hs) as (b' & E & W & Hn & S & _).
      rewrite E. cbn [bind]. change (let! c1 := add_expression {| co_nfa := b'; co_final := co_final c |} e' in add_expressions c1 es)
        with (add_expressions {| co_nfa := b'; co_final := co_final c |} (e' :: es)).
      rewrite IH; cbn [co_nfa]; [|assumption|lia].
      unfold add_expression. cbn [co_nfa co_final]. rewrite S. reflexivity.
Qed.

Lemma vec_alternation e es : nfa_from_vec (e :: es) = nfa_from (alternation e es).
Proof.
  unfold nfa_from_vec, nfa_from. destruct compiler_new_spec as (b0 & E & Hw & Hn & Hs & _). rewrite E. cbn [bind].
  rewrite alternation_compiled; [reflexivity|assumption|cbn [co_nfa]; lia].
Qed.

Section Vec.
  Context {env : Env}.

  Lemma impl_lang_alt l r w : impl_lang (EAlt l r) w <-> impl_lang l w \/ impl_lang r w.
  Proof. unfold impl_lang. cbn [skippable lit_first rep_first]. tauto. Qed.

  Lemma impl_lang_alternation w : forall es e, impl_lang (alternation e es) w <-> exists e', In e' (e :: es) /\ impl_lang e' w.
  Proof.
    induction es as [|e' es IH]; intros e; cbn [alternation].
    - split; [intros H; exists e; split; [left; reflexivity|assumption]|]. intros (x & [<-|[]] & H). assumption.
    - rewrite impl_lang_alt, IH. split.
      + intros [H|(x & Hi & H)]; [exists e|exists x]; (split; [|assumption]); [left; reflexivity|right; assumption].
      + intros (x & [<-|Hi] & H); [left; assumption|right; eauto].
  Qed.

  (** No regex at all: nothing is accepted. *)
  Lemma vec_none (ho : HashOrder) m fuel w b : nfa_from_vec [] = Val m -> simulate fuel m w = Val b -> b = false.
  Proof.
    intros [= <-]. set (m := {| nfa_start := _ |}). rewrite simulate_text.
    assert (Hn : forall k A, @hash_iter ho k A [] = []).
    { intros k A. apply Permutation_nil. symmetry. apply hash_iter_perm. }
    unfold sim_text, sim_new, static_closure. destruct fuel as [|fuel]; [discriminate|].
    cbn [static_loop m nfa_start get_state nfa_states find state_with_id st_id Nat.eqb of_option bind].
    unfold static_targets, iter_trans. cbn [st_trans state_with_id]. rewrite Hn. cbn [map flat_map static_push].
    destruct fuel as [|fuel]; cbn [static_loop bind map].
    all: destruct w as [|c w]; [intros [= <-]; reflexivity|].
    all: cbn [feed_each]; unfold sim_feed; cbn [feed_runs r_state m get_state nfa_states find state_with_id st_id Nat.eqb of_option bind].
    all: unfold char_succs, iter_trans; cbn [st_trans state_with_id]; rewrite Hn; cbn [map flat_map closures bind app sim_accepting].
    all: assert (Hf : forall f v, feed_each f m [] v = Val []) by (intros f v; induction v as [|x v IH]; [reflexivity|exact IH]).
    all: rewrite Hf; intros [= <-]; reflexivity.
  Qed.

  Lemma vec_impl (ho : HashOrder) es m fuel w b : nfa_from_vec es = Val m -> simulate fuel m w = Val b ->
    (b = true <-> exists e, In e es /\ impl_lang e w).
  Proof.
    destruct es as [|e es]; intros Hm Hs.
    - rewrite (vec_none ho m fuel w b Hm Hs). split; [discriminate|]. intros (e & [] & _).
    - rewrite vec_alternation in Hm. rewrite (simulate_impl ho _ m fuel w b Hm Hs). apply impl_lang_alternation.
  Qed.
End Vec.

Lemma nfa_from_some e : (exists m, nfa_from e = Val m) <-> has_empty e = false.
Proof.
  split; [intros (m & H); exact (proj1 (nfa_from_ok e m H))|].
  intros H. destruct (nfa_from_machine e H) as (m & E & _). eauto.
Qed.

Lemma alternation_empty : forall es e, has_empty (alternation e es) = false <-> forall e', In e' (e :: es) -> has_empty e' = false.
Proof.
  induction es as [|e' es IH]; intros e; cbn [alternation].
  - split; [intros H x [<-|[]]; assumption|]. intros H. apply H. left. reflexivity.
  - cbn [has_empty]. rewrite orb_false_iff, IH. split.
    + intros [H1 H2] x [<-|H]; auto.
    + intros H. split; [apply H; left; reflexivity|]. intros x Hx. apply H. right. assumption.
Qed.

Lemma vec_some es : (exists m, nfa_from_vec es = Val m) <-> forall e, In e es -> exists m, nfa_from e = Val m.
Proof.
  destruct es as [|e es].
  - split; [intros _ e []|]. intros _. eexists. reflexivity.
  - rewrite vec_alternation, nfa_from_some, alternation_empty. split; intros H x Hx; apply nfa_from_some, H, Hx.
Qed.
