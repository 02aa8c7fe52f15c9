(** Proofs about front ends checked against patterns that say what is meant (C131). *)
From Verif Require Import Base RegexModel SpecRegex NfaModel SpecNfa NfaProofs RegexProofs RegexParseProofs RegexPanicProofs LexerModel SpecLexer SpecMunch SpecPanic SpecText
  GrammarModel CfsmModel SlrModel PangoModel SpecCfg SpecWrap SpecFront WrapProofs WrapText PipeProofs TextOutcome FrontProofs
  SpecPossible PossibleFacts SpecExactness ExactnessProofs SpecBuildable BuildableProofs SpecTextbook TextbookProofs SpecKleene SpecQuery QueryProofs QueryLexer SpecCertify.

Lemma gapb_ok e : gapb e = true <-> gapped e.
Proof.
  rewrite gapped_ok. assert (E : gapb e = has_empty e); [|rewrite E; tauto].
  induction e as [es IH| |l r IHl IHr|l q|e q IH] using expr_ind'; cbn [gapb has_empty]; try congruence.
  destruct es as [|x es]; [reflexivity|]. induction IH as [|y l Hy Hl IHl]; cbn [existsb]; [reflexivity|]. congruence.
Qed.
From Verif Require Import CertifyProofs SpecKinds KindsProofs SpecAlike AlikeProofs SpecFind FindProofs SpecMisread MisreadProofs.

Section Both.
  Context {env : Env} {V K : Type} {dv : DecEq V} {dk : DecEq K} (bs : list N) (Hbs : changes bs is_alphabetic).
  Context (teq : K -> K -> bool) (Ht : lawful teq) (ts : list (list char * generator K)) (es : list expr) (Hp : parsed ts es).

  Lemma meant_texts es' (gens' : list (generator K)) (g : grammar V K) : goodb bs es = true -> length gens' = length es' ->
    forallb unit_kind (map snd ts) = true -> forallb unit_kind gens' = true -> misread bs es (map snd ts) es' gens' = None ->
    built g -> always_exact g teq = true -> forall (ho : HashOrder) p, exists n tb,
    (forall fuel, n <= fuel -> slr_new teq fuel p g = Val tb) /\
    forall input, exists lx tks, build_lexer ts input = Val (inl lx) /\ munches lang es' gens' input 0 tks /\
      forall x, eventually (fun fuel => parse_lexer teq fuel tb lx) (Val (Some (to_node x))) <-> parses g teq (map lt_kind tks) x.
  Proof.
    intros Hg Hl' Hu Hu' Hm Hb Ha ho p.
    assert (Hl : length (map snd ts) = length es) by (rewrite map_length; exact (parsed_length ts es Hp)).
    pose proof (misread_ok bs Hbs es (map snd ts) es' gens' Hl Hl') as H. rewrite Hm in H. apply (goodb_ok bs Hbs) in Hg. destruct Hg as (Hs & He).
    assert (Hf : epsilon_free g) by (apply freeb_ok; unfold always_exact in Ha; rewrite !andb_true_iff in Ha; apply Ha).
    destruct (proj2 (exact_always g Hb teq Ht (or_introl Hf)) Ha ho p) as (n & tb & Hn & Hx). exists n, tb. split; [exact Hn|]. intros input.
    destruct (lexer_builds ts es input Hp (fun e H => proj1 (He e H))) as (lx & Hlx). exists lx.
    destruct (parse_munch teq tb ts input lx es impl_lang Hlx Hp (or_introl eq_refl) Hs (fun e H => proj2 (He e H))) as (tks & Hmu & HN). exists tks.
    split; [exact Hlx|]. split; [exact (bounded_meant es es' _ _ input Hl' Hu Hu' (fun x X _ => H x X) 0 tks Hmu)|].
    intros x. rewrite (same_eventually _ _ _ HN). exact (Hx (map lt_kind tks) x).
  Qed.
End Both.
