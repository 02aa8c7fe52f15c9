(** Concrete lists of patterns for C84 to C87. *)
From Verif Require Import Base RegexModel SpecRegex NfaModel SpecNfa SpecSpin LexerModel SpecLexer SpecLists SpecLines LexerWitness LexerSpin NfaSpin.

Definition lit_a : expr := ELit (LMatch ($"a")) None.
Definition lit_b : expr := ELit (LMatch ($"b")) None.
Definition lit_ab : expr := EConcat [lit_a; lit_b].
Definition names : expr := ELit (LGroup false [GMatch ($"a"); GMatch ($"b")]) (Some QPlus).

Section Witness.
  Context {env : Env}.

  Lemma lang_ab x : lang lit_ab x -> x = [$"a"; $"b"].
  Proof. intros (u & v & -> & (c & -> & ->) & (u' & v' & -> & (c' & -> & ->) & ->)). reflexivity. Qed.
  Lemma a_b : ~ overlap lang lit_a lit_b.
  Proof. intros (x & _ & (c & -> & H1) & (c' & [= <-] & H2)). cbn in H1, H2. subst c. discriminate. Qed.
  Lemma ab_b : ~ overlap lang lit_ab lit_b.
  Proof. intros (x & _ & H1 & (c & -> & _)). apply lang_ab in H1. discriminate. Qed.

  Lemma names_pow l : Forall (fun c => c = $"a" \/ c = $"b") l ->
    lang_pow (fun w => exists c, w = [c] /\ lit_set (LGroup false [GMatch ($"a"); GMatch ($"b")]) c) (length l) l.
  Proof.
    induction 1 as [|c l Hc _ IH]; [reflexivity|]. exists [c], l. split; [reflexivity|]. split; [|exact IH].
    exists c. split; [reflexivity|]. exists (GMatch c). split; [destruct Hc as [->| ->]; cbn; auto|reflexivity].
  Qed.
  Lemma ab_shadowed : shadowed lang [names] lit_ab.
  Proof.
    intros x _ H. apply lang_ab in H. subst x. exists names. split; [left; reflexivity|]. exists 2. split; [cbn; lia|].
    apply (names_pow [$"a"; $"b"]). constructor; [left; reflexivity|]. constructor; [right; reflexivity|constructor].
  Qed.
  Lemma ab_redundant : redundant ([names] ++ []) lit_ab.
  Proof.
    split.
    - intros x H.
      assert (Hx : x = [] \/ Forall (fun c => c = $"a" \/ c = $"b") x).
      { cbn in H. destruct H as [[H|(c & -> & H)]|[(u & v & -> & [(c & -> & H)|H] & H2)|[[] _]]]; [left; exact H|right; constructor; [left; exact H|constructor]| |].
        - right. cbn [app]; apply Forall_cons; [left; exact H|].
          destruct H2 as [[->|(d & -> & Hd)]|(u' & v' & -> & (d & -> & Hd) & ->)]; [constructor| |]; (constructor; [right; exact Hd|constructor]).
        - destruct H. }
      destruct Hx as [->|Hx]; [left; reflexivity|]. right. exists names. split; [left; reflexivity|].
      exists (length x). apply names_pow. exact Hx.
    - intros w H. destruct (loops_spinning lit_ab w eq_refl H).
  Qed.

  Lemma run_breaks : breaks run_es ($"a").
  Proof.
    intros x Hx H. apply run_feedable in H. destruct H as [H|H].
    - destruct x as [|c [|d x]]; [congruence|discriminate|discriminate].
    - assert (Hin : In ($"a") (repeat ($"b") (length (x ++ [$"a"])))) by (rewrite <- H; apply in_app_iff; cbn; auto).
      apply repeat_spec in Hin. discriminate.
  Qed.
End Witness.
