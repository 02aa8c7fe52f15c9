(** Proofs about the [Debug] texts of regexes, of their errors and of runs. *)
From Verif Require Import Base RegexModel NfaModel DotModel DebugModel DebugRegexModel.
From Verif Require Import RegexProofs ErrorTextProofs SpecDebug DebugProofs DebugTypes DebugLexer.

Ltac atoms := split; [intros []; (constructor; [discriminate|word])|intros [] [] E; (reflexivity || discriminate E)].

Lemma telling_u32 : telling dbg_u32.
Proof.
  split.
  - intros n. destruct (show_id_word (N.to_nat n)) as [H1 H2]. unfold show_id in H1, H2. rewrite N2Nat.id in H1, H2.
    constructor; assumption.
  - intros x y E. injection E as E. destruct (show_num_read x) as [_ Hx]. destruct (show_num_read y) as [_ Hy].
    rewrite E in Hx. congruence.
Qed.

Lemma telling_bool : telling dbg_bool.
Proof. atoms. Qed.
Lemma telling_class : telling dbg_class.
Proof. atoms. Qed.
Lemma telling_op : telling dbg_op.
Proof. atoms. Qed.
Lemma telling_perr_kind : telling dbg_perr_kind.
Proof. atoms. Qed.

Lemma telling_option {A} (f : A -> dbg) : telling f -> telling (dbg_option f).
Proof.
  intros [H1 H2]. split.
  - intros [x|]; cbn [dbg_option]; [|constructor; [discriminate|word]]. apply tame_tuple; [word|]. tames. apply H1.
  - intros [x|] [y|] E; try discriminate; [|reflexivity]. injection E as E. f_equal. apply H2. assumption.
Qed.

Lemma telling_pos : telling dbg_pos.
Proof.
  destruct telling_nat as [N1 N2]. split.
  - intros p. apply tame_tuple; [constructor|]. tames; apply N1.
  - intros [a b] [a' b'] E. unfold dbg_pos, dtuple in E. cbn [map fst snd] in E.
    assert (a = a') as -> by (apply N2; congruence). assert (b = b') as -> by (apply N2; congruence). reflexivity.
Qed.

Lemma telling_quant : telling dbg_quant.
Proof.
  destruct telling_u32 as [U1 U2]. split.
  - intros []; cbn [dbg_quant]; try (constructor; [discriminate|word]);
      (apply tame_tuple; [word|]; tames; apply tame_tuple; [word|]; tames; apply U1).
  - intros [| | |n|n|a b] [| | |n'|n'|a' b'] E; cbn [dbg_quant] in E; try discriminate E; try reflexivity;
      unfold dtuple in E; cbn [map] in E; f_equal; apply U2; congruence.
Qed.

Section Regex.
  Context (printable : char -> bool).

  Lemma telling_chr : telling (dbg_char printable).
  Proof. exact (telling_char printable). Qed.

  Lemma telling_token_kind : telling (dbg_token_kind printable).
  Proof.
    destruct telling_class as [C1 C2], telling_op as [O1 O2], telling_quant as [Q1 Q2], telling_chr as [H1 H2]. split.
    - intros []; cbn [dbg_token_kind]; try (apply tame_tuple; [word|]; tames; auto). constructor; [discriminate|word].
    - intros [] [] E; cbn [dbg_token_kind] in E; try discriminate E; try reflexivity; unfold dtuple in E; cbn [map] in E; f_equal;
        [apply C2|apply O2|apply Q2|apply H2]; congruence.
  Qed.

  Lemma telling_rtoken : telling (dbg_rtoken printable).
  Proof.
    destruct telling_token_kind as [K1 K2], telling_pos as [P1 P2]. split.
    - intros t. apply tame_struct; [discriminate|word|]. tames; [apply K1|apply P1].
    - intros [k p] [k' p'] E. unfold dbg_rtoken, dstruct in E. cbn [map fst snd tk_kind tk_pos] in E.
      assert (k = k') as -> by (apply K2; congruence). assert (p = p') as -> by (apply P2; congruence). reflexivity.
  Qed.

  Lemma telling_glit : telling (dbg_glit printable).
  Proof.
    destruct telling_class as [C1 C2], telling_chr as [H1 H2]. split.
    - intros []; cbn [dbg_glit]; (apply tame_tuple; [word|]; tames; auto).
    - intros [] [] E; cbn [dbg_glit] in E; try discriminate E; unfold dtuple in E; cbn [map] in E; f_equal;
        (apply C2 || apply H2); congruence.
  Qed.

  Lemma telling_lit : telling (dbg_lit printable).
  Proof.
    destruct telling_class as [C1 C2], telling_chr as [H1 H2], telling_bool as [B1 B2].
    destruct (telling_list (dbg_glit printable) [] Square) as [L1 L2]; [discriminate|constructor|exact telling_glit|]. split.
    - intros [c|k|neg ls]; cbn [dbg_lit]; try (apply tame_tuple; [word|]; tames; auto).
      apply tame_struct; [discriminate|word|]. tames; [apply B1|]. apply tame_tuple; [word|]. tames. apply L1.
    - intros [c|k|neg ls] [c'|k'|neg' ls'] E; cbn [dbg_lit] in E; try discriminate E; unfold dtuple, dstruct in E; cbn [map fst snd] in E; f_equal.
      + apply H2; congruence.
      + apply C2; congruence.
      + apply B2; congruence.
      + apply L2. unfold dlist in E. congruence.
  Qed.

  Lemma telling_expr : telling (dbg_expr printable).
  Proof.
    destruct telling_lit as [L1 L2]. destruct (telling_option dbg_quant telling_quant) as [Q1 Q2]. split.
    - apply expr_ind'.
      + intros es H. cbn [dbg_expr]. apply tame_tuple; [word|]. tames. apply tame_list.
        apply Forall_forall. intros d Hd. apply in_map_iff in Hd. destruct Hd as [e [<- He]]. rewrite Forall_forall in H. auto.
      + constructor; [discriminate|word].
      + intros l r Hl Hr. cbn [dbg_expr]. apply tame_tuple; [word|]. tames; assumption.
      + intros l q. cbn [dbg_expr]. apply tame_tuple; [word|]. tames; auto.
      + intros e q He. cbn [dbg_expr]. apply tame_tuple; [word|]. tames; auto.
    - apply (expr_ind' (fun x => forall y, dbg_expr printable x = dbg_expr printable y -> x = y)).
      + intros es H [es'| | | |] E; cbn [dbg_expr] in E; try discriminate E. unfold dtuple, dlist in E. cbn [map] in E. injection E as E.
        f_equal. rewrite Forall_forall in H. apply map_inj in E; [|intros ? ? _ K; congruence].
        revert E. apply map_inj. intros x y Hx. apply H. assumption.
      + intros [] E; cbn [dbg_expr] in E; try discriminate E. reflexivity.
      + intros l r Hl Hr [] E; cbn [dbg_expr] in E; try discriminate E. unfold dtuple in E. cbn [map] in E.
        f_equal; [apply Hl|apply Hr]; congruence.
      + intros l q [] E; cbn [dbg_expr] in E; try discriminate E. unfold dtuple in E. cbn [map] in E.
        f_equal; [apply L2|apply Q2]; congruence.
      + intros e q He [] E; cbn [dbg_expr] in E; try discriminate E. unfold dtuple in E. cbn [map] in E.
        f_equal; [apply He|apply Q2]; congruence.
  Qed.

  Lemma telling_input : telling (dbg_input printable).
  Proof.
    destruct telling_lit as [L1 L2], telling_quant as [Q1 Q2]. split.
    - intros []; cbn [dbg_input]; try (apply tame_tuple; [word|]; tames; auto). constructor; [discriminate|word].
    - intros [] [] E; cbn [dbg_input] in E; try discriminate E; try reflexivity; unfold dtuple in E; cbn [map] in E; f_equal;
        (apply L2 || apply Q2); congruence.
  Qed.

  (** The labels of the dot texts are these texts. *)
  Lemma plain_quant q : plain (dbg_quant q) = show_quant q.
  Proof. destruct q; cbn [dbg_quant dbg_u32 show_quant plain dtuple map opening closing CfsmModel.join]; rewrite <- ?app_assoc; reflexivity. Qed.
  Lemma plain_glit g : plain (dbg_glit printable g) = show_glit printable g.
  Proof. destruct g as [c|k|a b]; [|destruct k|]; cbn [dbg_glit dbg_char show_glit plain dtuple map opening closing CfsmModel.join]; rewrite <- ?app_assoc; reflexivity. Qed.
  Lemma plain_lit l : plain (dbg_lit printable l) = show_lit printable l.
  Proof.
    destruct l as [c|k|neg ls]; [| |].
    - reflexivity.
    - destruct k; reflexivity.
    - cbn [dbg_lit show_lit dstruct map fst snd plain dbg_bool dtuple dlist opening closing CfsmModel.join].
      rewrite !map_map. rewrite (map_ext _ (show_glit printable) plain_glit). destruct neg; rewrite <- !app_assoc; reflexivity.
  Qed.
  Lemma plain_input i : plain (dbg_input printable i) = show_input printable i.
  Proof.
    destruct i as [l| |q]; cbn [dbg_input show_input dtuple plain map opening closing CfsmModel.join]; rewrite ?plain_lit, ?plain_quant; reflexivity.
  Qed.
End Regex.

Lemma telling_perr : telling dbg_perr.
Proof.
  destruct telling_perr_kind as [K1 K2], telling_pos as [P1 P2]. split.
  - intros t. apply tame_struct; [discriminate|word|]. tames; [apply K1|apply P1].
  - intros [k p] [k' p'] E. unfold dbg_perr, dstruct in E. cbn [map fst snd pe_kind pe_pos] in E.
    assert (k = k') as -> by (apply K2; congruence). assert (p = p') as -> by (apply P2; congruence). reflexivity.
Qed.
Lemma telling_errors : telling dbg_errors.
Proof.
  destruct (telling_list dbg_perr [] Square) as [L1 L2]; [discriminate|constructor|exact telling_perr|]. split.
  - intros l. apply tame_tuple; [word|]. tames. apply L1.
  - intros l l' E. apply L2. unfold dbg_errors, dtuple in E. cbn [map] in E. unfold dlist in E. congruence.
Qed.

Lemma telling_run : telling dbg_run.
Proof.
  destruct telling_nat as [N1 N2]. split.
  - intros r. apply tame_struct; [discriminate|word|]. tames; [apply N1|]. apply tame_map. apply Forall_forall.
    intros e He. apply in_map_iff in He. destruct He as [x [<- _]]. split; apply N1.
  - intros [i c] [i' c'] E. unfold dbg_run, dstruct in E. cbn [map fst snd r_state r_cnt] in E.
    assert (i = i') as -> by (apply N2; congruence).
    assert (E' : dmap (map (fun e => (dbg_nat (fst e), dbg_nat (snd e))) c) = dmap (map (fun e => (dbg_nat (fst e), dbg_nat (snd e))) c')) by congruence.
    apply dmap_inj in E'. f_equal. revert E'. apply map_inj. intros [a b] [a' b'] _ K. cbn [fst snd] in K.
    f_equal; apply N2; congruence.
Qed.

(** Both forms of a telling implementation. *)
Lemma telling_texts {A} (f : A -> dbg) : telling f -> forall x y,
  (plain (f x) = plain (f y) -> x = y) /\ (pretty (f x) = pretty (f y) -> x = y).
Proof.
  intros [H1 H2] x y. split; intros E; apply H2; [exact (plain_inj _ _ (H1 x) (H1 y) E)|exact (pretty_inj _ _ (H1 x) (H1 y) E)].
Qed.

Lemma unwrap_tells errs errs' : unwrap_message errs = unwrap_message errs' -> errs = errs'.
Proof. intros E. apply app_inv_head in E. exact (proj1 (telling_texts dbg_errors telling_errors errs errs') E). Qed.
