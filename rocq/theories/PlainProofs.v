(** Proofs for C76. *)
From Verif Require Import Base RegexModel SpecRegex NfaModel SpecNfa NfaCompileProofs NfaLangProofs LexerModel SpecLexer SpecMunch LexerWitness LexerMunch SpecPlain.
From Coq Require Import Lia.

Section Plain.
  Context {env : Env}.

  Lemma from_one_allowed q n : from_one q = true -> allowed q (S n).
  Proof. destruct q; cbn; intros H; try discriminate; auto; try lia. apply N.leb_le in H. lia. Qed.

  Lemma pow_cat (L : list char -> Prop) n : forall u v, lang_pow L n u -> L v -> lang_pow L (S n) (u ++ v).
  Proof.
    induction n as [|n IH]; intros u v Hu Hv.
    - cbn in Hu. subst u. exists v, []. rewrite app_nil_r. cbn. auto.
    - destruct Hu as (a & b & -> & Ha & Hb). exists a, (b ++ v). rewrite app_assoc. auto.
  Qed.

  Lemma eager_group e q : eager (EGroup e q) = true -> eager e = true /\ match q with None => True | Some q => from_one q = true end.
  Proof.
    intros Hg. cbn [eager] in Hg.
    apply andb_true_iff in Hg. destruct Hg as [H1 H2]. split; auto. destruct q; auto.
  Qed.

  Lemma eager_spec : forall e, eager e = true -> forall w, begun e w -> w <> [] -> lang e w.
  Proof.
    induction e as [|e IH|e e2 es IH1 IH2| |l r IHl IHr|l q|e q IH] using expr_seq_ind; intros He w H Hw.
    - contradiction.
    - cbn in He. rewrite andb_true_r in He. rewrite begun_single in H. apply lang_seq. exists w, []. rewrite app_nil_r.
      split; auto. split; [auto|reflexivity].
    - cbn [eager] in He. apply andb_true_iff in He. destruct He as [He1 He2].
      assert (Hrest : eager (EConcat (e2 :: es)) = true /\ nullable (EConcat (e2 :: es)) = true).
      { clear - He2. cbn [eager] in *. apply andb_true_iff in He2. destruct He2 as [H1 H2]. apply andb_true_iff in H1. destruct H1 as [H1 H3].
        split; [rewrite H1; exact H2|]. cbn [nullable]. rewrite H3. cbn [andb]. clear H1 H3.
        induction es as [|x es IH]; auto. apply andb_true_iff in H2. destruct H2 as [H1 H2]. apply andb_true_iff in H1. destruct H1 as [_ H1].
        rewrite H1. cbn [andb]. apply IH. exact H2. }
      destruct Hrest as [Hr1 Hr2]. apply nullable_spec in Hr2. rewrite begun_seq in H. apply lang_seq. destruct H as [H|(u & v & -> & Hu & Hv)].
      + exists w, []. rewrite app_nil_r. auto.
      + exists u, v. split; auto. split; auto. destruct v as [|c v]; auto. apply IH2; auto. discriminate.
    - contradiction.
    - cbn in He. apply andb_true_iff in He. destruct He. destruct H; [left|right]; auto.
    - destruct q as [q|].
      + destruct H as (n & H). destruct n as [|n]; [contradiction|]. exists (S n). split; auto. apply from_one_allowed. exact He.
      + destruct H as [H|H]; [contradiction|exact H].
    - apply eager_group in He. destruct He as [He Hq]. destruct q as [q|]; [|apply IH; auto].
      destruct H as (n & u & v & -> & Hu & Hv). destruct v as [|c v].
      + rewrite app_nil_r in *. destruct n as [|n]; [contradiction|]. exists (S n). split; auto. apply from_one_allowed; auto.
      + exists (S n). split; [apply from_one_allowed; auto|]. apply pow_cat; auto. apply IH; auto. discriminate.
  Qed.

  Lemma word_lang w : lang (word w) w.
  Proof.
    induction w as [|c w IH]; [reflexivity|]. apply lang_seq. exists [c], w. split; auto. split; [|exact IH]. exists c. split; reflexivity.
  Qed.

  Lemma word_begun w : forall u, begun (word w) u -> exists v, w = u ++ v.
  Proof.
    induction w as [|c w IH]; intros u H; [cbn in H; subst; exists []; reflexivity|]. unfold word in H. cbn [map] in H. apply begun_seq in H.
    destruct H as [[->|(d & -> & Hd)]|(a & b & -> & (d & -> & Hd) & Hb)].
    - eexists; reflexivity.
    - cbn in Hd. subst d. exists w. reflexivity.
    - cbn in Hd. subst d. destruct (IH _ Hb) as (v & ->). exists v. reflexivity.
  Qed.

  Lemma pow_free d n : forall x, lang_pow (fun w => exists c, w = [c] /\ lit_set (LGroup true [GMatch d]) c) n x -> ~ In d x.
  Proof.
    induction n as [|n IH]; intros x H; [cbn in H; subst; intros []|]. destruct H as (a & b & -> & (c & -> & Hc) & Hb).
    intros [<-|Hi]; [|exact (IH _ Hb Hi)]. apply Hc. exists (GMatch c). split; [left|]; reflexivity.
  Qed.

  (** In a quoted text the end stands only at the end. *)
  Lemma quoted_begun d d' u : begun (quoted d d') u -> u = [] \/ exists x, u = d :: x /\ forall y c z, x = y ++ c :: z -> c = d' -> z = [].
  Proof.
    intros H. unfold quoted in H. apply begun_seq in H. destruct H as [[->|(c & -> & Hc)]|(a & b & -> & (c & -> & Hc) & Hb)]; auto; right; cbn in Hc; subst c.
    - exists []. split; auto. intros [|? ?] ? ? E; discriminate.
    - exists b. split; auto. destruct Hb as [(n & Hb)|(x & y & -> & (n & _ & Hx) & Hy)].
      + apply pow_free in Hb. intros y c z -> ->. destruct Hb. apply in_app_iff. cbn. auto.
      + apply pow_free in Hx. change (begun (EConcat [ELit (LMatch d') None]) y) in Hy. apply (proj1 (begun_single _ _)) in Hy.
        assert (Hy' : y = [] \/ exists c, y = [c] /\ lit_set (LMatch d') c) by exact Hy. clear Hy. intros a c z E ->.
        destruct Hy' as [->|(c & -> & Hc)].
        * rewrite app_nil_r in E. destruct Hx. rewrite E. apply in_app_iff. cbn. auto.
        * destruct z as [|e z]; auto. exfalso. destruct (exists_last (l := e :: z)) as (z' & e' & Ez); [discriminate|]. rewrite Ez in E.
          change (a ++ d' :: z' ++ [e']) with (a ++ (d' :: z') ++ [e']) in E. rewrite app_assoc in E. apply app_inj_tail in E. destruct E as [-> _].
          apply Hx. apply in_app_iff. cbn. auto.
  Qed.

  Lemma quoted_lang d d' u : lang (quoted d d') u -> exists x, u = d :: x ++ [d'].
  Proof.
    intros H. unfold quoted in H. apply lang_seq in H. destruct H as (a & b & -> & (c & -> & Hc) & Hb). cbn in Hc. subst c.
    destruct Hb as (x & y & -> & _ & (y1 & y2 & -> & (c & -> & Hc) & Hy2)).
    cbn in Hc, Hy2. subst. exists x. reflexivity.
  Qed.

  Lemma plain_agreed es : plain es -> agreed lang es.
  Proof. intros H. right. split; auto. intros e He. apply H; auto. Qed.

  Lemma plain_steady es : plain es -> steady es.
  Proof.
    intros Hp u c Hu Hm [E|(e & He & Hb)]; [destruct u; discriminate|].
    pose proof (plain_agreed es Hp) as Ha. apply (agreed_matched lang es _ Ha). apply (agreed_matched lang es _ Ha) in Hm.
    destruct (Hp e He) as (Hl & _ & Hin). apply (lead_begun e Hl) in Hb. destruct Hin as [e Hea|w Hw|d d' Hd].
    - exists e. split; auto. apply eager_spec; auto. destruct u; discriminate.
    - destruct (word_begun _ _ Hb) as (v & E). destruct v as [|x v].
      + rewrite app_nil_r in E. subst w. exists (word (u ++ [c])). split; auto. apply word_lang.
      + eapply Hw; eauto; [destruct u; discriminate|discriminate].
    - exfalso. destruct Hm as (e' & He' & Hm). destruct (quoted_begun _ _ _ Hb) as [E|(x & E & Hx)]; [destruct u; discriminate|].
      destruct u as [|a u]; [congruence|]. cbn in E. injection E as -> <-.
      destruct (Hd e' He') as [->|Hn].
      + destruct (quoted_lang _ _ _ Hm) as (y & Ey). injection Ey as ->. specialize (Hx y d' [c]).
        rewrite <- app_assoc in Hx. specialize (Hx eq_refl eq_refl). discriminate.
      + apply Hn. apply lang_begun in Hm. apply (begun_app e' [d] u). exact Hm.
  Qed.

  Lemma plain_munch (K : Type) (ts : list (list char * generator K)) input lx es :
    build_lexer ts input = Val (inl lx) -> parsed ts es -> plain es ->
    exists tks, munches lang es (map snd ts) input 0 tks /\
      forall n, exists N rest lx', forall (ho : HashOrder) fuel, N <= fuel ->
        lex_calls fuel (length tks + S n) lx = Val (map Some tks ++ None :: rest, lx').
  Proof.
    intros Hb Hp Hpl. apply lexer_munch; auto.
    - apply plain_agreed; auto.
    - apply plain_steady; auto.
    - intros e He. apply Hpl; auto.
  Qed.
End Plain.

(** ** The tokens of a small language *)
Definition lang_tokens : list (list char * generator nat) :=
  [(str "if"%string, GenUnit (fun _ => 0)); (str "=="%string, GenUnit (fun _ => 1)); (str "="%string, GenUnit (fun _ => 2));
   (str "[a-z][a-z0-9]*"%string, GenUnit (fun _ => 3)); (str "\d+"%string, GenMap (fun w => 10 + length w));
   (str """[^""]*"""%string, GenMap (fun w => 20 + length w)); (str "\s+"%string, GenUnit (fun _ => 4))].

Definition lang_es : list expr :=
  [word (str "if"%string); word (str "=="%string); ELit (LMatch ($"=")) None;
   EConcat [ELit (LGroup false [GRange ($"a") ($"z")]) None;
            ELit (LGroup false [GRange ($"a") ($"z"); GRange ($"0") ($"9")]) (Some QAsterisk)];
   ELit (LClass CDigit) (Some QPlus); quoted 34%N 34%N; ELit (LClass CWhitespace) (Some QPlus)].

Section Small.
  Context {env : Env}.

  Lemma lang_parsed : parsed lang_tokens lang_es.
  Proof. repeat constructor. Qed.

  Lemma lang_plain : plain lang_es.
  Proof.
    intros e He. split; [destruct He as [<-|[<-|[<-|[<-|[<-|[<-|[<-|[]]]]]]]]; reflexivity|].
    split; [destruct He as [<-|[<-|[<-|[<-|[<-|[<-|[<-|[]]]]]]]]; reflexivity|].
    destruct He as [<-|[<-|[<-|[<-|[<-|[<-|[<-|[]]]]]]]]; try (apply plain_eager; reflexivity).
    - apply plain_word. intros u v E Hu Hv. destruct u as [|a [|b u]]; [congruence| |].
      + injection E as <- _. exists (nth 3 lang_es EEmpty). split; [cbn; tauto|].
        exists [105%N], []. split; [reflexivity|]. split.
        * exists 105%N. split; [reflexivity|]. exists (GRange ($"a") ($"z")). split; [left; reflexivity|]. split; discriminate.
        * exists [], []. split; [reflexivity|]. split; [|reflexivity]. exists 0. split; [exact I|reflexivity].
      + injection E as _ _ E. symmetry in E. apply app_eq_nil in E. destruct E. contradiction.
    - apply plain_word. intros u v E Hu Hv. destruct u as [|a [|b u]]; [congruence| |].
      + injection E as <- _. exists (ELit (LMatch ($"=")) None). split; [cbn; tauto|]. eexists. split; reflexivity.
      + injection E as _ _ E. symmetry in E. apply app_eq_nil in E. destruct E. contradiction.
    - apply plain_quoted. intros e He.
      assert (Hpow : forall (P : char -> Prop) n, ~ P 34%N -> ~ lang_pow (fun w => exists c, w = [c] /\ P c) n [34%N]).
      { intros P n HP H. destruct n as [|n]; [discriminate|]. destruct H as (a & b & E & (c & -> & Hc) & _). injection E as <- _. contradiction. }
      destruct He as [<-|[<-|[<-|[<-|[<-|[<-|[<-|[]]]]]]]]; auto; right.
      + intros H. apply word_begun in H. destruct H as (v & E). discriminate.
      + intros H. apply word_begun in H. destruct H as (v & E). discriminate.
      + intros [H|(c & E & H)]; [discriminate|]. injection E as <-. discriminate.
      + intros H. apply begun_seq in H.
        assert (N : ~ lit_set (LGroup false [GRange ($"a") ($"z")]) 34%N).
        { intros (x & [<-|[]] & H1 & H2). apply H1. reflexivity. }
        destruct H as [[H|(c & E & H)]|(u & v & E & (c & -> & H) & _)]; [discriminate| |]; injection E as <-; contradiction.
      + intros (n & H). apply Hpow in H; auto. intros [H1 H2]. apply H1. reflexivity.
      + intros (n & H). apply Hpow in H; auto. cbn. unfold space_char. cbn. intuition discriminate.
  Qed.
End Small.
