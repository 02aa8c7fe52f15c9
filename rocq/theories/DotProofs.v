(** Proofs about the textual forms. *)
From Verif Require Import Base RegexModel NfaModel SpecNfa DotModel SpecDot NfaCompileProofs.
From Verif Require GrammarModel CfsmModel SpecCfg GrammarProofs CfsmProofs CfsmCorrect.

(** ** No duplicates *)

Lemma nodup_flat_map {A B K} (f : A -> list B) (ka : A -> K) (kb : B -> K) (l : list A) :
  NoDup (map ka l) -> (forall a, In a l -> NoDup (f a)) -> (forall a b, In b (f a) -> kb b = ka a) ->
  NoDup (flat_map f l).
Proof.
  induction l as [|a l IH]; intros Hn Hf Hk; cbn; [constructor|]. cbn in Hn. apply NoDup_cons_iff in Hn. destruct Hn as [Ha Hn].
  assert (Hl : NoDup (flat_map f l)) by (apply IH; auto; intros x Hx; apply Hf; right; assumption).
  assert (Hfa : NoDup (f a)) by (apply Hf; left; reflexivity).
  assert (Hd : forall b, In b (f a) -> ~ In b (flat_map f l)).
  { intros b Hb Hin. apply in_flat_map in Hin. destruct Hin as (a' & Ha' & Hb'). apply Ha.
    rewrite <- (Hk _ _ Hb), (Hk _ _ Hb'). apply in_map. assumption. }
  clear -Hl Hfa Hd. induction (f a) as [|b r IH]; cbn; [assumption|]. apply NoDup_cons_iff in Hfa. destruct Hfa as [H1 H2].
  constructor.
  - intros Hin. apply in_app_or in Hin. destruct Hin as [Hin|Hin]; [contradiction|]. apply (Hd b); [left; reflexivity|assumption].
  - apply IH; [assumption|]. intros x Hx. apply Hd. right. assumption.
Qed.

Definition dup_free (m : nfa) : Prop :=
  wfb m /\ forall st, In st (nfa_states m) -> NoDup (map fst (st_trans st)) /\ forall i ts, In (i, ts) (st_trans st) -> NoDup ts.

Lemma set_insert_nodup x l : NoDup l -> NoDup (set_insert x l).
Proof.
  intros H. unfold set_insert. destruct (memb x l) eqn:E; [assumption|].
  apply (Permutation_NoDup (l := x :: l)); [apply Permutation_cons_append|]. constructor; [|assumption].
  intros Hin. apply (proj2 (memb_in x l)) in Hin. congruence.
Qed.

Lemma trans_insert_keys i t l : forall j, In j (map fst (trans_insert i t l)) -> j = i \/ In j (map fst l).
Proof.
  induction l as [|[k ts] r IH]; intros j; cbn; [intros [<-|[]]; auto|].
  destruct (input_eq_dec i k) as [->|]; cbn; [tauto|]. intros [<-|H]; [auto|]. apply IH in H. tauto.
Qed.

Lemma trans_insert_nodup i t l : NoDup (map fst l) -> (forall j ts, In (j, ts) l -> NoDup ts) ->
  NoDup (map fst (trans_insert i t l)) /\ forall j ts, In (j, ts) (trans_insert i t l) -> NoDup ts.
Proof.
  induction l as [|[k ts] r IH]; intros Hn Hs; cbn.
  - split; [repeat constructor; auto|]. intros j u [[= <- <-]|[]]. repeat constructor; auto.
  - cbn in Hn. apply NoDup_cons_iff in Hn. destruct Hn as [Hk Hn].
    destruct (input_eq_dec i k) as [->|Hne]; cbn.
    + split; [constructor; assumption|]. intros j u [[= <- <-]|H].
      * apply set_insert_nodup. eapply Hs. left. reflexivity.
      * eapply Hs. right. eassumption.
    + destruct (IH Hn) as [H1 H2]; [intros j u H; eapply Hs; right; eassumption|]. split.
      * constructor; [|assumption]. intros Hin. apply trans_insert_keys in Hin. destruct Hin as [->|Hin]; [congruence|contradiction].
      * intros j u [[= <- <-]|H]; [eapply Hs; left; reflexivity|eapply H2; eassumption].
Qed.

Lemma update_state_in i f l l' : update_state i f l = Some l' -> map st_id l' = map st_id l /\
  forall st, In st l' -> In st l \/ exists st0, In st0 l /\ st_trans st = f (st_trans st0).
Proof.
  revert l'. induction l as [|s r IH]; intros l'; cbn; [discriminate|].
  destruct (st_id s =? i).
  - intros [= <-]. split; [reflexivity|]. intros st [<-|H]; [right; exists s; split; [left; reflexivity|reflexivity]|auto].
  - destruct (update_state i f r) as [r'|]; [|discriminate]. intros [= <-]. destruct (IH r' eq_refl) as [H1 H2].
    split; [cbn; congruence|]. intros st [<-|H]; [auto|]. apply H2 in H.
    destruct H as [H|(st0 & H & E)]; [auto|]. right. exists st0. auto.
Qed.

Lemma built_dup_free m : built m -> dup_free m.
Proof.
  induction 1 as [fin|b fin _ [IHw IH]|b s t i b' _ [IHw IH] H].
  - split; [reflexivity|]. intros st [<-|[]]. split; [constructor|intros i ts []].
  - split.
    + unfold wfb in *. cbn. rewrite map_app, app_length, IHw, seq_app. reflexivity.
    + cbn. intros st Hin. apply in_app_or in Hin. destruct Hin as [Hin|[<-|[]]]; [apply IH; assumption|].
      split; [constructor|intros i ts []].
  - unfold add_transition in H. destruct (update_state _ _ _) as [l|] eqn:E; [|discriminate]. injection H as <-.
    destruct (update_state_in _ _ _ _ E) as [H1 H2]. split.
    + unfold wfb in *. cbn. rewrite H1, IHw. f_equal. rewrite <- (map_length st_id l), H1, map_length. reflexivity.
    + cbn. intros st Hin. apply H2 in Hin. destruct Hin as [Hin|(st0 & Hin & ->)]; [apply IH; assumption|].
      destruct (IH _ Hin) as [H3 H4]. apply trans_insert_nodup; assumption.
Qed.

(** ** The transitions in the order of the text *)

Section Nfa.
  Context (printable : char -> bool) {ho : HashOrder}.

  Definition all_edges (k : nat) (m : nfa) : list (nat * input * nat) :=
    flat_map (fun s => flat_map (fun p => map (fun t => (st_id s, fst p, t)) (snd p)) (iter_trans k s)) (nfa_states m).

  Lemma in_iter_trans k s i ts : In (i, ts) (iter_trans k s) <-> exists us, ts = hash_iter k us /\ In (i, us) (st_trans s).
  Proof.
    unfold iter_trans. rewrite in_map_iff. split.
    - intros ([j us] & [= <- <-] & H). apply in_hash_iter in H. eauto.
    - intros (us & -> & H). exists (i, us). split; [reflexivity|]. apply in_hash_iter. assumption.
  Qed.

  Lemma all_edges_in k m s i t : In (s, i, t) (all_edges k m) <-> transition m s i t.
  Proof.
    unfold all_edges, transition. rewrite in_flat_map. split.
    - intros (st & Hst & H). apply in_flat_map in H. destruct H as ([j ts] & H & Hin). cbn in Hin.
      apply in_map_iff in Hin. destruct Hin as (u & [= <- <- <-] & Hu).
      apply in_iter_trans in H. destruct H as (us & -> & H). apply in_hash_iter in Hu. exists st, us. auto.
    - intros (st & ts & Hst & <- & H & Ht). exists st. split; [assumption|]. apply in_flat_map.
      exists (i, hash_iter k ts). split; [apply in_iter_trans; eauto|]. cbn. apply in_map_iff. exists t.
      split; [reflexivity|]. apply in_hash_iter. assumption.
  Qed.

  Lemma all_edges_nodup k m : dup_free m -> NoDup (all_edges k m).
  Proof.
    intros [Hw H]. unfold all_edges. apply (nodup_flat_map _ st_id (fun e => fst (fst e))).
    - rewrite Hw. apply seq_NoDup.
    - intros st Hst. destruct (H _ Hst) as [H1 H2]. apply (nodup_flat_map _ fst (fun e => snd (fst e))).
      + unfold iter_trans. rewrite map_map. cbn.
        apply (Permutation_NoDup (l := map fst (st_trans st))); [|assumption].
        apply Permutation_map. symmetry. apply hash_iter_perm.
      + intros [i ts] Hin. apply in_iter_trans in Hin. destruct Hin as (us & -> & Hin). cbn.
        apply FinFun.Injective_map_NoDup; [intros x y [=]; assumption|].
        apply (Permutation_NoDup (l := us)); [symmetry; apply hash_iter_perm|]. eapply H2. eassumption.
      + intros [i ts] [[s j] t] Hin. cbn in *. apply in_map_iff in Hin. destruct Hin as (u & [= <- <- <-] & _). reflexivity.
    - intros st [[s j] t] Hin. apply in_flat_map in Hin. destruct Hin as ([i ts] & _ & Hin). cbn in *.
      apply in_map_iff in Hin. destruct Hin as (u & [= <- <- <-] & _). reflexivity.
  Qed.

  Notation edge_line := (edge_line printable).

  Lemma map_flat_map {A B C} (g : B -> C) (f : A -> list B) l : map g (flat_map f l) = flat_map (fun a => map g (f a)) l.
  Proof. induction l as [|a l IH]; cbn; [reflexivity|]. rewrite map_app, IH. reflexivity. Qed.

  Lemma transition_dot_lines k m : transition_dot printable k m = map edge_line (all_edges k m).
  Proof.
    unfold transition_dot, all_edges, transition_tuples. rewrite map_flat_map.
    apply flat_map_ext. intros st. rewrite !map_flat_map.
    apply flat_map_ext. intros [i ts]. cbn. rewrite !map_map. reflexivity.
  Qed.

  (** ** Characters of the lines *)

  (** No newline, and double quotes only where [q] allows one. *)
  Definition clean (q : bool) (w : list char) : Prop := forall c, In c w -> c <> 10%N /\ (c = 34%N -> q = true).

  Lemma clean_app q a b : clean q a -> clean q b -> clean q (a ++ b).
  Proof. intros Ha Hb c Hc. apply in_app_or in Hc. destruct Hc; auto. Qed.

  Lemma clean_forallb q w : forallb (fun c => negb (c =? 10)%N && (q || negb (c =? 34)%N)) w = true -> clean q w.
  Proof.
    intros H c Hc. rewrite forallb_forall in H. apply H in Hc. apply andb_true_iff in Hc. destruct Hc as [H1 H2].
    apply negb_true_iff, N.eqb_neq in H1. split; [assumption|]. intros ->. destruct q; [reflexivity|discriminate].
  Qed.

  Lemma clean_join q sep l : clean q sep -> (forall x, In x l -> clean q x) -> clean q (CfsmModel.join sep l).
  Proof.
    intros Hs. induction l as [|x r IH]; intros H; cbn; [intros c []|].
    destruct r as [|y r]; [apply H; left; reflexivity|].
    apply clean_app; [apply H; left; reflexivity|]. apply clean_app; [assumption|]. apply IH. intros z Hz. apply H. right. assumption.
  Qed.

  Lemma dec_clean fuel : forall n acc, clean false acc -> clean false (dec_digits fuel n acc).
  Proof.
    induction fuel as [|fuel IH]; intros n acc H; cbn [dec_digits]; [assumption|].
    assert (H' : clean false ((48 + n mod 10)%N :: acc)).
    { intros c [<-|Hc]; [|apply H; assumption]. generalize (n mod 10)%N. intros d. split; [lia|intros E; exfalso; lia]. }
    destruct (n <? 10)%N; [assumption|]. apply IH. assumption.
  Qed.
  Lemma num_clean n : clean false (show_num n).
  Proof. apply dec_clean. intros c []. Qed.

  Lemma hex_clean fuel : forall n acc, clean false acc -> clean false (hex_digits fuel n acc).
  Proof.
    induction fuel as [|fuel IH]; intros n acc H; cbn [hex_digits]; [assumption|].
    assert (H' : clean false ((if (n mod 16 <? 10)%N then 48 + n mod 16 else 87 + n mod 16)%N :: acc)).
    { intros c [<-|Hc]; [|apply H; assumption]. generalize (n mod 16)%N. intros d. destruct (_ <? _)%N; (split; [lia|intros E; exfalso; lia]). }
    destruct (n <? 16)%N; [assumption|]. apply IH. assumption.
  Qed.

  Lemma clean_weaken q w : clean false w -> clean q w.
  Proof. intros H c Hc. destruct (H c Hc) as [H1 H2]. split; [assumption|]. intros E. specialize (H2 E). discriminate. Qed.

  Lemma char_clean q c : (c <> 34%N \/ q = true) -> clean q (show_char printable c).
  Proof.
    intros Hq. unfold show_char.
    repeat match goal with |- context[if (c =? ?n)%N then _ else _] =>
      destruct (N.eqb_spec c n); [subst; apply clean_forallb; destruct q; reflexivity|] end.
    destruct (printable c).
    - intros x [<-|[<-|[<-|[]]]]; (split; [try discriminate; auto|]); try discriminate. intros ->. destruct Hq; [congruence|assumption].
    - apply clean_app; [apply clean_forallb; destruct q; reflexivity|]. apply clean_app; [|apply clean_forallb; destruct q; reflexivity].
      apply clean_app; [apply clean_forallb; destruct q; reflexivity|]. apply clean_app; [|apply clean_forallb; destruct q; reflexivity].
      apply clean_weaken, hex_clean. intros x [].
  Qed.

  Ltac piece q := first [apply clean_weaken, num_clean | apply clean_forallb; reflexivity | apply clean_forallb; destruct q; reflexivity].

  Lemma class_clean q k : clean q (show_class k).
  Proof. destruct k; piece q. Qed.
  #[local] Opaque show_char show_num show_class.
  Lemma quant_clean q u : clean q (show_quant u).
  Proof. destruct u; cbn [show_quant]; repeat (apply clean_app); piece q. Qed.
  #[local] Opaque show_quant.
  Lemma glit_clean q g : glit_free 34%N g \/ q = true -> clean q (show_glit printable g).
  Proof.
    intros H. destruct g as [c|k|a b]; cbn [show_glit glit_free] in *; repeat (apply clean_app);
      try piece q; try apply class_clean; apply char_clean; tauto.
  Qed.
  #[local] Opaque show_glit CfsmModel.join.
  Lemma input_clean q i : input_free 34%N i \/ q = true -> clean q (show_input printable i).
  Proof.
    intros H. destruct i as [[c|k|neg ls]| |u]; cbn [show_input show_lit input_free] in *; repeat (apply clean_app);
      try piece q; try apply class_clean; try apply quant_clean.
    - apply char_clean. tauto.
    - destruct neg; piece q.
    - apply clean_join; [piece q|]. intros x Hx. apply in_map_iff in Hx. destruct Hx as (g & <- & Hg). apply glit_clean.
      destruct H as [H|H]; [left; apply H; assumption|right; assumption].
  Qed.

  #[local] Transparent show_char show_num show_class show_quant show_glit CfsmModel.join.

  (** ** Lines *)

  Definition no_nl (w : list char) : Prop := ~ In 10%N w.

  Lemma lines_one w : no_nl w -> lines w = [w].
  Proof.
    induction w as [|c w IH]; intros H; cbn; [reflexivity|]. destruct (N.eqb_spec c 10) as [->|].
    - destruct H. left. reflexivity.
    - rewrite IH; [reflexivity|]. intros Hin. apply H. right. assumption.
  Qed.

  Lemma lines_cut a b : no_nl a -> lines (a ++ 10%N :: b) = a :: lines b.
  Proof.
    induction a as [|c a IH]; intros H; cbn; [reflexivity|]. destruct (N.eqb_spec c 10) as [->|].
    - destruct H. left. reflexivity.
    - rewrite IH; [reflexivity|]. intros Hin. apply H. right. assumption.
  Qed.

  Lemma lines_tab a b : no_nl a -> lines (9%N :: a ++ 10%N :: b) = (9%N :: a) :: lines b.
  Proof. intros H. apply (lines_cut (9%N :: a)). intros [E|Hin]; [discriminate|contradiction]. Qed.

  Lemma lines_join l b : (forall x, In x l -> no_nl x) ->
    lines (CfsmModel.join newline l ++ 10%N :: b) = match l with [] => [[]] | _ => l end ++ lines b.
  Proof.
    induction l as [|x r IH]; intros H; [reflexivity|]. cbn [CfsmModel.join].
    assert (Hx : no_nl x) by (apply H; left; reflexivity).
    destruct r as [|y r]; [apply (lines_cut x b); assumption|].
    rewrite <- !app_assoc. cbn [newline app]. rewrite lines_cut by assumption. cbn [app]. f_equal.
    apply IH. intros z Hz. apply H. right. assumption.
  Qed.

  Lemma clean_no_nl q w : clean q w -> no_nl w.
  Proof. intros H Hin. apply H in Hin. destruct Hin. congruence. Qed.

  #[local] Opaque show_num show_input.
  Lemma edge_line_clean q e : q = true -> clean q (edge_line e).
  Proof.
    intros ->. destruct e as [[s i] t]. unfold SpecDot.edge_line, show_id. repeat (apply clean_app); try piece true.
    apply input_clean. auto.
  Qed.

  (** The text, line by line. *)
  Lemma nfa_dot_lines k m :
    lines (nfa_to_dot printable k m) =
    [str "digraph nfa {"; [9%N] ++ str "rankdir = LR;"; []; [9%N] ++ str "// final states";
     [9%N] ++ str "node [shape = doublecircle]; " ++
       CfsmModel.join (str " ") (map (fun s => show_id (st_id s)) (filter st_fin (nfa_states m)));
     [9%N] ++ str "node [shape = circle]; 0;"; []] ++
    match all_edges k m with [] => [[]] | es => map (fun e => [9%N] ++ edge_line e) es end ++ [str "}"].
  Proof.
    unfold nfa_to_dot. cbv zeta. unfold newline at 1 2 3 4 5 6 7 9. unfold tab at 1 2 3 4 5.
    rewrite transition_dot_lines, map_map.
    assert (Hn : forall w, forallb (fun c => negb (c =? 10)%N && (true || negb (c =? 34)%N)) w = true -> no_nl w).
    { intros w H. eapply clean_no_nl, clean_forallb, H. }
    rewrite !app_assoc_reverse. cbn [app].
    rewrite (lines_cut (str "digraph nfa {")) by (apply Hn; reflexivity).
    rewrite (lines_tab (str "rankdir = LR;")) by (apply Hn; reflexivity).
    match goal with |- context[lines (10%N :: ?b)] => change (lines (10%N :: b)) with ([] :: lines b) end.
    rewrite (lines_tab (str "// final states")) by (apply Hn; reflexivity).
    match goal with |- context[str "node [shape = doublecircle]; " ++ ?j ++ 10%N :: ?b] =>
      rewrite (app_assoc (str "node [shape = doublecircle]; ") j (10%N :: b)) end.
    rewrite lines_tab.
    2: { apply (clean_no_nl true), clean_app; [apply clean_forallb; reflexivity|].
         apply clean_join; [apply clean_forallb; reflexivity|]. intros x Hx. apply in_map_iff in Hx. destruct Hx as (st & <- & _).
         apply clean_weaken, num_clean. }
    rewrite (lines_tab (str "node [shape = circle]; 0;")) by (apply Hn; reflexivity).
    match goal with |- context[lines (10%N :: ?b)] => change (lines (10%N :: b)) with ([] :: lines b) end.
    rewrite lines_join.
    2: { intros x Hx. apply in_map_iff in Hx. destruct Hx as (e & <- & _). intros [H|H]; [discriminate|]. revert H.
         apply (clean_no_nl true), edge_line_clean. reflexivity. }
    destruct (all_edges k m); reflexivity.
  Qed.
  (** ** Quotes *)

  (** The text does not change how quotes after it are read. *)
  Definition neutral (w : list char) : Prop := forall b, open_quotes false (w ++ b) = open_quotes false b.

  Lemma neutral_app a b : neutral a -> neutral b -> neutral (a ++ b).
  Proof. intros Ha Hb c. rewrite <- app_assoc, Ha, Hb. reflexivity. Qed.
  Lemma neutral_nil : neutral [].
  Proof. intros b. reflexivity. Qed.
  Lemma neutral_cons c w : c <> 92%N -> c <> 34%N -> neutral w -> neutral (c :: w).
  Proof.
    intros H1 H2 H b. cbn [app open_quotes]. destruct (N.eqb_spec c 92); [contradiction|].
    destruct (N.eqb_spec c 34); [contradiction|]. apply H.
  Qed.
  Lemma neutral_plain w : forallb (fun c => negb (c =? 92)%N && negb (c =? 34)%N) w = true -> neutral w.
  Proof.
    induction w as [|c w IH]; cbn; intros H; [apply neutral_nil|]. apply andb_true_iff in H. destruct H as [H1 H2].
    apply andb_true_iff in H1. destruct H1 as [H0 H1]. apply negb_true_iff, N.eqb_neq in H0, H1. apply neutral_cons; auto.
  Qed.

  Lemma neutral_dec fuel : forall n acc, neutral acc -> neutral (dec_digits fuel n acc).
  Proof.
    induction fuel as [|fuel IH]; intros n acc H; cbn [dec_digits]; [assumption|].
    assert (H' : neutral ((48 + n mod 10)%N :: acc)).
    { pose proof (N.mod_lt n 10 ltac:(discriminate)) as Hd. revert Hd. generalize (n mod 10)%N. intros d Hd.
      apply neutral_cons; try assumption; lia. }
    destruct (n <? 10)%N; [assumption|]. apply IH. assumption.
  Qed.
  Lemma neutral_hex fuel : forall n acc, neutral acc -> neutral (hex_digits fuel n acc).
  Proof.
    induction fuel as [|fuel IH]; intros n acc H; cbn [hex_digits]; [assumption|].
    assert (H' : neutral ((if (n mod 16 <? 10)%N then 48 + n mod 16 else 87 + n mod 16)%N :: acc)).
    { pose proof (N.mod_lt n 16 ltac:(discriminate)) as Hd. revert Hd. generalize (n mod 16)%N. intros d Hd.
      destruct (N.ltb_spec d 10); apply neutral_cons; try assumption; lia. }
    destruct (n <? 16)%N; [assumption|]. apply IH. assumption.
  Qed.
  #[local] Transparent show_num show_input.
  Lemma neutral_num n : neutral (show_num n).
  Proof. apply neutral_dec, neutral_nil. Qed.

  Lemma neutral_char c : c <> 34%N -> neutral (show_char printable c).
  Proof.
    intros Hq. unfold show_char.
    apply neutral_app; [apply neutral_plain; reflexivity|].
    apply neutral_app; [|apply neutral_plain; reflexivity].
    repeat match goal with |- context[if (c =? ?n)%N then _ else _] =>
      destruct (N.eqb_spec c n); [subst; intros b; reflexivity|] end.
    destruct (printable c).
    - apply neutral_cons; auto. apply neutral_nil.
    - apply neutral_app; [intros b; reflexivity|]. apply neutral_app; [|apply neutral_plain; reflexivity].
      apply neutral_hex, neutral_nil.
  Qed.

  Lemma neutral_join sep l : neutral sep -> (forall x, In x l -> neutral x) -> neutral (CfsmModel.join sep l).
  Proof.
    intros Hs. induction l as [|x r IH]; intros H; cbn; [apply neutral_nil|].
    destruct r as [|y r]; [apply H; left; reflexivity|].
    apply neutral_app; [apply H; left; reflexivity|]. apply neutral_app; [assumption|]. apply IH. intros z Hz. apply H. right. assumption.
  Qed.

  Lemma neutral_class k : neutral (show_class k).
  Proof. destruct k; apply neutral_plain; reflexivity. Qed.
  #[local] Opaque show_char show_num show_class CfsmModel.join.
  Ltac bits := repeat match goal with |- neutral (_ ++ _) => apply neutral_app end; try apply neutral_num; try apply neutral_class; try (apply neutral_plain; reflexivity).
  Lemma neutral_quant u : neutral (show_quant u).
  Proof. destruct u; cbn [show_quant]; bits. Qed.
  Lemma neutral_glit g : glit_free 34%N g -> neutral (show_glit printable g).
  Proof. intros H. destruct g as [c|k|a b]; cbn [show_glit glit_free] in *; bits; apply neutral_char; tauto. Qed.
  #[local] Opaque show_quant show_glit.
  Lemma neutral_input i : input_free 34%N i -> neutral (show_input printable i).
  Proof.
    intros H. destruct i as [[c|k|neg ls]| |u]; cbn [show_input show_lit input_free] in *; bits; try apply neutral_quant.
    - apply neutral_char. assumption.
    - destruct neg; apply neutral_plain; reflexivity.
    - apply neutral_join; [apply neutral_plain; reflexivity|]. intros x Hx. apply in_map_iff in Hx.
      destruct Hx as (g & <- & Hg). apply neutral_glit, H, Hg.
  Qed.
  #[local] Transparent show_char show_num show_class CfsmModel.join show_quant show_glit.

  Lemma edge_line_quotes s i t : input_free 34%N i -> open_quotes false (edge_line (s, i, t)) = 2.
  Proof.
    intros H. unfold SpecDot.edge_line, show_id.
    rewrite (neutral_num (N.of_nat s)), (neutral_plain (str " -> ") eq_refl), (neutral_num (N.of_nat t)),
      (neutral_plain (str " [label = ") eq_refl).
    cbn [app open_quotes N.eqb Pos.eqb]. rewrite (neutral_input i H). reflexivity.
  Qed.

  Lemma nfa_dot_exact k m : built m -> exists es, NoDup es /\ (forall s i t, In (s, i, t) es <-> transition m s i t) /\
    lines (nfa_to_dot printable k m) =
    [str "digraph nfa {"; [9%N] ++ str "rankdir = LR;"; []; [9%N] ++ str "// final states";
     [9%N] ++ str "node [shape = doublecircle]; " ++
       CfsmModel.join (str " ") (map (fun s => show_id (st_id s)) (filter st_fin (nfa_states m)));
     [9%N] ++ str "node [shape = circle]; 0;"; []] ++
    match es with [] => [[]] | _ => map (fun e => [9%N] ++ edge_line e) es end ++ [str "}"].
  Proof.
    intros Hb. exists (all_edges k m). split; [apply all_edges_nodup, built_dup_free; assumption|].
    split; [intros s i t; apply all_edges_in|]. rewrite nfa_dot_lines. destruct (all_edges k m); reflexivity.
  Qed.
  Lemma quote_open {env : Env} k : printable 34%N = true ->
    exists e m l, regex_parse [34%N] = Val (ParseOk e) /\ nfa_from e = Val m /\ In l (lines (nfa_to_dot printable k m)) /\ open_quotes false l = 3.
  Proof.
    intros Hp. eexists. eexists. exists ([9%N] ++ edge_line (0, ILit (LMatch 34%N), 1)).
    split; [reflexivity|]. split; [reflexivity|].
    match goal with |- In _ (lines (nfa_to_dot _ _ ?m)) /\ _ => set (m0 := m) end. split.
    - rewrite nfa_dot_lines. apply in_app_iff. right. apply in_app_iff. left.
      assert (Hi : In (0, ILit (LMatch 34%N), 1) (all_edges k m0)).
      { apply all_edges_in. eexists. eexists. split; [left; reflexivity|]. split; [reflexivity|]. split; [left; reflexivity|].
        left. reflexivity. }
      destruct (all_edges k m0) as [|x l] eqn:El; [destruct Hi|].
      apply (in_map (fun e => [9%N] ++ edge_line e)) in Hi. exact Hi.
    - unfold SpecDot.edge_line, show_input, show_lit, show_char. cbn [N.eqb Pos.eqb]. rewrite Hp. vm_compute. reflexivity.
  Qed.
End Nfa.

(** ** The LR automaton *)

Section CfsmDot.
  Import GrammarModel CfsmModel SpecCfg GrammarProofs CfsmProofs CfsmCorrect.
  Context {V T : Type} {dv : DecEq V} {dt : DecEq T} {ho : HashOrder} (show_v : V -> list char) (show_t : T -> list char).

  Definition all_goes (k : nat) (c : cfsm V T) : list (nat * symbol V T * nat) :=
    flat_map (fun st => map (fun e => (cs_id st, fst e, snd e)) (hash_at [cs_id st; 1; k] (cs_trans st))) (cf_states c).

  Lemma all_goes_in k c s x t : In (s, x, t) (all_goes k c) <-> goes c s x t.
  Proof.
    unfold all_goes, goes. rewrite in_flat_map. split.
    - intros (st & Hst & H). apply in_map_iff in H. destruct H as ([y u] & [= <- <- <-] & H). apply in_hash_at in H. eauto.
    - intros (st & Hst & <- & H). exists st. split; [assumption|]. apply in_map_iff. exists (x, t). split; [reflexivity|].
      apply in_hash_at. assumption.
  Qed.

  Lemma all_goes_nodup k g c : cfsm_ok g c -> NoDup (all_goes k c).
  Proof.
    intros Hc. unfold all_goes. apply (nodup_flat_map _ cs_id (fun e => fst (fst e))).
    - apply (ids_nodup g c Hc).
    - intros st Hst. destruct (ok_trans _ _ Hc st Hst) as (Hn & _).
      apply (NoDup_map_inv (fun e => snd (fst e))). rewrite map_map. cbn.
      apply (Permutation_NoDup (l := map fst (cs_trans st))); [|assumption]. apply Permutation_map. symmetry. apply hash_at_perm.
    - intros st [[s x] t] Hin. apply in_map_iff in Hin. destruct Hin as (u & [= <- <- <-] & _). reflexivity.
  Qed.

  Lemma cfsm_dot_exact g fuel p c k : built g -> from_grammar fuel p g = Val c ->
    exists es its,
      NoDup es /\ (forall s x t, In (s, x, t) es <-> goes c s x t) /\
      Forall2 (fun st l => NoDup l /\ forall it, In it l <-> In it (cs_items st)) (cf_states c) its /\
      cfsm_to_dot show_v show_t k c =
      str "digraph cfsm {" ++ [10; 9]%N ++ str "rankdir=LR;" ++ [10; 10; 9]%N ++ str "node [shape=rectangle];" ++ [10%N] ++
      concat (map (fun e => [9%N] ++ node_line show_v show_t (cs_id (fst e)) (snd e) ++ [10%N]) (combine (cf_states c) its)) ++
      [10; 10]%N ++
      concat (map (fun e => [9%N] ++ goes_line show_v show_t e ++ [10%N]) es) ++ [10%N] ++ str "}".
  Proof.
    intros Hb Hf. assert (Hc : cfsm_ok g c) by (eapply from_grammar_answer; eassumption).
    exists (all_goes k c), (map (fun st => hash_at [cs_id st; 0; k] (cs_items st)) (cf_states c)).
    split; [eapply all_goes_nodup; eassumption|]. split; [intros; apply all_goes_in|]. split.
    - assert (H : forall st, In st (cf_states c) -> NoDup (cs_items st)).
      { intros st Hst. apply (ok_items _ _ Hc st Hst). }
      revert H. generalize (cf_states c) as l. induction l as [|st l IH]; intros H; cbn; constructor.
      + split; [|intros it; apply in_hash_at]. eapply Permutation_NoDup; [symmetry; apply hash_at_perm|]. apply H. left. reflexivity.
      + apply IH. intros x Hx. apply H. right. assumption.
    - unfold cfsm_to_dot, newline, tab. cbn [app].
      assert (E1 : map (fun e => 9%N :: node_line show_v show_t (cs_id (fst e)) (snd e) ++ [10%N])
                    (combine (cf_states c) (map (fun st => hash_at [cs_id st; 0; k] (cs_items st)) (cf_states c)))
                 = map (fun x => 9%N :: x ++ [10%N]) (node_labels_dot show_v show_t k c)).
      { unfold node_labels_dot. rewrite map_map. generalize (cf_states c) as l. induction l as [|st l IH]; [reflexivity|].
        cbn [map combine]. f_equal. exact IH. }
      assert (E2 : map (fun e => 9%N :: goes_line show_v show_t e ++ [10%N]) (all_goes k c)
                 = map (fun x => 9%N :: x ++ [10%N]) (transitions_dot show_v show_t k c)).
      { unfold transitions_dot, all_goes. rewrite !map_flat_map. apply flat_map_ext. intros st. rewrite !map_map. reflexivity. }
      rewrite E1, E2. reflexivity.
  Qed.
End CfsmDot.
