(** Proofs about the regex tokenizer. *)
From Coq Require Import DecimalN DecimalPos.
From Verif Require Import Base RegexModel SpecRegex.

Section TokProofs.
  Context {env : Env}.

  Lemma enumerate_length : forall w p, length (enumerate p w) = length w.
  Proof. induction w; intros; cbn; auto. Qed.

  Lemma enumerate_app : forall u w p, enumerate p (u ++ w) = enumerate p u ++ enumerate (p + length u) w.
  Proof.
    induction u as [|c u IH]; intros w p; cbn.
    - rewrite Nat.add_0_r. reflexivity.
    - rewrite IH. replace (S p + length u) with (p + S (length u)) by lia. reflexivity.
  Qed.

  (** ** Position invariant *)

  (** [s] has consumed [u] of [u ++ w'], the text starting at position [p], and
      [current] is the last character of [u] ... *)
  Definition live (p : nat) (w : list char) (s : tstate) : Prop :=
    exists u c w', w = u ++ [c] ++ w' /\
      ts_rest s = enumerate (p + length u + 1) w' /\
      ts_cur s = Some (Some (p + length u, c)).
  (** ... or it ran into the end of the text. *)
  Definition dead (s : tstate) : Prop := ts_rest s = [] /\ ts_cur s = Some None.

  Lemma next_live p w s :
    live p w s ->
    (exists q c, fst (ts_next s) = Some (q, c) /\ live p w (snd (ts_next s))) \/
    (fst (ts_next s) = None /\ dead (snd (ts_next s))).
  Proof.
    intros (u & c & w' & Hw & Hr & Hc). unfold ts_next. rewrite Hr.
    destruct w' as [|d w'']; cbn.
    - right. repeat split; reflexivity.
    - left. exists (p + length u + 1), d. split; [reflexivity|].
      exists (u ++ [c]), d, w''. repeat split.
      + rewrite Hw, <- app_assoc. reflexivity.
      + cbn. rewrite app_length; cbn. f_equal. lia.
      + cbn. rewrite app_length; cbn. do 3 f_equal. lia.
  Qed.

  Lemma take_live f : forall w' p w u c cur,
    w = u ++ [c] ++ w' -> cur = Some (Some (p + length u, c)) ->
    live p w (snd (take_map_while f (enumerate (p + length u + 1) w') cur)).
  Proof.
    induction w' as [|d w' IH]; intros p w u c cur Hw Hc; cbn.
    - exists u, c, []. repeat split; assumption.
    - destruct (f d) as [x|].
      + destruct (take_map_while f (enumerate (S (p + length u + 1)) w') (Some (Some (p + length u + 1, d))))
          as [ds s] eqn:E. cbn.
        specialize (IH p w (u ++ [c]) d (Some (Some (p + length u + 1, d)))).
        rewrite app_length in IH; cbn in IH.
        replace (p + (length u + 1) + 1) with (S (p + length u + 1)) in IH by lia.
        rewrite E in IH. apply IH.
        * rewrite Hw, <- app_assoc. reflexivity.
        * do 3 f_equal. lia.
      + exists u, c, (d :: w'). repeat split; cbn; assumption.
  Qed.

  Lemma ts_take_live f p w s : live p w s -> live p w (snd (ts_take f s)).
  Proof.
    intros (u & c & w' & Hw & Hr & Hc). unfold ts_take. rewrite Hr, Hc.
    apply (take_live f w' p w u c); auto.
  Qed.

  (** Result of a handler: still live, or ran into the end with [bad]. *)
  Definition hres {A} (bad : A) (p : nat) (w : list char) (r : A * tstate) : Prop :=
    live p w (snd r) \/ (dead (snd r) /\ fst r = bad).

  Ltac nxt H s o :=
    let N := fresh "N" in
    destruct (next_live _ _ _ H) as [(?q & ?c & N & ?L)|[N ?D]];
    destruct (ts_next s) as [o ?s'] eqn:?E; cbn [fst snd] in *; subst o.

  Lemma take_hex_live st p w s : live p w s -> live p w (snd (take_hex st s)).
  Proof.
    intros H. unfold take_hex.
    destruct (match st with Some d => (1, d) | None => (0, 0%N) end) as [cnt n].
    pose proof (ts_take_live to_digit16 p w s H) as L.
    destruct (ts_take to_digit16 s) as [ds s']; exact L.
  Qed.

  Lemma handle_control_res p w s : live p w s -> hres None p w (handle_control s).
  Proof.
    intros H. unfold handle_control, hres.
    destruct (next_live _ _ _ H) as [(q & c & N & L)|[N D]];
      destruct (ts_next s) as [o s']; cbn [fst snd] in *; subst o.
    - destruct (_ || _); left; exact L.
    - right; auto.
  Qed.

  Lemma handle_x_res p w s : live p w s -> hres None p w (handle_x s).
  Proof.
    intros H. unfold handle_x, hres. pose proof (take_hex_live None p w s H) as L.
    destruct (take_hex None s) as [[cnt n] s']; cbn [snd] in L.
    destruct (cnt =? 2); left; exact L.
  Qed.

  Lemma handle_u_res p w s : live p w s -> hres None p w (handle_u s).
  Proof.
    intros H. unfold handle_u, hres.
    destruct (next_live _ _ _ H) as [(q & c & N & L)|[N D]];
      destruct (ts_next s) as [o s1]; cbn [fst snd] in *; subst o; [|right; auto].
    destruct (c =? _)%N.
    - pose proof (take_hex_live None p w s1 L) as L2.
      destruct (take_hex None s1) as [[cnt n] s2]; cbn [snd] in L2.
      destruct (cnt <? 4); [left; exact L2|].
      destruct (next_live _ _ _ L2) as [(q3 & c3 & N3 & L3)|[N3 D3]];
        destruct (ts_next s2) as [o3 s3]; cbn [fst snd] in *; subst o3; [|right; auto].
      destruct (c3 =? _)%N; left; exact L3.
    - destruct (to_digit16 c) as [d|]; [|left; exact L].
      pose proof (take_hex_live (Some d) p w s1 L) as L2.
      destruct (take_hex (Some d) s1) as [[cnt n] s2]; cbn [snd] in L2.
      left; exact L2.
  Qed.

  Lemma hres_match p w r :
    hres None p w r -> hres TInvalid p w (match_or_invalid (fst r), snd r).
  Proof. intros [H|[H1 H2]]; [left; exact H|right; split; [exact H1|rewrite H2; reflexivity]]. Qed.

  Lemma handle_escape_res p w s : live p w s -> hres TInvalid p w (handle_escape s).
  Proof.
    intros H. unfold handle_escape.
    destruct (next_live _ _ _ H) as [(q & c & N & L)|[N D]];
      destruct (ts_next s) as [o s1]; cbn [fst snd] in *; subst o; [|right; auto].
    destruct (class_of c); [left; exact L|].
    destruct (simple_escape c); [left; exact L|].
    destruct (c =? _)%N.
    { pose proof (hres_match p w _ (handle_control_res p w s1 L)) as R.
      destruct (handle_control s1); exact R. }
    destruct (c =? _)%N.
    { pose proof (hres_match p w _ (handle_x_res p w s1 L)) as R.
      destruct (handle_x s1); exact R. }
    destruct (c =? _)%N.
    { pose proof (hres_match p w _ (handle_u_res p w s1 L)) as R.
      destruct (handle_u s1); exact R. }
    left; exact L.
  Qed.

  Lemma take_dec_live d p w s v s' : live p w s -> take_dec d s = Val (v, s') -> live p w s'.
  Proof.
    intros H E. unfold take_dec in E. pose proof (ts_take_live to_digit10 p w s H) as L.
    destruct (ts_take to_digit10 s) as [ds s1]; cbn [snd] in L.
    destruct (fold_left dec_step ds (Val (Some d))); cbn in E; try discriminate.
    injection E as <- <-. exact L.
  Qed.

  Lemma handle_range_res p w s r : live p w s -> handle_range s = Val r -> hres TInvalid p w r.
  Proof.
    intros H. unfold handle_range.
    destruct (next_live _ _ _ H) as [(q & c & N & L)|[N D]];
      destruct (ts_next s) as [o s1]; cbn [fst snd] in *; subst o;
      [|intros [= <-]; right; auto].
    destruct (to_digit10 c) as [d|]; [|intros [= <-]; left; exact L].
    destruct (take_dec d s1) as [[first s2]| |] eqn:E1; cbn [bind]; try discriminate.
    pose proof (take_dec_live _ _ _ _ _ _ L E1) as L2.
    destruct (next_live _ _ _ L2) as [(q3 & c3 & N3 & L3)|[N3 D3]];
      destruct (ts_next s2) as [o3 s3]; cbn [fst snd] in *; subst o3;
      [|intros [= <-]; right; auto].
    assert (Hdone : forall (o4 : option (nat * char)) s4 (comma : bool),
      (exists q4 c4, o4 = Some (q4, c4) /\ live p w s4) \/ (o4 = None /\ dead s4) ->
      match o4 with
      | None => Val (TInvalid, s4)
      | Some (_, ch) =>
          if (ch =? $"}")%N then
            match first with
            | None => Val (TInvalid, s4)
            | Some v => Val (TQuant (if comma then QMin v else QMax v), s4)
            end
          else
            match to_digit10 ch with
            | None => Val (TInvalid, s4)
            | Some d2 =>
                let! (second, s5) := take_dec d2 s4 in
                let '(o6, s6) := ts_next s5 in
                match o6 with
                | None => Val (TInvalid, s6)
                | Some (_, ch) =>
                    if (ch =? $"}")%N then
                      match first, second with
                      | Some a, Some b => Val (TQuant (QRange a b), s6)
                      | _, _ => Val (TInvalid, s6)
                      end
                    else Val (TInvalid, s6)
                end
            end
      end = Val r -> hres TInvalid p w r).
    { intros o4 s4 comma [(q4 & c4 & -> & L4)|[-> D4]]; [|intros [= <-]; right; auto].
      destruct (c4 =? _)%N.
      { destruct first; intros [= <-]; left; exact L4. }
      destruct (to_digit10 c4) as [d2|]; [|intros [= <-]; left; exact L4].
      destruct (take_dec d2 s4) as [[second s5]| |] eqn:E5; cbn [bind]; try discriminate.
      pose proof (take_dec_live _ _ _ _ _ _ L4 E5) as L5.
      destruct (next_live _ _ _ L5) as [(q6 & c6 & N6 & L6)|[N6 D6]];
        destruct (ts_next s5) as [o6 s6]; cbn [fst snd] in *; subst o6;
        [|intros [= <-]; right; auto].
      destruct (c6 =? _)%N; [destruct first, second|]; intros [= <-]; left; exact L6. }
    destruct (c3 =? _)%N.
    - destruct (next_live _ _ _ L3) as [(q4 & c4 & N4 & L4)|[N4 D4]];
        destruct (ts_next s3) as [o4 s4]; cbn [fst snd] in *; subst o4.
      + apply (Hdone (Some (q4, c4)) s4 true). left. eauto.
      + apply (Hdone None s4 true). right. auto.
    - apply (Hdone (Some (q3, c3)) s3 false). left. eauto.
  Qed.

  Lemma token_kind_at_res ch p w s r :
    live p w s -> token_kind_at ch s = Val r -> hres TInvalid p w r.
  Proof.
    intros H. unfold token_kind_at.
    destruct (ch =? _)%N.
    { intros [= <-]. apply handle_escape_res; assumption. }
    destruct (ch =? _)%N; [intros [= <-]; left; exact H|].
    destruct (op_of ch); [intros [= <-]; left; exact H|].
    destruct (ch =? _)%N; [intros [= <-]; left; exact H|].
    destruct (ch =? _)%N; [intros [= <-]; left; exact H|].
    destruct (ch =? _)%N; [intros [= <-]; left; exact H|].
    destruct (ch =? _)%N; [apply handle_range_res; assumption|intros [= <-]; left; exact H].
  Qed.

  (** One token: it starts at the current position, takes a non-empty piece of
      the text and ends where it stopped; or it is [Invalid], took the whole
      rest and reports the end position 1. *)
  Lemma tok_next_res p w cur :
    match w with
    | [] => exists s', tok_next {| ts_rest := enumerate p w; ts_cur := cur |} = Val (None, s')
    | _ :: _ =>
        tok_next {| ts_rest := enumerate p w; ts_cur := cur |} = Panic \/
        exists k e s' u w',
          tok_next {| ts_rest := enumerate p w; ts_cur := cur |}
            = Val (Some {| tk_kind := k; tk_pos := (p, e) |}, s') /\
          w = u ++ w' /\ u <> [] /\ ts_rest s' = enumerate (p + length u) w' /\
          (e = p + length u \/ (e = 1 /\ w' = [] /\ k = TInvalid))
    end.
  Proof.
    destruct w as [|c w]; cbn; [eexists; reflexivity|].
    unfold tok_next, ts_next; cbn.
    destruct (token_kind_at c {| ts_rest := enumerate (S p) w; ts_cur := Some (Some (p, c)) |}) as [[k s2]| |] eqn:E;
      cbn; auto.
    - right.
      assert (L : live p (c :: w) {| ts_rest := enumerate (S p) w; ts_cur := Some (Some (p, c)) |}).
      { exists [], c, w. repeat split; cbn; [f_equal; lia|do 3 f_equal; lia]. }
      destruct (token_kind_at_res _ _ _ _ _ L E) as [(u & d & w' & Hw & Hr & Hc)|[[Hr Hc] Hk]]; cbn in *.
      + exists k, (token_end s2), s2, (u ++ [d]), w'. repeat split; auto.
        * rewrite Hw, <- app_assoc. reflexivity.
        * destruct u; discriminate.
        * rewrite Hr, app_length; cbn. f_equal; lia.
        * left. unfold token_end. rewrite Hc, app_length; cbn. lia.
      + exists k, (token_end s2), s2, (c :: w), []. repeat split; auto.
        * rewrite app_nil_r. reflexivity.
        * discriminate.
        * right. unfold token_end. rewrite Hc. auto.
    - (* the tokenizer never diverges *)
      exfalso. revert E. unfold token_kind_at, handle_range, take_dec.
      assert (HF : forall ds a, a <> Diverge -> fold_left dec_step ds a <> Diverge).
      { induction ds as [|d ds IH]; intros a Ha; cbn; [exact Ha|].
        apply IH. destruct a as [[n|]| |]; cbn; try congruence.
        destruct (_ <? _)%N; [|discriminate].
        destruct (_ <? _)%N; [discriminate|]. destruct overflow_checks; discriminate. }
      repeat (match goal with
      | |- context [fold_left dec_step ?ds (Val (Some ?d))] =>
          let F := fresh "F" in
          assert (F := HF ds (Val (Some d)) ltac:(discriminate));
          destruct (fold_left dec_step ds (Val (Some d))); [|discriminate|congruence]
      | |- context [match ?x with _ => _ end] => destruct x
      end; cbn [bind]); try discriminate.
  Qed.

  (** ** Streams *)

  Lemma rest_length s : length (ts_rest s) = length (map snd (ts_rest s)).
  Proof. rewrite map_length. reflexivity. Qed.

  Lemma tok_stream_fuel : forall w p cur f1 f2,
    length w < f1 -> length w < f2 ->
    tok_stream f1 {| ts_rest := enumerate p w; ts_cur := cur |} =
    tok_stream f2 {| ts_rest := enumerate p w; ts_cur := cur |}.
  Proof.
    intros w. remember (length w) as n eqn:Hn. revert w Hn.
    induction n as [n IH] using lt_wf_ind. intros w -> p cur f1 f2 H1 H2.
    destruct f1 as [|f1]; [lia|]. destruct f2 as [|f2]; [lia|]. cbn.
    pose proof (tok_next_res p w cur) as R. destruct w as [|c w].
    - destruct R as (s' & ->). reflexivity.
    - destruct R as [->|(k & e & s' & u & w' & -> & Hw & Hu & Hr & _)]; [reflexivity|].
      f_equal. destruct s' as [r cu]; cbn in Hr; subst r.
      assert (Hl : length w' < length (c :: w)).
      { rewrite Hw, app_length. destruct u; [congruence|cbn; lia]. }
      apply (IH (length w') Hl w' eq_refl); lia.
  Qed.

  Lemma tok_stream_length : forall w p cur f,
    length (tok_stream f {| ts_rest := enumerate p w; ts_cur := cur |}) <= length w.
  Proof.
    intros w. remember (length w) as n eqn:Hn. revert w Hn.
    induction n as [n IH] using lt_wf_ind. intros w -> p cur f.
    destruct f as [|f]; cbn; [lia|].
    pose proof (tok_next_res p w cur) as R. destruct w as [|c w].
    - destruct R as (s' & ->). cbn; lia.
    - destruct R as [->|(k & e & s' & u & w' & -> & Hw & Hu & Hr & _)]; [cbn; lia|].
      destruct s' as [r cu]; cbn in Hr; subst r.
      assert (Hl : length w' < length (c :: w)).
      { rewrite Hw, app_length. destruct u; [congruence|cbn; lia]. }
      pose proof (IH (length w') Hl w' eq_refl (p + length u) cu f). cbn in *. lia.
  Qed.

  (** ** Spans *)

  (** The tokens [l] tile the text [w] from position [p]: each starts where
      the previous ended, takes at least one character, and the last ends at the
      end of the text.  [lost] allows the last token to be an [Invalid] one whose
      reported end is 1. *)
  Inductive tiles (lost : bool) : nat -> nat -> list titem -> Prop :=
  | tiles_nil p : tiles lost p p []
  | tiles_panic p n : p < n -> tiles lost p n [TokPanic]
  | tiles_tok p e n k l : p < e -> e <= n -> tiles lost e n l ->
      tiles lost p n (Tok {| tk_kind := k; tk_pos := (p, e) |} :: l)
  | tiles_lost p n : lost = true -> p < n ->
      tiles lost p n [Tok {| tk_kind := TInvalid; tk_pos := (p, 1) |}].

  Lemma tok_stream_tiles : forall w p cur f,
    length w < f ->
    tiles true p (p + length w) (tok_stream f {| ts_rest := enumerate p w; ts_cur := cur |}).
  Proof.
    intros w. remember (length w) as n eqn:Hn. revert w Hn.
    induction n as [n IH] using lt_wf_ind. intros w -> p cur f Hf.
    destruct f as [|f]; [lia|]. cbn.
    pose proof (tok_next_res p w cur) as R. destruct w as [|c w].
    - destruct R as (s' & ->). cbn. rewrite Nat.add_0_r. constructor.
    - destruct R as [->|(k & e & s' & u & w' & -> & Hw & Hu & Hr & He)].
      { constructor. cbn; lia. }
      destruct s' as [r cu]; cbn in Hr; subst r.
      assert (Hl : length (c :: w) = length u + length w') by (rewrite Hw, app_length; reflexivity).
      assert (Hu' : 0 < length u) by (destruct u; [congruence|cbn; lia]).
      destruct He as [->|(-> & -> & ->)].
      + apply tiles_tok; [lia|lia|].
        rewrite Hl, Nat.add_assoc. apply (IH (length w')); [lia|reflexivity|lia].
      + assert (Hs : tok_stream f {| ts_rest := enumerate (p + length u) []; ts_cur := cu |} = []).
        { destruct f; reflexivity. }
        rewrite Hs. apply tiles_lost; [reflexivity|lia].
  Qed.
End TokProofs.
