(** Proofs about the tokens of specific texts: numbers, escapes, printed
    regexes. *)
From Coq Require Import DecimalN DecimalPos.
From Verif Require Import Base RegexModel SpecRegex RegexTokProofs.

Section PrintProofs.
  Context {env : Env}.

  Lemma st_eq a b w cur : a = b ->
    {| ts_rest := enumerate a w; ts_cur := cur |} = {| ts_rest := enumerate b w; ts_cur := cur |}.
  Proof. intros ->. reflexivity. Qed.

  (** ** Kinds do not depend on positions *)

  Definition same_rest (s s' : tstate) : Prop := map snd (ts_rest s) = map snd (ts_rest s').
  Definition same_res {A} (r r' : A * tstate) : Prop := fst r = fst r' /\ same_rest (snd r) (snd r').
  Definition same_out {A} (r r' : res (A * tstate)) : Prop :=
    match r, r' with
    | Val a, Val a' => same_res a a'
    | Panic, Panic => True
    | Diverge, Diverge => True
    | _, _ => False
    end.

  Lemma next_same s s' : same_rest s s' ->
    option_map snd (fst (ts_next s)) = option_map snd (fst (ts_next s')) /\
    same_rest (snd (ts_next s)) (snd (ts_next s')).
  Proof.
    unfold same_rest, ts_next. destruct (ts_rest s) as [|[p c] r], (ts_rest s') as [|[p' c'] r']; cbn;
      intros H; try discriminate; auto. injection H as -> H. auto.
  Qed.

  Lemma take_same f : forall r r' cur cur', map snd r = map snd r' ->
    same_res (take_map_while f r cur) (take_map_while f r' cur').
  Proof.
    unfold same_res, same_rest.
    induction r as [|[p c] r IH]; intros [|[p' c'] r'] cur cur' H; cbn in *; try discriminate; auto.
    injection H as -> H. destruct (f c') as [d|]; cbn.
    - specialize (IH r' (Some (Some (p, c'))) (Some (Some (p', c'))) H).
      destruct (take_map_while f r _) as [ds s], (take_map_while f r' _) as [ds' s']; cbn in *.
      destruct IH as [-> IH]; auto.
    - rewrite H. auto.
  Qed.

  Lemma ts_take_same f s s' : same_rest s s' -> same_res (ts_take f s) (ts_take f s').
  Proof. apply take_same. Qed.

  Ltac step_next H :=
    let N1 := fresh "N" in let N2 := fresh "R" in
    destruct (next_same _ _ H) as [N1 N2];
    match type of N2 with
    | same_rest (snd (ts_next ?s)) (snd (ts_next ?s')) =>
        destruct (ts_next s) as [[[? ?]|] ?], (ts_next s') as [[[? ?]|] ?];
        cbn [fst snd option_map] in N1, N2; try discriminate; try (injection N1 as ->)
    end.

  Lemma take_hex_same st s s' : same_rest s s' -> same_res (take_hex st s) (take_hex st s').
  Proof.
    intros H. unfold take_hex.
    destruct (match st with Some d => (1, d) | None => (0, 0%N) end) as [cnt n].
    destruct (ts_take_same to_digit16 s s' H) as [H1 H2].
    destruct (ts_take to_digit16 s) as [ds s1], (ts_take to_digit16 s') as [ds' s1']; cbn in *.
    subst. split; auto.
  Qed.

  Lemma handle_control_same s s' : same_rest s s' -> same_res (handle_control s) (handle_control s').
  Proof.
    intros H. unfold handle_control, same_res. step_next H; cbn; auto.
    destruct (_ || _); cbn; auto.
  Qed.

  Lemma handle_x_same s s' : same_rest s s' -> same_res (handle_x s) (handle_x s').
  Proof.
    intros H. unfold handle_x, same_res. destruct (take_hex_same None s s' H) as [H1 H2].
    destruct (take_hex None s) as [[cnt n] s1], (take_hex None s') as [[cnt' n'] s1']; cbn [fst snd] in *.
    injection H1 as -> ->. destruct (cnt' =? 2); cbn; auto.
  Qed.

  Lemma handle_u_same s s' : same_rest s s' -> same_res (handle_u s) (handle_u s').
  Proof.
    intros H. unfold handle_u, same_res. step_next H; [|cbn; auto].
    destruct (_ =? _)%N.
    - destruct (take_hex_same None _ _ R) as [H1 H2].
      destruct (take_hex None t) as [[cnt n'] s1], (take_hex None t0) as [[cnt' n''] s1']; cbn [fst snd] in *.
      injection H1 as -> ->. destruct (cnt' <? 4); [cbn; auto|].
      step_next H2; [|cbn; auto]. destruct (_ =? _)%N; cbn; auto.
    - destruct (to_digit16 _) as [d|]; [|cbn; auto].
      destruct (take_hex_same (Some d) _ _ R) as [H1 H2].
      destruct (take_hex (Some d) t) as [[cnt n'] s1], (take_hex (Some d) t0) as [[cnt' n''] s1'];
        cbn [fst snd] in *.
      injection H1 as -> ->. auto.
  Qed.

  Lemma handle_escape_same s s' : same_rest s s' -> same_res (handle_escape s) (handle_escape s').
  Proof.
    intros H. unfold handle_escape. step_next H; [|split; auto].
    destruct (class_of _); [split; auto|].
    destruct (simple_escape _); [split; auto|].
    destruct (_ =? _)%N.
    { destruct (handle_control_same _ _ R) as [H1 H2].
      destruct (handle_control t), (handle_control t0); cbn [fst snd] in *. subst. split; auto. }
    destruct (_ =? _)%N.
    { destruct (handle_x_same _ _ R) as [H1 H2].
      destruct (handle_x t), (handle_x t0); cbn [fst snd] in *. subst. split; auto. }
    destruct (_ =? _)%N.
    { destruct (handle_u_same _ _ R) as [H1 H2].
      destruct (handle_u t), (handle_u t0); cbn [fst snd] in *. subst. split; auto. }
    split; auto.
  Qed.

  Lemma take_dec_same d s s' : same_rest s s' -> same_out (take_dec d s) (take_dec d s').
  Proof.
    intros H. unfold take_dec. destruct (ts_take_same to_digit10 s s' H) as [H1 H2].
    destruct (ts_take to_digit10 s) as [ds s1], (ts_take to_digit10 s') as [ds' s1']; cbn [fst snd] in *.
    subst ds'. destruct (fold_left dec_step ds (Val (Some d))); cbn; auto. split; auto.
  Qed.

  Lemma handle_range_same s s' : same_rest s s' -> same_out (handle_range s) (handle_range s').
  Proof.
    intros H. unfold handle_range. step_next H; [|split; auto].
    destruct (to_digit10 _) as [d|]; [|split; auto].
    pose proof (take_dec_same d _ _ R) as H1.
    destruct (take_dec d t) as [[first s2]| |], (take_dec d t0) as [[first' s2']| |]; cbn in H1; try easy.
    destruct H1 as [H1 H2]; cbn [fst snd] in *; subst first'. cbn [bind].
    step_next H2; [|split; auto].
    match goal with |- context [(?x =? $",")%N] => destruct (x =? $",")%N end.
    - step_next R0; [|split; auto].
      destruct (_ =? _)%N.
      { destruct first; split; auto. }
      destruct (to_digit10 _) as [d2|]; [|split; auto].
      pose proof (take_dec_same d2 _ _ R1) as H5.
      destruct (take_dec d2 t3) as [[second s5]| |], (take_dec d2 t4) as [[second' s5']| |]; cbn in H5; try easy.
      destruct H5 as [H5 H6]; cbn [fst snd] in *; subst second'. cbn [bind].
      step_next H6; [|split; auto].
      destruct (_ =? _)%N; [destruct first, second|]; split; auto.
    - destruct (_ =? _)%N.
      { destruct first; split; auto. }
      destruct (to_digit10 _) as [d2|]; [|split; auto].
      pose proof (take_dec_same d2 _ _ R0) as H5.
      destruct (take_dec d2 t1) as [[second s5]| |], (take_dec d2 t2) as [[second' s5']| |]; cbn in H5; try easy.
      destruct H5 as [H5 H6]; cbn [fst snd] in *; subst second'. cbn [bind].
      step_next H6; [|split; auto].
      destruct (_ =? _)%N; [destruct first, second|]; split; auto.
  Qed.

  Lemma token_kind_at_same ch s s' : same_rest s s' -> same_out (token_kind_at ch s) (token_kind_at ch s').
  Proof.
    intros H. unfold token_kind_at.
    destruct (ch =? _)%N; [apply handle_escape_same; assumption|].
    destruct (ch =? _)%N; [split; auto|].
    destruct (op_of ch); [split; auto|].
    destruct (ch =? _)%N; [split; auto|].
    destruct (ch =? _)%N; [split; auto|].
    destruct (ch =? _)%N; [split; auto|].
    destruct (ch =? _)%N; [apply handle_range_same; assumption|split; auto].
  Qed.

  Lemma enumerate_snd : forall w p, map snd (enumerate p w) = w.
  Proof. induction w; intros; cbn; f_equal; auto. Qed.

  Lemma stream_kinds_same : forall f s s', same_rest s s' ->
    stream_kinds (tok_stream f s) = stream_kinds (tok_stream f s').
  Proof.
    induction f as [|f IH]; intros s s' H; cbn; [reflexivity|].
    unfold tok_next. step_next H; [|reflexivity].
    match goal with |- context [token_kind_at ?x t] =>
      pose proof (token_kind_at_same x _ _ R) as K;
      destruct (token_kind_at x t) as [[k s2]| |], (token_kind_at x t0) as [[k' s2']| |]
    end; cbn in K; try easy.
    cbn. destruct K as [K1 K2]; cbn [fst snd] in *; subst. rewrite (IH _ _ K2). reflexivity.
  Qed.

  (** Token kinds of a text. *)
  Definition kinds_of (w : list char) : option (list token_kind) := stream_kinds (tokens_of w).

  (** [w] starts with a token of kind [k], followed by [w']. *)
  Definition tstep (w : list char) (k : token_kind) (w' : list char) : Prop :=
    length w' < length w /\
    forall p cur, exists e cur',
      tok_next {| ts_rest := enumerate p w; ts_cur := cur |} =
      Val (Some {| tk_kind := k; tk_pos := (p, e) |},
           {| ts_rest := enumerate (p + (length w - length w')) w'; ts_cur := cur' |}).

  Lemma tstep_kinds w k w' : tstep w k w' ->
    kinds_of w = match kinds_of w' with Some ks => Some (k :: ks) | None => None end.
  Proof.
    intros [Hl H]. unfold kinds_of, tokens_of, ts_init.
    destruct (H 0 None) as (e & cur' & E).
    change (tok_stream (S (length w)) {| ts_rest := enumerate 0 w; ts_cur := None |}) with
      (match tok_next {| ts_rest := enumerate 0 w; ts_cur := None |} with
       | Val (Some t, s') => Tok t :: tok_stream (length w) s'
       | Val (None, _) => []
       | _ => [TokPanic]
       end).
    rewrite E. cbn [stream_kinds tk_kind].
    rewrite (tok_stream_fuel w' _ cur' (length w) (S (length w'))) by lia.
    erewrite (stream_kinds_same (S (length w'))); [reflexivity|].
    unfold same_rest; cbn. rewrite !enumerate_snd. reflexivity.
  Qed.

  (** ** Single tokens *)

  Ltac minus_len := cbn [length app]; rewrite ?app_length; cbn [length]; f_equal; lia.

  Lemma neq_eqb (a b : N) : a <> b -> (a =? b)%N = false.
  Proof. apply N.eqb_neq. Qed.

  (** A character that is not special stands for itself. *)
  Definition plain (c : char) : Prop := ~ In c special_chars /\ c <> $"\".

  Lemma plain_at c s : plain c -> token_kind_at c s = Val (TMatch c, s).
  Proof.
    intros [H1 H2]. unfold token_kind_at, op_of. unfold special_chars in H1; cbn in H1.
    assert (forall x, In x (str "[]()^|-*+?{}."%string) -> (c =? x)%N = false) as HN.
    { intros x Hx. apply N.eqb_neq. intros ->. apply H1. cbn in Hx. exact Hx. }
    rewrite (neq_eqb _ _ H2).
    rewrite !HN by (cbn; tauto). reflexivity.
  Qed.

  Lemma tstep_plain c rest : plain c -> tstep (c :: rest) (TMatch c) rest.
  Proof.
    intros Hc. split; [cbn; lia|]. intros p cur. cbn [enumerate]. unfold tok_next, ts_next. cbn [ts_rest].
    rewrite plain_at by assumption. cbn [bind].
    eexists _, _. do 2 f_equal. replace (p + (length (c :: rest) - length rest)) with (S p) by (cbn [length]; lia).
    reflexivity.
  Qed.

  Lemma tstep_op c o rest : op_of c = Some o -> tstep (c :: rest) (TOp o) rest.
  Proof.
    intros Ho. split; [cbn; lia|]. intros p cur. cbn [enumerate]. unfold tok_next, ts_next. cbn [ts_rest].
    unfold token_kind_at. rewrite Ho.
    assert ((c =? $"\")%N = false /\ (c =? $".")%N = false) as [-> ->].
    { split; apply N.eqb_neq; intros ->; cbn in Ho; discriminate. }
    cbn [bind]. eexists _, _. do 2 f_equal.
    replace (p + (length (c :: rest) - length rest)) with (S p) by (cbn [length]; lia).
    reflexivity.
  Qed.

  Lemma tstep_quant1 c q rest :
    In (c, q) [($"*", QAsterisk); ($"+", QPlus); ($"?", QQuestion)] -> tstep (c :: rest) (TQuant q) rest.
  Proof.
    intros Hc. split; [cbn; lia|]. intros p cur. cbn [enumerate]. unfold tok_next, ts_next. cbn [ts_rest].
    replace (p + (length (c :: rest) - length rest)) with (S p) by (cbn [length]; lia).
    destruct Hc as [Hc|[Hc|[Hc|[]]]]; injection Hc as <- <-; cbn; eexists _, _; reflexivity.
  Qed.

  Lemma tstep_wild rest : tstep ($"." :: rest) (TClass CWildcard) rest.
  Proof.
    split; [cbn; lia|]. intros p cur. unfold tok_next, ts_next. cbn [enumerate ts_rest].
    replace (p + (length ($"." :: rest) - length rest)) with (S p) by (cbn [length]; lia).
    cbn. eexists _, _. reflexivity.
  Qed.

  Lemma tstep_class c k rest : class_of c = Some k -> tstep ($"\" :: c :: rest) (TClass k) rest.
  Proof.
    intros Hc. split; [cbn; lia|]. intros p cur. unfold tok_next, ts_next. cbn [enumerate ts_rest].
    replace (p + (length ($"\" :: c :: rest) - length rest)) with (S (S p)) by (cbn [length]; lia).
    cbn [token_kind_at]. unfold token_kind_at. cbn [N.eqb Pos.eqb chr Ascii.N_of_ascii].
    unfold handle_escape, ts_next. cbn -[class_of]. rewrite Hc. eexists _, _. reflexivity.
  Qed.

  Lemma tstep_escape c m rest :
    class_of c = None -> simple_escape c = Some m -> tstep ($"\" :: c :: rest) (TMatch m) rest.
  Proof.
    intros Hc Hm. split; [cbn; lia|]. intros p cur. unfold tok_next, ts_next. cbn [enumerate ts_rest].
    replace (p + (length ($"\" :: c :: rest) - length rest)) with (S (S p)) by (cbn [length]; lia).
    unfold token_kind_at, handle_escape, ts_next. cbn -[class_of simple_escape]. rewrite Hc, Hm.
    eexists _, _. reflexivity.
  Qed.

  Lemma special_escape c : In c special_chars \/ c = $"\" ->
    class_of c = None /\ simple_escape c = Some c.
  Proof.
    intros [H|H]; [cbn in H|subst; split; reflexivity].
    repeat (destruct H as [H|H]; [subst; split; reflexivity|]). destruct H.
  Qed.

  Lemma existsb_In (c : char) l : existsb (N.eqb c) l = true <-> In c l.
  Proof.
    rewrite existsb_exists. split.
    - intros (x & Hx & E). apply N.eqb_eq in E. subst. assumption.
    - intros H. exists c. split; [assumption|apply N.eqb_refl].
  Qed.

  Lemma tstep_char c rest : tstep (print_char c ++ rest) (TMatch c) rest.
  Proof.
    unfold print_char. destruct (existsb (N.eqb c) special_chars) eqn:E.
    { apply existsb_In in E. destruct (special_escape c (or_introl E)). apply tstep_escape; assumption. }
    assert (Hn : ~ In c special_chars) by (rewrite <- existsb_In, E; discriminate).
    destruct (c =? $"\")%N eqn:E1.
    { apply N.eqb_eq in E1. subst c. apply tstep_escape; reflexivity. }
    destruct (c =? 0)%N eqn:E2.
    { apply N.eqb_eq in E2. subst c. apply tstep_escape; reflexivity. }
    apply tstep_plain. split; [assumption|]. apply N.eqb_neq; assumption.
  Qed.

  Lemma tstep_class_print k rest : tstep (print_class k ++ rest) (TClass k) rest.
  Proof.
    destruct k; cbn [print_class app]; try (apply tstep_class; reflexivity). apply tstep_wild.
  Qed.

  (** ** Numbers *)

  Definition stops (f : char -> option N) (w : list char) : Prop :=
    match w with [] => True | c :: _ => f c = None end.

  Lemma take_exact f : forall us ds w' p cur,
    map f us = map Some ds -> stops f w' ->
    exists cur', take_map_while f (enumerate p (us ++ w')) cur =
                 (ds, {| ts_rest := enumerate (p + length us) w'; ts_cur := cur' |}).
  Proof.
    induction us as [|u us IH]; intros [|d ds] w' p cur H Hs; cbn in H; try discriminate.
    - cbn [app length]. rewrite Nat.add_0_r. destruct w' as [|c w']; cbn; [eexists; reflexivity|].
      cbn in Hs. rewrite Hs. eexists; reflexivity.
    - injection H as Hu H. cbn [app enumerate take_map_while length]. rewrite Hu.
      destruct (IH ds w' (S p) (Some (Some (p, u))) H Hs) as (cur' & ->).
      exists cur'. do 2 f_equal. f_equal. lia.
  Qed.

  Lemma digit_to_digit c : digit_char c -> to_digit10 c = Some (c - 48)%N.
  Proof.
    intros [H1 H2]. unfold to_digit10, is_ascii_digit.
    apply N.leb_le in H1, H2. rewrite H1, H2. reflexivity.
  Qed.

  Lemma to_digit10_none c : ~ digit_char c -> to_digit10 c = None.
  Proof.
    intros H. unfold to_digit10, is_ascii_digit. destruct (48 <=? c)%N eqn:E1, (c <=? 57)%N eqn:E2; cbn; auto.
    apply N.leb_le in E1, E2. exfalso. apply H. split; assumption.
  Qed.

  (** What the tokenizer reads for a digit string. *)
  Definition dec_read (ds : list char) : res (option N) :=
    match ds with
    | [] => Val None
    | c :: r => fold_left dec_step (map (fun c => c - 48)%N r) (Val (Some (c - 48)%N))
    end.

  Lemma take_dec_run c ds w' p cur :
    Forall digit_char ds -> stops to_digit10 w' ->
    exists cur',
      take_dec (c - 48) {| ts_rest := enumerate p (ds ++ w'); ts_cur := cur |} =
      (let! v := dec_read (c :: ds) in
       Val (v, {| ts_rest := enumerate (p + length ds) w'; ts_cur := cur' |})).
  Proof.
    intros Hd Hs. unfold take_dec, ts_take. cbn [ts_rest ts_cur].
    destruct (take_exact to_digit10 ds (map (fun c => c - 48)%N ds) w' p cur) as (cur' & E).
    - rewrite map_map. apply map_ext_in. intros a Ha. rewrite Forall_forall in Hd.
      apply digit_to_digit; auto.
    - assumption.
    - rewrite E. exists cur'. reflexivity.
  Qed.

  Definition max_token (v : option N) : token_kind :=
    match v with Some v => TQuant (QMax v) | None => TInvalid end.
  Definition min_token (v : option N) : token_kind :=
    match v with Some v => TQuant (QMin v) | None => TInvalid end.
  Definition range_token (v1 v2 : option N) : token_kind :=
    match v1, v2 with Some a, Some b => TQuant (QRange a b) | _, _ => TInvalid end.

  Definition at_pos (p : nat) (w : list char) (s : tstate) : Prop := ts_rest s = enumerate p w.

  Lemma dec_string_cons ds : dec_string ds -> exists c r, ds = c :: r /\ digit_char c /\ Forall digit_char r.
  Proof.
    intros [H1 H2]. destruct ds as [|c r]; [congruence|]. inversion H2; subst. eauto.
  Qed.

  Lemma range_max ds rest p cur :
    dec_string ds ->
    exists cur',
      handle_range {| ts_rest := enumerate p (ds ++ $"}" :: rest); ts_cur := cur |} =
      (let! v := dec_read ds in
       Val (max_token v, {| ts_rest := enumerate (p + length ds + 1) rest; ts_cur := cur' |})).
  Proof.
    intros H. destruct (dec_string_cons ds H) as (c & r & -> & Hc & Hr).
    unfold handle_range. cbn [app enumerate]. unfold ts_next at 1. cbn [ts_rest].
    rewrite (digit_to_digit c Hc).
    destruct (take_dec_run c r ($"}" :: rest) (S p) (Some (Some (p, c))) Hr) as (cur' & ->).
    { reflexivity. }
    destruct (dec_read (c :: r)) as [v| |]; cbn [bind]; try (exists None; reflexivity).
    unfold ts_next. cbn [enumerate ts_rest]. cbn -[enumerate].
    eexists. destruct v as [v|]; cbn [max_token]; do 2 f_equal; apply st_eq; cbn [length]; lia.
  Qed.

  Lemma range_min ds rest p cur :
    dec_string ds ->
    exists cur',
      handle_range {| ts_rest := enumerate p (ds ++ $"," :: $"}" :: rest); ts_cur := cur |} =
      (let! v := dec_read ds in
       Val (min_token v, {| ts_rest := enumerate (p + length ds + 2) rest; ts_cur := cur' |})).
  Proof.
    intros H. destruct (dec_string_cons ds H) as (c & r & -> & Hc & Hr).
    unfold handle_range. cbn [app enumerate]. unfold ts_next at 1. cbn [ts_rest].
    rewrite (digit_to_digit c Hc).
    destruct (take_dec_run c r ($"," :: $"}" :: rest) (S p) (Some (Some (p, c))) Hr) as (cur' & ->).
    { reflexivity. }
    destruct (dec_read (c :: r)) as [v| |]; cbn [bind]; try (exists None; reflexivity).
    unfold ts_next. cbn [enumerate ts_rest]. cbn -[enumerate].
    eexists. destruct v as [v|]; cbn [min_token]; do 2 f_equal; apply st_eq; cbn [length]; lia.
  Qed.

  Lemma range_range ds1 ds2 rest p cur :
    dec_string ds1 -> dec_string ds2 ->
    exists cur',
      handle_range {| ts_rest := enumerate p (ds1 ++ $"," :: ds2 ++ $"}" :: rest); ts_cur := cur |} =
      (let! v1 := dec_read ds1 in
       let! v2 := dec_read ds2 in
       Val (range_token v1 v2,
            {| ts_rest := enumerate (p + length ds1 + length ds2 + 2) rest; ts_cur := cur' |})).
  Proof.
    intros H1 H2. destruct (dec_string_cons ds1 H1) as (c & r & -> & Hc & Hr).
    destruct (dec_string_cons ds2 H2) as (c2 & r2 & -> & Hc2 & Hr2).
    unfold handle_range. cbn [app enumerate]. unfold ts_next at 1. cbn [ts_rest].
    rewrite (digit_to_digit c Hc).
    destruct (take_dec_run c r ($"," :: c2 :: r2 ++ $"}" :: rest) (S p) (Some (Some (p, c))) Hr) as (cur' & ->).
    { reflexivity. }
    destruct (dec_read (c :: r)) as [v| |]; cbn [bind]; try (exists None; reflexivity).
    unfold ts_next at 1. cbn [enumerate ts_rest]. unfold ts_next at 1. cbn [enumerate ts_rest].
    change ($"," =? $",")%N with true. cbn [ts_next ts_rest]. cbv iota.
    assert ((c2 =? $"}")%N = false) as ->.
    { apply N.eqb_neq. intros ->. destruct Hc2 as [_ Hc2]. cbn in Hc2. lia. }
    rewrite (digit_to_digit c2 Hc2).
    match goal with |- context [take_dec _ {| ts_rest := enumerate ?q _; ts_cur := ?cu |}] =>
      destruct (take_dec_run c2 r2 ($"}" :: rest) q cu Hr2) as (cur2 & ->); [reflexivity|] end.
    destruct (dec_read (c2 :: r2)) as [v2| |]; cbn [bind]; try (exists None; reflexivity).
    unfold ts_next. cbn [enumerate ts_rest]. cbn -[enumerate].
    eexists. destruct v as [v|], v2 as [v2|]; cbn [range_token]; do 2 f_equal; apply st_eq; cbn [length]; lia.
  Qed.

  Definition dval (n : N) (ds : list char) : N := fold_left (fun n d => n * 10 + (d - 48))%N ds n.

  Lemma dval_ge ds : forall n, (n <= dval n ds)%N.
  Proof.
    induction ds as [|d ds IH]; intros n; cbn; [lia|].
    specialize (IH (n * 10 + (d - 48))%N). unfold dval in IH. lia.
  Qed.

  Lemma dec_value_cons c r : dec_value (c :: r) = dval (c - 48) r.
  Proof. reflexivity. Qed.

  Lemma dec_fold_ok ds : forall n, (dval n ds < u32_limit)%N ->
    fold_left dec_step (map (fun c => c - 48)%N ds) (Val (Some n)) = Val (Some (dval n ds)).
  Proof.
    induction ds as [|d ds IH]; intros n H; cbn -[u32_limit N.mul]; [reflexivity|].
    cbn [dval fold_left] in H. unfold dval in H; cbn [fold_left] in H.
    fold (dval (n * 10 + (d - 48)) ds) in H.
    pose proof (dval_ge ds (n * 10 + (d - 48))%N) as G.
    assert ((n * 10 <? u32_limit)%N = true) as -> by (apply N.ltb_lt; lia).
    assert ((n * 10 + (d - 48) <? u32_limit)%N = true) as -> by (apply N.ltb_lt; lia).
    rewrite IH by assumption. reflexivity.
  Qed.

  Lemma dec_read_ok ds : dec_string ds -> (dec_value ds < u32_limit)%N ->
    dec_read ds = Val (Some (dec_value ds)).
  Proof.
    intros H Hv. destruct (dec_string_cons ds H) as (c & r & -> & Hc & Hr).
    apply dec_fold_ok. exact Hv.
  Qed.

  Lemma dec_fold_none ds : fold_left dec_step ds (Val None) = Val None.
  Proof. induction ds; cbn; auto. Qed.

  (** The numbers on which the unchecked addition overflows. *)
  Definition in_window (n : N) : Prop := (u32_limit <= n <= u32_limit + 3)%N.

  Lemma dec_fold_big ds : forall n, (n < u32_limit)%N -> Forall digit_char ds ->
    (forall u v, ds = u ++ v -> ~ in_window (dval n u)) ->
    (u32_limit <= dval n ds)%N ->
    fold_left dec_step (map (fun c => c - 48)%N ds) (Val (Some n)) = Val None.
  Proof.
    induction ds as [|d ds IH]; intros n Hn Hd Hw Hv; cbn [dval fold_left] in Hv.
    { cbn in Hv. lia. }
    inversion Hd as [|? ? Hd1 Hd2]; subst.
    cbn -[u32_limit N.mul].
    destruct (n * 10 <? u32_limit)%N eqn:E1; [|apply dec_fold_none].
    destruct (n * 10 + (d - 48) <? u32_limit)%N eqn:E2.
    - apply IH.
      + apply N.ltb_lt; assumption.
      + assumption.
      + intros u v ->. apply (Hw (d :: u) v). reflexivity.
      + exact Hv.
    - exfalso. apply (Hw [d] ds); [reflexivity|]. unfold in_window. cbn [dval fold_left].
      unfold dval; cbn [fold_left].
      apply N.ltb_lt in E1. apply N.ltb_ge in E2. unfold digit_char in Hd1. unfold u32_limit in *. lia.
  Qed.

  Lemma dec_read_big ds : dec_string ds ->
    (forall u v, ds = u ++ v -> ~ in_window (dec_value u)) ->
    (u32_limit <= dec_value ds)%N ->
    dec_read ds = Val None.
  Proof.
    intros H Hw Hv. destruct (dec_string_cons ds H) as (c & r & -> & Hc & Hr).
    apply dec_fold_big; auto.
    - unfold digit_char in Hc. unfold u32_limit. lia.
    - intros u v ->. apply (Hw (c :: u) v). reflexivity.
  Qed.

  (** If no check for overflow happens, reading never panics. *)
  Lemma dec_step_nopanic ds : forall a, overflow_checks = false -> (a = Val None \/ exists n, a = Val (Some n)) ->
    exists v, fold_left dec_step ds a = Val v.
  Proof.
    induction ds as [|d ds IH]; intros a Ho Ha; cbn.
    - destruct Ha as [->|[n ->]]; eauto.
    - apply IH; [assumption|]. destruct Ha as [->|[n ->]]; cbn; [auto|].
      rewrite Ho. destruct (_ <? _)%N; [|auto]. destruct (_ <? _)%N; eauto.
  Qed.

  (** If reading panics, a prefix of the digits is in the window. *)
  Lemma dec_fold_panic ds : forall n, (n < u32_limit)%N -> Forall digit_char ds ->
    fold_left dec_step (map (fun c => c - 48)%N ds) (Val (Some n)) = Panic ->
    exists u d v, ds = u ++ d :: v /\ in_window (dval n (u ++ [d])) /\ (dval n u < u32_limit)%N.
  Proof.
    induction ds as [|d ds IH]; intros n Hn Hd Hp; [discriminate|].
    inversion Hd as [|? ? Hd1 Hd2]; subst.
    cbn -[u32_limit N.mul] in Hp.
    destruct (n * 10 <? u32_limit)%N eqn:E1; [|rewrite dec_fold_none in Hp; discriminate].
    destruct (n * 10 + (d - 48) <? u32_limit)%N eqn:E2.
    - apply N.ltb_lt in E2. destruct (IH _ E2 Hd2 Hp) as (u & d' & v & -> & Hw & Hu).
      exists (d :: u), d', v. repeat split; auto; apply Hw.
    - exists [], d, ds. split; [reflexivity|]. cbn [app]. unfold in_window, dval; cbn [fold_left].
      apply N.ltb_lt in E1. apply N.ltb_ge in E2. unfold digit_char in Hd1. unfold u32_limit in *. lia.
  Qed.

  Lemma tstep_range_gen (body rest : list char) k :
    (forall p cur, exists cur',
       handle_range {| ts_rest := enumerate p (body ++ rest); ts_cur := cur |} =
       Val (k, {| ts_rest := enumerate (p + length body) rest; ts_cur := cur' |})) ->
    tstep ($"{" :: body ++ rest) k rest.
  Proof.
    intros H. split; [cbn; rewrite app_length; lia|]. intros p cur.
    unfold tok_next, ts_next. cbn [enumerate ts_rest].
    change (token_kind_at $"{" ?s) with (handle_range s).
    destruct (H (S p) (Some (Some (p, $"{")))) as (cur' & E).
    rewrite E. cbn [bind].
    eexists _, _. do 2 f_equal. apply st_eq. cbn [length]; rewrite app_length; cbn [length]; lia.
  Qed.

  Lemma tstep_max ds rest v : dec_string ds -> dec_read ds = Val v ->
    tstep ($"{" :: ds ++ $"}" :: rest) (max_token v) rest.
  Proof.
    intros H Hv.
    pose proof (tstep_range_gen (ds ++ [$"}"]) rest (max_token v)) as G.
    rewrite <- app_assoc in G. cbn [app] in G. apply G. intros p cur.
    destruct (range_max ds rest p cur H) as (cur' & E). exists cur'.
    rewrite E, Hv; cbn [bind]. do 2 f_equal. apply st_eq. cbn [length]; rewrite app_length; cbn [length]; lia.
  Qed.

  Lemma tstep_min ds rest v : dec_string ds -> dec_read ds = Val v ->
    tstep ($"{" :: ds ++ $"," :: $"}" :: rest) (min_token v) rest.
  Proof.
    intros H Hv.
    pose proof (tstep_range_gen (ds ++ [$","; $"}"]) rest (min_token v)) as G.
    rewrite <- app_assoc in G. cbn [app] in G. apply G. intros p cur.
    destruct (range_min ds rest p cur H) as (cur' & E). exists cur'.
    rewrite E, Hv; cbn [bind]. do 2 f_equal. apply st_eq. cbn [length]; rewrite app_length; cbn [length]; lia.
  Qed.

  Lemma tstep_range ds1 ds2 rest v1 v2 : dec_string ds1 -> dec_string ds2 ->
    dec_read ds1 = Val v1 -> dec_read ds2 = Val v2 ->
    tstep ($"{" :: ds1 ++ $"," :: ds2 ++ $"}" :: rest) (range_token v1 v2) rest.
  Proof.
    intros H1 H2 Hv1 Hv2.
    pose proof (tstep_range_gen (ds1 ++ [$","] ++ ds2 ++ [$"}"]) rest (range_token v1 v2)) as G.
    rewrite <- !app_assoc in G. cbn [app] in G. apply G. intros p cur.
    destruct (range_range ds1 ds2 rest p cur H1 H2) as (cur' & E). exists cur'.
    rewrite E, Hv1, Hv2; cbn [bind]. do 2 f_equal. apply st_eq. repeat (cbn [length]; rewrite app_length); cbn [length]; lia.
  Qed.

  (** ** Decimal printing *)

  Lemma uint_chars_digits d : Forall digit_char (uint_chars d).
  Proof. induction d; cbn; constructor; auto; unfold digit_char; lia. Qed.

  Lemma of_uint_acc_dval d : forall acc,
    N.pos (Pos.of_uint_acc d acc) = dval (N.pos acc) (uint_chars d).
  Proof.
    induction d; intros acc; cbn [Pos.of_uint_acc uint_chars]; [reflexivity|..];
      unfold dval; cbn [fold_left]; fold (dval (N.pos acc * 10 + (48 - 48)) (uint_chars d));
      rewrite IHd; unfold dval; f_equal; lia.
  Qed.

  Lemma dec_value_uint d : dec_value (uint_chars d) = N.of_uint d.
  Proof.
    unfold N.of_uint.
    induction d; cbn [uint_chars Pos.of_uint]; [reflexivity| |..];
      try (rewrite dec_value_cons; rewrite of_uint_acc_dval; reflexivity).
    rewrite <- IHd. reflexivity.
  Qed.

  Lemma print_dec_value n : dec_value (print_dec n) = n.
  Proof. unfold print_dec. rewrite dec_value_uint. apply DecimalN.Unsigned.of_to. Qed.

  Lemma print_dec_string n : dec_string (print_dec n).
  Proof.
    split; [|apply uint_chars_digits].
    unfold print_dec. destruct n as [|p]; [discriminate|]. cbn.
    intros E. pose proof (print_dec_value (N.pos p)) as H. unfold print_dec in H. cbn in H.
    rewrite E in H. discriminate.
  Qed.

  Lemma print_dec_read n : u32 n -> dec_read (print_dec n) = Val (Some n).
  Proof.
    intros H. rewrite dec_read_ok.
    - rewrite print_dec_value. reflexivity.
    - apply print_dec_string.
    - rewrite print_dec_value. exact H.
  Qed.

  Lemma tstep_quant q rest : quant_ok (Some q) -> tstep (print_quant q ++ rest) (TQuant q) rest.
  Proof.
    intros H. destruct q; cbn [print_quant app].
    - apply tstep_quant1. cbn; auto.
    - apply tstep_quant1. cbn; auto.
    - apply tstep_quant1. cbn; auto.
    - rewrite <- app_assoc. apply (tstep_max (print_dec n) rest (Some n)).
      + apply print_dec_string.
      + apply print_dec_read. exact H.
    - rewrite <- app_assoc. apply (tstep_min (print_dec n) rest (Some n)).
      + apply print_dec_string.
      + apply print_dec_read. exact H.
    - destruct H as [Ha Hb]. repeat (rewrite <- app_assoc; cbn [app]).
      apply (tstep_range (print_dec a) (print_dec b) rest (Some a) (Some b));
        try apply print_dec_string; apply print_dec_read; assumption.
  Qed.

  (** ** Printed regexes *)

  Lemma kinds_nil : kinds_of [] = Some [].
  Proof. reflexivity. Qed.

  (** [u] is written with the tokens [ks], whatever follows. *)
  Definition writes (u : list char) (ks : list token_kind) : Prop :=
    forall rest, kinds_of (u ++ rest) = match kinds_of rest with Some l => Some (ks ++ l) | None => None end.

  Lemma writes_nil : writes [] [].
  Proof. intros rest. cbn [app]. destruct (kinds_of rest); reflexivity. Qed.

  Lemma writes_app u1 k1 u2 k2 : writes u1 k1 -> writes u2 k2 -> writes (u1 ++ u2) (k1 ++ k2).
  Proof.
    intros H1 H2 rest. rewrite <- app_assoc, H1, H2. destruct (kinds_of rest); [|reflexivity].
    rewrite app_assoc. reflexivity.
  Qed.

  Lemma writes_step u k : (forall rest, tstep (u ++ rest) k rest) -> writes u [k].
  Proof. intros H rest. rewrite (tstep_kinds _ _ _ (H rest)). reflexivity. Qed.

  Lemma writes_flat {A} (f : A -> list char) (g : A -> list token_kind) l :
    (forall a, In a l -> writes (f a) (g a)) -> writes (flat_map f l) (flat_map g l).
  Proof.
    induction l as [|a l IH]; intros H; cbn [flat_map]; [apply writes_nil|].
    apply writes_app; [apply H; left; reflexivity|apply IH; intros; apply H; right; assumption].
  Qed.

  Lemma writes_char c : writes (print_char c) [TMatch c].
  Proof. apply writes_step, tstep_char. Qed.
  Lemma writes_class k : writes (print_class k) [TClass k].
  Proof. apply writes_step, tstep_class_print. Qed.
  Lemma writes_op c o : op_of c = Some o -> writes [c] [TOp o].
  Proof. intros H. apply writes_step. intros rest. apply tstep_op. assumption. Qed.
  Lemma writes_oquant q : quant_ok q -> writes (print_oquant q) (oquant_tokens q).
  Proof.
    destruct q as [q|]; intros H; cbn [print_oquant oquant_tokens]; [|apply writes_nil].
    apply writes_step. intros rest. apply tstep_quant. assumption.
  Qed.

  Lemma writes_glit g : writes (print_glit g) (glit_tokens g).
  Proof.
    destruct g; cbn [print_glit glit_tokens].
    - apply writes_char.
    - apply writes_class.
    - apply (writes_app _ [TMatch a]); [apply writes_char|].
      apply (writes_app [_] [TOp OMinus]); [apply writes_op; reflexivity|apply writes_char].
  Qed.

  Lemma writes_lit l : writes (print_lit l) (lit_tokens l).
  Proof.
    destruct l as [c|k|neg gs]; cbn [print_lit lit_tokens].
    - apply writes_char.
    - apply writes_class.
    - apply (writes_app [_] [TOp OLBracket]); [apply writes_op; reflexivity|].
      apply writes_app.
      { destruct neg; [apply writes_op; reflexivity|apply writes_nil]. }
      apply writes_app; [|apply writes_op; reflexivity].
      apply writes_flat. intros g _. apply writes_glit.
  Qed.

  Scheme is_expr_mut := Induction for is_expr Sort Prop
  with is_sub_mut := Induction for is_sub Sort Prop
  with is_items_mut := Induction for is_items Sort Prop
  with is_item_mut := Induction for is_item Sort Prop.
  Combined Scheme is_expr_combined from is_expr_mut, is_sub_mut, is_items_mut, is_item_mut.

  Lemma writes_expr_mut :
    (forall e, is_expr e -> writes (print_expr e) (expr_tokens e)) /\
    (forall e, is_sub e -> writes (print_expr e) (expr_tokens e)) /\
    (forall es, is_items es -> writes (flat_map print_expr es) (flat_map expr_tokens es)) /\
    (forall e, is_item e -> writes (print_expr e) (expr_tokens e)).
  Proof.
    apply is_expr_combined; intros; cbn [print_expr expr_tokens flat_map]; auto.
    - apply writes_app; [assumption|].
      apply (writes_app [_] [TOp OVertical]); [apply writes_op; reflexivity|assumption].
    - apply writes_app; [assumption|]. apply writes_app; assumption.
    - apply writes_nil.
    - apply writes_app; assumption.
    - apply writes_app; [apply writes_lit|apply writes_oquant; assumption].
    - apply (writes_app [_] [TOp OLParen]); [apply writes_op; reflexivity|].
      apply writes_app; [assumption|].
      apply (writes_app [_] [TOp ORParen]); [apply writes_op; reflexivity|].
      apply writes_oquant; assumption.
  Qed.

  Lemma print_kinds e : is_pattern e -> kinds_of (print_expr e) = Some (expr_tokens e).
  Proof.
    intros [->|H]; [reflexivity|].
    pose proof (proj1 writes_expr_mut e H []) as W. rewrite app_nil_r, kinds_nil, app_nil_r in W.
    exact W.
  Qed.

  (** ** Unicode escapes *)

  Lemma hex_to_digit c d : hex_digit c d -> to_digit16 c = Some d.
  Proof.
    unfold hex_digit, to_digit16, is_ascii_digit.
    intros [[[H1 H2] ->]|[[[H1 H2] ->]|[[H1 H2] ->]]].
    - rewrite (proj2 (N.leb_le _ _) H1), (proj2 (N.leb_le _ _) H2). reflexivity.
    - rewrite (proj2 (N.leb_le _ _) H1), (proj2 (N.leb_le _ _) H2).
      assert ((c <=? 57)%N = false) as -> by (apply N.leb_gt; lia).
      rewrite andb_false_r. reflexivity.
    - rewrite (proj2 (N.leb_le _ _) H1), (proj2 (N.leb_le _ _) H2).
      assert ((c <=? 57)%N = false) as -> by (apply N.leb_gt; lia).
      assert ((97 <=? c)%N = false) as -> by (apply N.leb_gt; lia).
      rewrite andb_false_r. reflexivity.
  Qed.

  Lemma hex_digit_lt c d : hex_digit c d -> (d < 16)%N.
  Proof. unfold hex_digit. lia. Qed.

  Lemma to_digit16_inv c d : to_digit16 c = Some d -> hex_digit c d.
  Proof.
    unfold to_digit16, is_ascii_digit, hex_digit.
    destruct (48 <=? c)%N eqn:E1, (c <=? 57)%N eqn:E2; cbn;
      rewrite ?N.leb_le, ?N.leb_gt in *; try (intros [= <-]; left; lia);
      destruct (97 <=? c)%N eqn:E3, (c <=? 102)%N eqn:E4; cbn;
      rewrite ?N.leb_le, ?N.leb_gt in *; try (intros [= <-]; right; left; lia);
      destruct (65 <=? c)%N eqn:E5, (c <=? 70)%N eqn:E6; cbn;
      rewrite ?N.leb_le, ?N.leb_gt in *; try (intros [= <-]; right; right; lia); discriminate.
  Qed.

  Lemma not_hex_none c : ~ is_hex c -> to_digit16 c = None.
  Proof.
    intros H. destruct (to_digit16 c) as [d|] eqn:E; [|reflexivity].
    exfalso. apply H. exists d. apply to_digit16_inv. assumption.
  Qed.

  Lemma no_hex_stops rest : no_hex_next rest -> stops to_digit16 rest.
  Proof. destruct rest; cbn; auto. apply not_hex_none. Qed.

  Lemma take_hex_run st us ds rest p cur :
    Forall2 hex_digit us ds -> no_hex_next rest ->
    exists cur',
      take_hex st {| ts_rest := enumerate p (us ++ rest); ts_cur := cur |} =
      (match st with Some _ => 1 | None => 0 end + length us,
       fold_left hex_step ds (match st with Some d => d | None => 0%N end),
       {| ts_rest := enumerate (p + length us) rest; ts_cur := cur' |}).
  Proof.
    intros H Hn. unfold take_hex, ts_take. cbn [ts_rest ts_cur].
    destruct (take_exact to_digit16 us ds rest p cur) as (cur' & E).
    - clear -H. induction H; cbn; [reflexivity|]. f_equal; [apply hex_to_digit|]; assumption.
    - apply no_hex_stops; assumption.
    - rewrite E. exists cur'. pose proof (forall2_length _ _ _ H) as Hl.
      destruct st; cbn; rewrite Hl; reflexivity.
  Qed.

  Lemma hex_value_ge ds : forall n, (n <= hex_value n ds)%N.
  Proof.
    induction ds as [|d ds IH]; intros n; cbn; [lia|].
    specialize (IH (n * 16 + d)%N). unfold hex_value in IH. lia.
  Qed.

  Lemma hex_fold ds : forall n, (hex_value n ds < u32_limit)%N ->
    fold_left hex_step ds n = hex_value n ds.
  Proof.
    induction ds as [|d ds IH]; intros n H; cbn -[u32_limit N.mul N.modulo]; [reflexivity|].
    unfold hex_value in H; cbn [fold_left] in H. fold (hex_value (n * 16 + d) ds) in H.
    pose proof (hex_value_ge ds (n * 16 + d)%N) as G.
    unfold hex_step at 2. rewrite N.mod_small by lia.
    rewrite IH by assumption. reflexivity.
  Qed.

  Definition char_token (n : N) : token_kind := match_or_invalid (char_from_u32 n).

  Lemma char_token_scalar n : scalar n -> char_token n = TMatch n.
  Proof.
    unfold scalar, char_token, char_from_u32. intros H.
    assert ((n <? 55296) || (57343 <? n) && (n <? 1114112) = true)%N as ->; [|reflexivity].
    destruct H as [H|[H1 H2]].
    - rewrite (proj2 (N.ltb_lt _ _) H). reflexivity.
    - apply orb_true_iff. right. apply andb_true_iff. split; apply N.ltb_lt; lia.
  Qed.

  Lemma char_token_not_scalar n : ~ scalar n -> char_token n = TInvalid.
  Proof.
    unfold scalar, char_token, char_from_u32. intros H.
    destruct (n <? 55296)%N eqn:E1; [apply N.ltb_lt in E1; exfalso; apply H; lia|].
    destruct (57343 <? n)%N eqn:E2; cbn; [|reflexivity].
    destruct (n <? 1114112)%N eqn:E3; [|reflexivity].
    apply N.ltb_lt in E2, E3. exfalso; apply H; lia.
  Qed.

  Lemma tstep_x h1 h2 d1 d2 rest :
    hex_digit h1 d1 -> hex_digit h2 d2 -> no_hex_next rest ->
    tstep ($"\" :: $"x" :: h1 :: h2 :: rest) (TMatch (d1 * 16 + d2)%N) rest.
  Proof.
    intros H1 H2 Hn. split; [cbn; lia|]. intros p cur.
    unfold tok_next, ts_next. cbn [enumerate ts_rest].
    unfold token_kind_at, handle_escape, ts_next. cbn -[handle_x enumerate Nat.sub].
    unfold handle_x.
    match goal with |- context [take_hex None {| ts_rest := ?r; ts_cur := ?cu |}] =>
      destruct (take_hex_run None [h1; h2] [d1; d2] rest (S (S p)) cu) as (cur' & E);
      [repeat (apply Forall2_cons; [assumption|]); apply Forall2_nil|assumption|] end.
    cbn [app enumerate] in E. rewrite E. cbn -[enumerate fold_left Nat.sub].
    pose proof (hex_digit_lt _ _ H1). pose proof (hex_digit_lt _ _ H2).
    assert (fold_left hex_step [d1; d2] 0%N = d1 * 16 + d2)%N as Hv.
    { rewrite hex_fold; unfold hex_value; cbn [fold_left]; unfold u32_limit; lia. }
    rewrite Hv.
    fold (char_token (d1 * 16 + d2)). rewrite char_token_scalar by (left; lia).
    cbn [bind]. eexists _, _. do 2 f_equal. apply st_eq. lia.
  Qed.

  Lemma tstep_u4 h1 h2 h3 h4 d1 d2 d3 d4 rest :
    hex_digit h1 d1 -> hex_digit h2 d2 -> hex_digit h3 d3 -> hex_digit h4 d4 -> no_hex_next rest ->
    tstep ($"\" :: $"u" :: h1 :: h2 :: h3 :: h4 :: rest) (char_token (hex_value 0 [d1; d2; d3; d4])) rest.
  Proof.
    intros H1 H2 H3 H4 Hn. split; [cbn; lia|]. intros p cur.
    unfold tok_next, ts_next. cbn [enumerate ts_rest].
    unfold token_kind_at, handle_escape, ts_next. cbn -[handle_u enumerate Nat.sub].
    unfold handle_u, ts_next. cbn [ts_rest enumerate].
    assert ((h1 =? $"{")%N = false) as ->.
    { apply N.eqb_neq. intros ->. unfold hex_digit in H1. cbn in H1. lia. }
    rewrite (hex_to_digit _ _ H1).
    match goal with |- context [take_hex (Some d1) {| ts_rest := ?r; ts_cur := ?cu |}] =>
      destruct (take_hex_run (Some d1) [h2; h3; h4] [d2; d3; d4] rest (S (S (S p))) cu) as (cur' & E);
      [repeat (apply Forall2_cons; [assumption|]); apply Forall2_nil|assumption|] end.
    cbn [app enumerate] in E. rewrite E. cbn -[enumerate fold_left hex_value Nat.sub].
    pose proof (hex_digit_lt _ _ H1). pose proof (hex_digit_lt _ _ H2).
    pose proof (hex_digit_lt _ _ H3). pose proof (hex_digit_lt _ _ H4).
    rewrite hex_fold by (unfold hex_value; cbn [fold_left]; unfold u32_limit; lia).
    change (hex_value d1 [d2; d3; d4]) with (hex_value 0 [d1; d2; d3; d4]).
    eexists _, _. do 2 f_equal. apply st_eq. lia.
  Qed.

  Lemma tstep_ubrace us ds rest :
    Forall2 hex_digit us ds -> 4 <= length us -> (hex_value 0 ds < u32_limit)%N ->
    tstep ($"\" :: $"u" :: $"{" :: us ++ $"}" :: rest) (char_token (hex_value 0 ds)) rest.
  Proof.
    intros H Hl Hv. split; [cbn; rewrite app_length; cbn; lia|]. intros p cur.
    unfold tok_next, ts_next. cbn [enumerate ts_rest].
    unfold token_kind_at, handle_escape, ts_next. cbn -[handle_u enumerate Nat.sub].
    unfold handle_u. unfold ts_next at 1. cbn [ts_rest enumerate].
    change (123 =? $"{")%N with true. cbv iota beta.
    match goal with |- context [take_hex None {| ts_rest := ?r; ts_cur := ?cu |}] =>
      destruct (take_hex_run None us ds ($"}" :: rest) (S (S (S p))) cu) as (cur' & E);
      [assumption|cbn; intros [x Hx]; unfold hex_digit in Hx; lia|] end.
    change ($"}") with 125%N in E. rewrite E. cbn [plus].
    assert ((length us <? 4) = false) as -> by (apply Nat.ltb_ge; assumption).
    unfold ts_next. cbn [ts_rest enumerate]. change (125 =? $"}")%N with true. cbv iota beta.
    rewrite hex_fold by assumption. fold (char_token (hex_value 0 ds)). cbn [bind].
    eexists _, _. do 2 f_equal. apply st_eq. cbn [length]. rewrite app_length; cbn [length]. lia.
  Qed.
End PrintProofs.
