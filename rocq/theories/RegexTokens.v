(** The tokenizer computes the tokens of the specification. *)
From Verif Require Import Base RegexModel SpecRegex SpecPattern SpecTokens RegexTokProofs RegexPrintProofs RegexProofs RegexAcceptProofs.

Section Tokens.
  Context {env : Env}.

  (** ** States *)

  (** The character at position [q] was read last, [w] follows. *)
  Definition st (q : nat) (w : list char) (c : char) : tstate := {| ts_rest := enumerate (S q) w; ts_cur := Some (Some (q, c)) |}.
  Definition over : tstate := {| ts_rest := []; ts_cur := Some None |}.

  Lemma next_nil q c : ts_next (st q [] c) = (None, over).
  Proof. reflexivity. Qed.
  Lemma next_cons q x w c : ts_next (st q (x :: w) c) = (Some (S q, x), st (S q) w x).
  Proof. reflexivity. Qed.

  Lemma take_st f us : forall ds r q c, map f us = map Some ds -> stops f r ->
    exists c', ts_take f (st q (us ++ r) c) = (ds, st (q + length us) r c').
  Proof.
    induction us as [|u us IH]; intros [|d ds] r q c H Hs; cbn in H; try discriminate.
    - exists c. cbn [app length]. rewrite Nat.add_0_r. unfold ts_take, st. cbn [ts_rest ts_cur].
      destruct r as [|x r]; [reflexivity|]. cbn in Hs. cbn [enumerate take_map_while]. rewrite Hs. reflexivity.
    - injection H as Hu H. destruct (IH ds r (S q) u H Hs) as (c' & E). exists c'.
      unfold ts_take, st in *. cbn [ts_rest ts_cur] in *. cbn [app enumerate take_map_while]. rewrite Hu, E.
      cbn [length]. rewrite Nat.add_succ_r. reflexivity.
  Qed.

  Lemma span f : forall w : list char, exists us (ds : list N) r, w = us ++ r /\ map f us = map Some ds /\ stops f r.
  Proof.
    induction w as [|c w (us & ds & r & -> & H & Hs)]; [exists [], [], []; repeat split|].
    destruct (f c) as [d|] eqn:E.
    - exists (c :: us), (d :: ds), r. cbn. rewrite E, H. auto.
    - exists [], [], (c :: us ++ r). auto.
  Qed.

  (** How a token that began before [w] leaves the state. *)
  Definition leaves (q : nat) (w r : list char) (cut : bool) (s : tstate) : Prop :=
    length r <= length w /\ if cut then s = over /\ r = [] else exists c, s = st (q + (length w - length r)) r c.

  (** ** Digits *)

  Lemma digit10_iff c d : to_digit10 c = Some d <-> digit_char c /\ d = (c - 48)%N.
  Proof.
    unfold to_digit10, is_ascii_digit, digit_char. destruct (48 <=? c)%N eqn:E1, (c <=? 57)%N eqn:E2; cbn;
      rewrite ?N.leb_le, ?N.leb_gt in *; split; try discriminate; try lia.
    - intros [= <-]. lia.
    - intros [_ ->]. reflexivity.
  Qed.
  Lemma digits10 us : forall ds, map to_digit10 us = map Some ds <-> Forall digit_char us /\ ds = map (fun c => c - 48)%N us.
  Proof.
    induction us as [|u us IH]; intros [|d ds]; cbn; split; try discriminate; try (intros [_ H]; discriminate); auto.
    - intros [= H1 H2]. apply digit10_iff in H1. destruct H1 as [H1 ->]. apply IH in H2. destruct H2 as [H2 ->]. auto.
    - intros [H E]. inversion H; subst. injection E as -> ->. f_equal; [apply digit10_iff; auto|apply IH; auto].
  Qed.
  Lemma stops10 r : stops to_digit10 r <-> no_digit_next r.
  Proof.
    destruct r as [|c r]; cbn; [tauto|]. split.
    - intros H Hd. rewrite (digit_to_digit c Hd) in H. discriminate.
    - apply to_digit10_none.
  Qed.
  Lemma digits16 us : forall ds, map to_digit16 us = map Some ds <-> Forall2 hex_digit us ds.
  Proof.
    induction us as [|u us IH]; intros [|d ds]; cbn; split; try discriminate; try (intros H; inversion H; fail); auto.
    - intros [= H1 H2]. constructor; [apply to_digit16_inv; assumption|apply IH; assumption].
    - intros H. inversion H; subst. f_equal; [apply hex_to_digit; assumption|apply IH; assumption].
  Qed.
  Lemma stops16 r : stops to_digit16 r <-> no_hex_next r.
  Proof.
    destruct r as [|c r]; cbn; [tauto|]. split.
    - intros H (d & Hd). rewrite (hex_to_digit c d Hd) in H. discriminate.
    - apply not_hex_none.
  Qed.

  (** ** Numbers *)

  Notation fold ds a := (fold_left dec_step (map (fun c => c - 48)%N ds) a).

  Lemma dec_value_snoc u d : dec_value (u ++ [d]) = (dec_value u * 10 + (d - 48))%N.
  Proof. unfold dec_value. rewrite fold_left_app. reflexivity. Qed.

  Lemma fold_reads ds : forall u o, u32 (dec_value u) -> Forall digit_char ds ->
    fold ds (Val (Some (dec_value u))) = Val o -> reads (u ++ ds) o.
  Proof.
    induction ds as [|d ds IH]; intros u o Hu Hd; cbn -[u32_limit N.mul].
    - intros [= <-]. rewrite app_nil_r. apply reads_fits. assumption.
    - inversion Hd as [|? ? Hd1 Hd2]; subst. unfold digit_char in Hd1. unfold u32 in Hu. pose proof (dec_value_snoc u d) as Es.
      destruct (dec_value u * 10 <? u32_limit)%N eqn:E1.
      + apply N.ltb_lt in E1. destruct (dec_value u * 10 + (d - 48) <? u32_limit)%N eqn:E2.
        * apply N.ltb_lt in E2. rewrite <- Es. intros H. replace (u ++ d :: ds) with ((u ++ [d]) ++ ds) by (rewrite <- app_assoc; reflexivity).
          apply IH; [rewrite Es; exact E2|assumption|exact H].
        * apply N.ltb_ge in E2. destruct overflow_checks eqn:Eo.
          { intros H. exfalso. revert H. assert (Hp : forall l, fold_left dec_step l Panic = Panic) by (induction l; cbn; auto). rewrite Hp. discriminate. }
          set (n := (dec_value u * 10 + (d - 48) - u32_limit)%N).
          assert (Em : ((dec_value u * 10 + (d - 48)) mod u32_limit = n)%N).
          { symmetry. apply N.mod_unique with (q := 1%N); unfold n, u32_limit in *; lia. }
          rewrite Em. assert (En : n = dec_value [48 + n]%N) by (unfold dec_value; cbn [fold_left]; lia).
          rewrite En at 1. intros H. replace (u ++ d :: ds) with ((u ++ [d]) ++ ds) by (rewrite <- app_assoc; reflexivity).
          assert (Hn : (n < 4)%N) by (unfold n, u32_limit in *; lia).
          apply (reads_around (u ++ [d]) ds n); [exact Eo|rewrite Es; unfold n, two32, u32_limit in *; lia|exact Hn|].
          apply (IH [48 + n]%N); [rewrite <- En; unfold u32; lia|assumption|exact H].
      + apply N.ltb_ge in E1. rewrite dec_fold_none. intros [= <-]. apply reads_big; [exact Hu|].
        rewrite Es. unfold two32, u32_limit in *. lia.
  Qed.

  Lemma fold_app u v a : fold (u ++ v) a = fold v (fold u a).
  Proof. rewrite map_app, fold_left_app. reflexivity. Qed.

  Lemma fold_fits u : u32 (dec_value u) -> fold u (Val (Some 0%N)) = Val (Some (dec_value u)).
  Proof. intros H. apply (dec_fold_ok u 0). exact H. Qed.

  Lemma window_split u n : Forall digit_char u -> dec_value u = (two32 + n)%N -> (n < 4)%N ->
    exists u' d, u = u' ++ [d] /\ u32 (dec_value u') /\ (dec_value u' * 10 < two32)%N /\ digit_char d.
  Proof.
    intros Hd E Hn. assert (Hne : u <> []) by (intros ->; change (dec_value []) with 0%N in E; unfold two32 in E; lia).
    destruct (exists_last Hne) as (u' & d & ->). exists u', d. apply Forall_app in Hd. destruct Hd as [_ Hd]. inversion Hd as [|? ? Hd1]; subst.
    rewrite dec_value_snoc in E. unfold digit_char in Hd1. unfold u32, two32 in *. repeat split; try lia.
  Qed.

  Lemma reads_fold ds o : reads ds o -> Forall digit_char ds -> fold ds (Val (Some 0%N)) = Val o.
  Proof.
    induction 1 as [ds H|u d v Hu Hb|u v n o Ho E Hn _ IH]; intros Hd.
    - apply fold_fits. assumption.
    - apply Forall_app in Hd. destruct Hd as [_ Hd]. inversion Hd as [|? ? Hd1 Hd2]; subst. unfold digit_char in Hd1.
      rewrite fold_app, fold_fits by assumption. cbn [map fold_left]. unfold dec_step at 2. cbn [bind]. rewrite dec_value_snoc in Hb.
      assert ((dec_value u * 10 <? u32_limit)%N = false) as -> by (apply N.ltb_ge; unfold two32, u32_limit in *; lia).
      apply dec_fold_none.
    - apply Forall_app in Hd. destruct Hd as [Hd1 Hd2]. destruct (window_split u n Hd1 E Hn) as (u' & d & -> & Hu & Hl & Hd).
      rewrite <- app_assoc, fold_app, fold_fits by assumption. cbn [app map fold_left]. unfold dec_step at 2. cbn [bind].
      rewrite dec_value_snoc in E. assert ((dec_value u' * 10 <? u32_limit)%N = true) as -> by (apply N.ltb_lt; exact Hl).
      rewrite E. change two32 with u32_limit. assert ((u32_limit + n <? u32_limit)%N = false) as -> by (apply N.ltb_ge; lia).
      rewrite Ho. replace ((u32_limit + n) mod u32_limit)%N with n.
      2:{ apply N.mod_unique with (q := 1%N); unfold u32_limit; lia. }
      assert (Hf : Forall digit_char (48 + n :: v)%N) by (constructor; [unfold digit_char; lia|assumption]).
      specialize (IH Hf). cbn [map fold_left] in IH. unfold dec_step at 2 in IH. cbn [bind] in IH.
      replace (48 + n - 48)%N with n in IH by lia. cbn [N.mul] in IH.
      change (0 <? u32_limit)%N with true in IH. cbv iota in IH. rewrite N.add_0_l in IH.
      assert (Hlt : (n <? u32_limit)%N = true) by (apply N.ltb_lt; unfold u32_limit; lia). rewrite Hlt in IH. exact IH.
  Qed.

  Lemma fold_panic ds : Forall digit_char ds -> fold ds (Val (Some 0%N)) = Panic <-> exists u v, ds = u ++ v /\ overflows u.
  Proof.
    intros Hd. split.
    - intros H. pose proof H as H0. apply (dec_fold_panic ds 0%N) in H; [|unfold u32_limit; lia|assumption].
      destruct H as (u & d & v & -> & Hw & _). exists (u ++ [d]), v. rewrite <- app_assoc. split; [reflexivity|].
      change (dval 0 (u ++ [d])) with (dec_value (u ++ [d])) in Hw. unfold in_window in Hw. split; [|split; [split|]].
      + destruct overflow_checks eqn:Eo; [reflexivity|].
        destruct (dec_step_nopanic (map (fun c => c - 48)%N (u ++ d :: v)) (Val (Some 0%N)) Eo (or_intror (ex_intro _ 0%N eq_refl))) as (o & E).
        congruence.
      + intros E. apply app_eq_nil in E. destruct E as [_ E]. discriminate.
      + apply Forall_app in Hd. destruct Hd as [Hd1 Hd2]. inversion Hd2; subst. apply Forall_app. auto.
      + unfold two32, u32_limit in *. lia.
    - intros (u & v & -> & Ho & [_ Hu] & Hw). destruct (window_split u (dec_value u - two32)%N Hu) as (u' & d & -> & Hu' & Hl & Hd1); [lia|lia|].
      rewrite <- app_assoc, fold_app, fold_fits by assumption. cbn [app map fold_left]. unfold dec_step at 2. cbn [bind].
      rewrite dec_value_snoc in Hw. assert ((dec_value u' * 10 <? u32_limit)%N = true) as -> by (apply N.ltb_lt; exact Hl).
      assert ((dec_value u' * 10 + (d - 48) <? u32_limit)%N = false) as -> by (apply N.ltb_ge; unfold two32, u32_limit in *; lia).
      rewrite Ho. clear. induction (map (fun c => (c - 48)%N) v); cbn; auto.
  Qed.

  Lemma fold_first c ds : digit_char c -> fold ds (Val (Some (c - 48)%N)) = fold (c :: ds) (Val (Some 0%N)).
  Proof.
    intros H. cbn [map fold_left]. unfold dec_step at 3. cbn [bind N.mul].
    change (0 <? u32_limit)%N with true. cbv iota. rewrite N.add_0_l. unfold digit_char in H.
    assert (Hlt : (c - 48 <? u32_limit)%N = true) by (apply N.ltb_lt; unfold u32_limit; lia). rewrite Hlt. reflexivity.
  Qed.

  Lemma take_dec_st c us r q x : digit_char c -> Forall digit_char us -> no_digit_next r ->
    exists c', take_dec (c - 48)%N (st q (us ++ r) x) = let! v := fold (c :: us) (Val (Some 0%N)) in Val (v, st (q + length us) r c').
  Proof.
    intros Hc Hu Hr. destruct (take_st to_digit10 us (map (fun c => c - 48)%N us) r q x) as (c' & E).
    - apply digits10. auto.
    - apply stops10. assumption.
    - exists c'. unfold take_dec. rewrite E, fold_first by assumption. reflexivity.
  Qed.

  (** ** Codes *)

  Lemma hex_step_mod n d : (d < 16)%N -> hex_step (n mod u32_limit) d = ((n * 16 + d) mod u32_limit)%N.
  Proof.
    intros Hd. unfold hex_step.
    pose proof (N.div_mod n u32_limit ltac:(discriminate)) as E1. pose proof (N.mod_lt n u32_limit ltac:(discriminate)) as L1.
    set (a := (n / u32_limit)%N) in *. set (b := (n mod u32_limit)%N) in *.
    pose proof (N.div_mod b 268435456 ltac:(discriminate)) as E2. pose proof (N.mod_lt b 268435456 ltac:(discriminate)) as L2.
    set (e := (b / 268435456)%N) in *. set (f := (b mod 268435456)%N) in *. clearbody a b e f. unfold u32_limit in *.
    rewrite <- (N.mod_unique (b * 16) 4294967296 e (16 * f)) by lia.
    rewrite <- (N.mod_unique (n * 16 + d) 4294967296 (16 * a + e) (16 * f + d)) by lia. lia.
  Qed.

  Lemma hex_fold_mod ds : forall n, Forall (fun d => d < 16)%N ds -> fold_left hex_step ds (n mod u32_limit)%N = (hex_value n ds mod u32_limit)%N.
  Proof.
    induction ds as [|d ds IH]; intros n H; [reflexivity|]. inversion H; subst. cbn [fold_left]. rewrite hex_step_mod by assumption.
    rewrite IH by assumption. reflexivity.
  Qed.

  Lemma hex_digits_lt hs ds : Forall2 hex_digit hs ds -> Forall (fun d => d < 16)%N ds.
  Proof. induction 1; constructor; [eapply hex_digit_lt; eassumption|assumption]. Qed.

  Lemma hex_fold_all hs ds : Forall2 hex_digit hs ds -> fold_left hex_step ds 0%N = (hex_value 0 ds mod two32)%N.
  Proof. intros H. apply (hex_fold_mod ds 0). eapply hex_digits_lt. eassumption. Qed.

  Lemma hex_fold_start h hs d ds : Forall2 hex_digit (h :: hs) (d :: ds) -> fold_left hex_step ds d = (hex_value 0 (d :: ds) mod two32)%N.
  Proof.
    intros H. rewrite <- (hex_fold_all _ _ H). cbn [fold_left]. f_equal.
  Qed.

  Lemma take_hex_st start hs ds r q c : Forall2 hex_digit hs ds -> no_hex_next r ->
    exists c', take_hex start (st q (hs ++ r) c) =
      (((match start with Some _ => 1 | None => 0 end) + length hs,
        fold_left hex_step ds (match start with Some d => d | None => 0%N end)), st (q + length hs) r c').
  Proof.
    intros H Hr. destruct (take_st to_digit16 hs ds r q c) as (c' & E).
    - apply digits16. assumption.
    - apply stops16. assumption.
    - exists c'. unfold take_hex. rewrite E. assert (El : length hs = length ds) by (clear -H; induction H; cbn; auto). rewrite El. destruct start; reflexivity.
  Qed.

  Lemma hex_span w : exists hs ds r, w = hs ++ r /\ Forall2 hex_digit hs ds /\ no_hex_next r.
  Proof.
    destruct (span to_digit16 w) as (hs & ds & r & -> & H & Hs). exists hs, ds, r. rewrite <- digits16, <- stops16. auto.
  Qed.

  Lemma dec_span w : exists ds r, w = ds ++ r /\ Forall digit_char ds /\ no_digit_next r.
  Proof.
    destruct (span to_digit10 w) as (hs & ds & r & -> & H & Hs). exists hs, r. rewrite <- stops10. apply digits10 in H. tauto.
  Qed.

  Lemma coded_token n : coded n (match_or_invalid (char_from_u32 n)).
  Proof.
    change (coded n (char_token n)). unfold char_token, char_from_u32.
    destruct ((n <? 0xD800) || ((0xDFFF <? n) && (n <? 0x110000)))%N eqn:E; cbn [match_or_invalid].
    - constructor. unfold scalar. apply orb_true_iff in E. destruct E as [E|E].
      + apply N.ltb_lt in E. auto.
      + apply andb_true_iff in E. destruct E as [E1 E2]. apply N.ltb_lt in E1, E2. right. lia.
    - constructor. unfold scalar. apply orb_false_iff in E. destruct E as [E1 E2]. apply N.ltb_ge in E1.
      apply andb_false_iff in E2. destruct E2 as [E2|E2]; apply N.ltb_ge in E2; lia.
  Qed.
  Lemma coded_only n k : coded n k -> k = match_or_invalid (char_from_u32 n).
  Proof. intros [H|H]; symmetry; [apply char_token_scalar|apply char_token_not_scalar]; assumption. Qed.

  (** ** Tables *)

  Ltac tables := let H := fresh in cbn; intros H; repeat (destruct H as [H|H]; [injection H as <- <-; reflexivity|]); destruct H.
  Ltac chain := repeat (match goal with |- context [N.eqb ?a ?b] => destruct (N.eqb_spec a b); [subst|] end).

  Lemma class_table_ok c k : class_of c = Some k <-> In (c, k) class_table.
  Proof.
    split; [|unfold class_table; tables]. unfold class_of. chain; try discriminate; intros [= <-]; cbn; tauto.
  Qed.
  Lemma op_table_ok c k : op_of c = Some k <-> In (c, k) op_table.
  Proof.
    split; [|unfold op_table; tables]. unfold op_of. chain; try discriminate; intros [= <-]; cbn; tauto.
  Qed.
  Lemma escape_table_ok c k : simple_escape c = Some k <-> In (c, k) escape_table \/ c = k /\ In c quoted.
  Proof.
    split.
    - unfold simple_escape.
      do 6 (match goal with |- context [N.eqb ?a ?b] => destruct (N.eqb_spec a b); [subst; intros [= <-]; left; cbn; tauto|] end).
      destruct (existsb _ _) eqn:E; [|discriminate]. intros [= <-]. right. split; [reflexivity|]. apply existsb_In. exact E.
    - intros [H|[<- H]]; [revert H; unfold escape_table; tables|].
      unfold quoted in H. cbn in H. repeat (destruct H as [<-|H]; [reflexivity|]). destruct H.
  Qed.

  Lemma letter_ok c : (((97 <=? c) && (c <=? 122)) || ((65 <=? c) && (c <=? 90)))%N = true <-> exists n, letter c n.
  Proof.
    rewrite orb_true_iff, !andb_true_iff, !N.leb_le. unfold letter. split.
    - intros [H|H]; [exists (c - 96)%N|exists (c - 64)%N]; lia.
    - intros (n & H). lia.
  Qed.
  Lemma letter_code c n : letter c n -> (c mod 32)%N = n.
  Proof.
    unfold letter. intros [Hn [->| ->]]; symmetry; [apply N.mod_unique with (q := 2%N)|apply N.mod_unique with (q := 3%N)]; lia.
  Qed.

  (** ** One token *)

  Lemma leaves_at q w r q' c : length r <= length w -> q' = q + (length w - length r) -> leaves q w r false (st q' r c).
  Proof. intros H ->. split; [assumption|]. exists c. reflexivity. Qed.
  Lemma leaves_over q w : leaves q w [] true over.
  Proof. split; [cbn; lia|]. auto. Qed.
  Lemma leaves_here q w c : leaves q w w false (st q w c).
  Proof. apply leaves_at; lia. Qed.

  Ltac lens := cbn [length]; rewrite ?app_length; cbn [length]; rewrite ?app_length; cbn [length]; lia.
  Ltac at_st := apply leaves_at; lens.

  (** The control escape. *)
  Lemma control_at p w : let '(k, s) := (let '(r, s2) := handle_control (st p w $"c") in (match_or_invalid r, s2)) in
    exists r cut, takes ($"\" :: $"c" :: w) k r cut /\ leaves p w r cut s.
  Proof.
    unfold handle_control. destruct w as [|x w].
    - rewrite next_nil. exists [], true. split; [constructor|apply leaves_over].
    - rewrite next_cons. destruct (_ || _) eqn:E.
      + apply letter_ok in E. destruct E as (n & E). rewrite (letter_code x n E). exists w, false. split; [constructor; assumption|at_st].
      + exists w, false. split; [|at_st]. constructor. intros n Hn.
        assert (Ht : exists n, letter x n) by eauto. apply letter_ok in Ht. congruence.
  Qed.

  Lemma x_at p w : let '(k, s) := (let '(r, s2) := handle_x (st p w $"x") in (match_or_invalid r, s2)) in
    exists r cut, takes ($"\" :: $"x" :: w) k r cut /\ leaves p w r cut s.
  Proof.
    destruct (hex_span w) as (hs & ds & r & -> & H & Hr). unfold handle_x.
    destruct (take_hex_st None hs ds r p $"x" H Hr) as (c & ->). cbn [Nat.add].
    destruct (Nat.eqb_spec (length hs) 2) as [E|E]; exists r, false; (split; [|at_st]).
    - apply takes_x with (ds := ds); auto.
      destruct hs as [|h1 [|h2 [|]]]; try discriminate E. inversion H as [|? d1 ? ds1 H1 H']; subst. inversion H' as [|? d2 ? ds2 H2 H'']; subst. inversion H''; subst.
      assert (Hv : fold_left hex_step [d1; d2] 0%N = hex_value 0 [d1; d2]); [|rewrite Hv; apply coded_token].
      rewrite (hex_fold_all _ _ H). apply N.mod_small. apply hex_digit_lt in H1, H2. unfold hex_value, two32. cbn [fold_left]. lia.
    - apply takes_x_bad with (ds := ds); auto.
  Qed.

  Lemma u_at p w : let '(k, s) := (let '(r, s2) := handle_u (st p w $"u") in (match_or_invalid r, s2)) in
    exists r cut, takes ($"\" :: $"u" :: w) k r cut /\ leaves p w r cut s.
  Proof.
    unfold handle_u. destruct w as [|x w].
    - rewrite next_nil. exists [], true. split; [constructor|apply leaves_over].
    - rewrite next_cons. destruct (N.eqb_spec x $"{") as [->|Hx].
      + destruct (hex_span w) as (hs & ds & r & -> & H & Hr). destruct (take_hex_st None hs ds r (S p) $"{" H Hr) as (c & ->). cbn [Nat.add].
        destruct (Nat.ltb_spec (length hs) 4) as [E|E].
        * exists r, false. split; [|at_st]. apply takes_brace_short with (ds := ds); auto.
        * destruct r as [|y r].
          { rewrite next_nil, app_nil_r. exists [], true. split; [|apply leaves_over]. apply takes_brace_cut with (ds := ds); auto. }
          rewrite next_cons. destruct (N.eqb_spec y $"}") as [->|Hy]; exists r, false; (split; [|at_st]).
          { rewrite (hex_fold_all _ _ H). apply takes_brace with (ds := ds); auto. apply coded_token. }
          { apply takes_brace_bad with (ds := ds); auto. }
      + destruct (to_digit16 x) as [d|] eqn:Ed.
        * apply to_digit16_inv in Ed. destruct (hex_span w) as (hs & ds & r & -> & H & Hr).
          destruct (take_hex_st (Some d) hs ds r (S p) x H Hr) as (c & ->). exists r, false. split; [|at_st].
          assert (H' : Forall2 hex_digit (x :: hs) (d :: ds)) by (constructor; assumption).
          rewrite (hex_fold_start _ _ _ _ H'). apply (takes_u (x :: hs) (d :: ds)); [assumption|assumption|discriminate|]. apply coded_token.
        * exists w, false. split; [|at_st]. constructor; [|assumption]. intros (d & Hd). apply hex_to_digit in Hd. congruence.
  Qed.

  Lemma escape_at p w : let '(k, s) := handle_escape (st p w $"\") in
    exists r cut, takes ($"\" :: w) k r cut /\ leaves p w r cut s.
  Proof.
    unfold handle_escape. destruct w as [|x w].
    - rewrite next_nil. exists [], true. split; [constructor|apply leaves_over].
    - rewrite next_cons. destruct (class_of x) as [k|] eqn:Ec.
      { exists w, false. split; [|at_st]. constructor. apply class_table_ok. assumption. }
      destruct (simple_escape x) as [m|] eqn:Es.
      { exists w, false. split; [|at_st]. apply escape_table_ok in Es. destruct Es as [Es|[<- Es]]; constructor; assumption. }
      assert (Lift : forall k s, (exists r cut, takes ($"\" :: x :: w) k r cut /\ leaves (S p) w r cut s) ->
        exists r cut, takes ($"\" :: x :: w) k r cut /\ leaves p (x :: w) r cut s).
      { intros k s (r & cut & Ht & Hl & Hs). exists r, cut. split; [exact Ht|]. split; [cbn [length]; lia|].
        destruct cut; [exact Hs|]. destruct Hs as (c & ->). exists c. f_equal. cbn [length]. lia. }
      destruct (N.eqb_spec x $"c") as [->|Nc].
      { pose proof (control_at (S p) w) as H. destruct (handle_control _) as [o s]. apply Lift, H. }
      destruct (N.eqb_spec x $"x") as [->|Nx].
      { pose proof (x_at (S p) w) as H. destruct (handle_x _) as [o s]. apply Lift, H. }
      destruct (N.eqb_spec x $"u") as [->|Nu].
      { pose proof (u_at (S p) w) as H. destruct (handle_u _) as [o s]. apply Lift, H. }
      exists w, false. split; [|at_st]. constructor. intros Hin. rewrite !in_app_iff in Hin.
      destruct Hin as [Hin|[Hin|[Hin|Hin]]].
      + apply in_map_iff in Hin. destruct Hin as ((c & k) & <- & Hin). apply class_table_ok in Hin. cbn in Ec. congruence.
      + apply in_map_iff in Hin. destruct Hin as ((c & k) & <- & Hin). cbn in Es. assert (Hs : simple_escape c = Some k) by (apply escape_table_ok; auto). congruence.
      + assert (Hs : simple_escape x = Some x) by (apply escape_table_ok; auto). congruence.
      + destruct Hin as [Hin|[Hin|[Hin|[]]]]; [apply Nc|apply Nx|apply Nu]; symmetry; exact Hin.
  Qed.

  (** Repetitions *)
  Lemma reads_ok ds o : Forall digit_char ds -> fold ds (Val (Some 0%N)) = Val o <-> reads ds o.
  Proof.
    intros Hd. split; [|intros H; apply reads_fold; assumption]. intros H. apply (fold_reads ds [] o); [unfold u32; cbn; lia|assumption|exact H].
  Qed.
  Lemma fold_cases ds : Forall digit_char ds ->
    (fold ds (Val (Some 0%N)) = Panic /\ exists u v, ds = u ++ v /\ overflows u) \/
    exists o, fold ds (Val (Some 0%N)) = Val o /\ reads ds o.
  Proof.
    intros Hd. assert (HF : forall l a, a <> Diverge -> fold_left dec_step l a <> Diverge).
    { induction l as [|d l IH]; intros a Ha; cbn; [exact Ha|].
      apply IH. destruct a as [[n|]| |]; cbn -[u32_limit]; try congruence.
      destruct (_ <? _)%N; [|discriminate]. destruct (_ <? _)%N; [discriminate|]. destruct overflow_checks; discriminate. }
    destruct (fold ds (Val (Some 0%N))) as [o| |] eqn:E.
    - right. exists o. split; [reflexivity|]. apply reads_ok; assumption.
    - left. split; [reflexivity|]. apply fold_panic; assumption.
    - exfalso. revert E. apply HF. discriminate.
  Qed.

  Definition outcome (p : nat) (w' w : list char) (e : res (token_kind * tstate)) : Prop :=
    (e = Panic /\ crashes w') \/ exists k s r cut, e = Val (k, s) /\ takes w' k r cut /\ leaves p w r cut s.

  Lemma out_val p w' w k s r cut : takes w' k r cut -> leaves p w r cut s -> outcome p w' w (Val (k, s)).
  Proof. intros H1 H2. right. exists k, s, r, cut. auto. Qed.

  Lemma digit_not_end c : digit_char c -> c <> $"}" /\ c <> $",".
  Proof. unfold digit_char. intros H. split; intros ->; cbn in H; lia. Qed.

  Lemma range_at p w : outcome p ($"{" :: w) w (handle_range (st p w $"{")).
  Proof.
    unfold handle_range. destruct w as [|x w].
    { rewrite next_nil. eapply out_val; [constructor|apply leaves_over]. }
    rewrite next_cons. destruct (to_digit10 x) as [d|] eqn:Ed.
    2:{ eapply out_val; [apply takes_first_bad|at_st]. intros H. rewrite (digit_to_digit x H) in Ed. discriminate. }
    apply digit10_iff in Ed. destruct Ed as [Hx ->]. destruct (dec_span w) as (us & r & -> & Hu & Hr).
    destruct (take_dec_st x us r (S p) x Hx Hu Hr) as (c & ->).
    assert (Hds : dec_string (x :: us)) by (split; [discriminate|constructor; assumption]).
    destruct (fold_cases (x :: us) (proj2 Hds)) as [[-> (u & v & E & Ho)]|(o & -> & Ho)]; cbn [bind].
    { left. split; [reflexivity|]. change (x :: us ++ r) with ((x :: us) ++ r). rewrite E, <- app_assoc. apply crashes_first. assumption. }
    change (x :: us ++ r) with ((x :: us) ++ r).
    destruct r as [|y r].
    { rewrite next_nil, app_nil_r. eapply out_val; [eapply takes_exactly_cut; eassumption|apply leaves_over]. }
    rewrite next_cons. destruct (N.eqb_spec y $",") as [->|Hy].
    2:{ destruct (N.eqb_spec y $"}") as [->|Hy'].
        - assert (Ht := takes_exactly (x :: us) o r Hds Ho). destruct o; (eapply out_val; [exact Ht|at_st]).
        - cbn in Hr. rewrite (to_digit10_none y Hr). eapply out_val; [eapply takes_exactly_bad; eassumption|at_st]. }
    destruct r as [|z r].
    { rewrite next_nil. eapply out_val; [eapply takes_at_least_cut; eassumption|apply leaves_over]. }
    rewrite next_cons. destruct (N.eqb_spec z $"}") as [->|Hz].
    { assert (Ht := takes_at_least (x :: us) o r Hds Ho). destruct o; (eapply out_val; [exact Ht|at_st]). }
    destruct (to_digit10 z) as [d|] eqn:Ed.
    2:{ eapply out_val; [eapply takes_at_least_bad; try eassumption|at_st]. intros H. rewrite (digit_to_digit z H) in Ed. discriminate. }
    apply digit10_iff in Ed. destruct Ed as [Hz' ->]. destruct (dec_span r) as (us2 & r2 & -> & Hu2 & Hr2).
    destruct (take_dec_st z us2 r2 (S (S (S p + length us))) z Hz' Hu2 Hr2) as (c2 & ->).
    assert (Hds2 : dec_string (z :: us2)) by (split; [discriminate|constructor; assumption]).
    destruct (fold_cases (z :: us2) (proj2 Hds2)) as [[-> (u & v & E & Ho2)]|(o2 & -> & Ho2)]; cbn [bind].
    { left. split; [reflexivity|]. change (z :: us2 ++ r2) with ((z :: us2) ++ r2). rewrite E, <- app_assoc. apply crashes_second; assumption. }
    change (z :: us2 ++ r2) with ((z :: us2) ++ r2). destruct r2 as [|y2 r2].
    { rewrite next_nil, app_nil_r. eapply out_val; [eapply takes_between_cut; eassumption|apply leaves_over]. }
    rewrite next_cons. destruct (N.eqb_spec y2 $"}") as [->|Hy2].
    - assert (Ht := takes_between (x :: us) (z :: us2) o o2 r2 Hds Ho Hds2 Ho2). destruct o, o2; (eapply out_val; [exact Ht|at_st]).
    - eapply out_val; [eapply takes_between_bad; eassumption|at_st].
  Qed.

  Lemma token_at p ch w : outcome p (ch :: w) w (token_kind_at ch (st p w ch)).
  Proof.
    unfold token_kind_at. destruct (N.eqb_spec ch $"\") as [->|H1].
    { pose proof (escape_at p w) as H. destruct (handle_escape _) as [k s]. destruct H as (r & cut & Ht & Hl). eapply out_val; eassumption. }
    destruct (N.eqb_spec ch $".") as [->|H2]; [eapply out_val; [constructor|apply leaves_here]|].
    destruct (op_of ch) as [o|] eqn:Eo.
    { eapply out_val; [constructor; apply op_table_ok; assumption|apply leaves_here]. }
    destruct (N.eqb_spec ch $"*") as [->|H3]; [eapply out_val; [apply takes_quant; cbn; tauto|apply leaves_here]|].
    destruct (N.eqb_spec ch $"+") as [->|H4]; [eapply out_val; [apply takes_quant; cbn; tauto|apply leaves_here]|].
    destruct (N.eqb_spec ch $"?") as [->|H5]; [eapply out_val; [apply takes_quant; cbn; tauto|apply leaves_here]|].
    destruct (N.eqb_spec ch $"{") as [->|H6]; [apply range_at|].
    eapply out_val; [apply takes_char|apply leaves_here]. intros Hin.
    cbn in Hin. repeat (destruct Hin as [Hin|Hin]; [subst ch; first [discriminate Eo|contradiction]|]). destruct Hin.
  Qed.

  (** ** Every token of the specification *)

  Definition gives (p : nat) (ch : char) (w : list char) (k : token_kind) (r : list char) (cut : bool) : Prop :=
    exists s, token_kind_at ch (st p w ch) = Val (k, s) /\ leaves p w r cut s.

  Lemma gives_at p ch w k r c q : length r <= length w -> q = p + (length w - length r) ->
    token_kind_at ch (st p w ch) = Val (k, st q r c) -> gives p ch w k r false.
  Proof. intros Hl Hq E. exists (st q r c). split; [exact E|]. apply leaves_at; assumption. Qed.
  Lemma gives_over p ch w k : token_kind_at ch (st p w ch) = Val (k, over) -> gives p ch w k [] true.
  Proof. intros E. exists over. split; [exact E|]. apply leaves_over. Qed.

  Lemma at_escape p x w : token_kind_at $"\" (st p (x :: w) $"\") =
    Val (match class_of x with
         | Some k => (TClass k, st (S p) w x)
         | None =>
             match simple_escape x with
             | Some c => (TMatch c, st (S p) w x)
             | None =>
                 if (x =? $"c")%N then let '(r, s2) := handle_control (st (S p) w x) in (match_or_invalid r, s2)
                 else if (x =? $"x")%N then let '(r, s2) := handle_x (st (S p) w x) in (match_or_invalid r, s2)
                 else if (x =? $"u")%N then let '(r, s2) := handle_u (st (S p) w x) in (match_or_invalid r, s2)
                 else (TInvalid, st (S p) w x)
             end
         end).
  Proof. reflexivity. Qed.
  Lemma at_c p w : token_kind_at $"\" (st p ($"c" :: w) $"\") =
    Val (let '(r, s2) := handle_control (st (S p) w $"c") in (match_or_invalid r, s2)).
  Proof. reflexivity. Qed.
  Lemma at_x p w : token_kind_at $"\" (st p ($"x" :: w) $"\") =
    Val (let '(r, s2) := handle_x (st (S p) w $"x") in (match_or_invalid r, s2)).
  Proof. reflexivity. Qed.
  Lemma at_u p w : token_kind_at $"\" (st p ($"u" :: w) $"\") =
    Val (let '(r, s2) := handle_u (st (S p) w $"u") in (match_or_invalid r, s2)).
  Proof. reflexivity. Qed.

  Lemma escape_other c : ~ In c (map fst class_table ++ map fst escape_table ++ quoted ++ str "cxu"%string) ->
    class_of c = None /\ simple_escape c = None /\ c <> $"c" /\ c <> $"x" /\ c <> $"u".
  Proof.
    intros H. rewrite !in_app_iff in H. split; [|split; [|repeat split; intros ->; apply H; cbn; tauto]].
    - destruct (class_of c) as [k|] eqn:E; [|reflexivity]. apply class_table_ok in E. exfalso. apply H. left. apply in_map_iff. exists (c, k). auto.
    - destruct (simple_escape c) as [k|] eqn:E; [|reflexivity]. apply escape_table_ok in E. exfalso. apply H. right.
      destruct E as [E|[_ E]]; [left|auto]. apply in_map_iff. exists (c, k). auto.
  Qed.

  Lemma class_no_escape c k : In (c, k) escape_table \/ c = k /\ In c quoted -> class_of c = None.
  Proof.
    intros [H|[_ H]]; cbn in H.
    - repeat (destruct H as [H|H]; [injection H as <- <-; reflexivity|]). destruct H.
    - repeat (destruct H as [<-|H]; [reflexivity|]). destruct H.
  Qed.

  (** The beginning of a repetition. *)
  Lemma range_first p ds o r : dec_string ds -> reads ds o -> no_digit_next r -> exists c,
    handle_range (st p (ds ++ r) $"{") =
      let '(o3, s3) := ts_next (st (p + length ds) r c) in
            match o3 with
            | None => Val (TInvalid, s3)
            | Some (_, ch) =>
                let '(o4, s4, comma) :=
                  if (ch =? $",")%N then let '(o, s') := ts_next s3 in (o, s', true)
                  else (o3, s3, false) in
                match o4 with
                | None => Val (TInvalid, s4)
                | Some (_, ch) =>
                    if (ch =? $"}")%N then
                      match o with
                      | None => Val (TInvalid, s4)
                      | Some v => Val (TQuant (if comma : bool then QMin v else QMax v), s4)
                      end
                    else
                      match to_digit10 ch with
                      | None => Val (TInvalid, s4)
                      | Some d2 =>
                          let! (second, s5) := take_dec d2 s4 in
                          let '(o6, s6) := ts_next s5 in
                          match o6 with
                          | None => Val (TInvalid, s6)
                          | Some (_, ch) =>
                              if (ch =? $"}")%N then
                                match o, second with
                                | Some a, Some b => Val (TQuant (QRange a b), s6)
                                | _, _ => Val (TInvalid, s6)
                                end
                              else Val (TInvalid, s6)
                          end
                      end
                end
            end.
  Proof.
    intros Hd Ho Hr. destruct (dec_string_cons ds Hd) as (x & us & -> & Hx & Hu).
    destruct (take_dec_st x us r (S p) x Hx Hu Hr) as (c & E). exists c. unfold handle_range. cbn [app]. rewrite next_cons.
    rewrite (digit_to_digit x Hx), E. rewrite (reads_fold _ _ Ho) by (constructor; assumption). cbn [bind length].
    rewrite Nat.add_succ_r. reflexivity.
  Qed.

  Lemma comma_stops r : no_digit_next ($"," :: r).
  Proof. cbn. unfold digit_char. lia. Qed.
  Lemma close_stops r : no_digit_next ($"}" :: r).
  Proof. cbn. unfold digit_char. lia. Qed.
  Lemma close_no_hex r : no_hex_next ($"}" :: r).
  Proof. cbn. unfold is_hex, hex_digit. intros (d & H). cbn in H. lia. Qed.

  (** ... and the second number. *)
  Lemma range_second p ds1 ds2 o1 o2 r : dec_string ds1 -> reads ds1 o1 -> dec_string ds2 -> reads ds2 o2 -> no_digit_next r -> exists c,
    handle_range (st p (ds1 ++ $"," :: ds2 ++ r) $"{") =
      let '(o6, s6) := ts_next (st (p + length ds1 + 1 + length ds2) r c) in
      match o6 with
      | None => Val (TInvalid, s6)
      | Some (_, ch) =>
          if (ch =? $"}")%N then
            match o1, o2 with
            | Some a, Some b => Val (TQuant (QRange a b), s6)
            | _, _ => Val (TInvalid, s6)
            end
          else Val (TInvalid, s6)
      end.
  Proof.
    intros Hd1 Ho1 Hd2 Ho2 Hr. destruct (range_first p ds1 o1 ($"," :: ds2 ++ r) Hd1 Ho1 (comma_stops _)) as (c & ->).
    destruct (dec_string_cons ds2 Hd2) as (x & us & -> & Hx & Hu). rewrite next_cons.
    change ($"," =? $",")%N with true. cbv iota. cbn [app]. rewrite next_cons.
    destruct (N.eqb_spec x $"}") as [E|_]; [destruct (digit_not_end x Hx); contradiction|]. rewrite (digit_to_digit x Hx).
    destruct (take_dec_st x us r (S (S (p + length ds1))) x Hx Hu Hr) as (c' & ->).
    rewrite (reads_fold _ _ Ho2) by (constructor; assumption). cbn [bind]. exists c'.
    replace (S (S (p + length ds1)) + length us) with (p + length ds1 + 1 + length (x :: us)) by (cbn [length]; lia). reflexivity.
  Qed.

  Lemma at_brace p w : token_kind_at $"{" (st p w $"{") = handle_range (st p w $"{").
  Proof. reflexivity. Qed.

  Lemma token_of p w' k r cut : takes w' k r cut -> exists ch w, w' = ch :: w /\ gives p ch w k r cut.
  Proof.
    destruct 1.
    - exists c, r. split; [reflexivity|]. apply (gives_at _ _ _ _ _ c p); [lens|lens|]. unfold token_kind_at, op_of.
      assert (HN : forall x, In x (str "\.[]()^|-*+?{"%string) -> (c =? x)%N = false) by (intros x Hx; apply N.eqb_neq; intros ->; contradiction).
      rewrite !HN by (cbn; tauto). reflexivity.
    - exists $".", r. split; [reflexivity|]. apply (gives_at _ _ _ _ _ $"." p); [lens|lens|reflexivity].
    - exists c, r. split; [reflexivity|]. apply (gives_at _ _ _ _ _ c p); [lens|lens|].
      cbn in H. repeat (destruct H as [H|H]; [injection H as <- <-; reflexivity|]). destruct H.
    - exists c, r. split; [reflexivity|]. apply (gives_at _ _ _ _ _ c p); [lens|lens|].
      cbn in H. repeat (destruct H as [H|H]; [injection H as <- <-; reflexivity|]). destruct H.
    - exists $"\", (c :: r). split; [reflexivity|]. apply (gives_at _ _ _ _ _ c (S p)); [lens|lens|].
      rewrite at_escape. apply class_table_ok in H. rewrite H. reflexivity.
    - exists $"\", (c :: r). split; [reflexivity|]. apply (gives_at _ _ _ _ _ c (S p)); [lens|lens|].
      rewrite at_escape, (class_no_escape c x) by auto.
      assert (Hs : simple_escape c = Some x) by (apply escape_table_ok; auto). rewrite Hs. reflexivity.
    - exists $"\", (c :: r). split; [reflexivity|]. apply (gives_at _ _ _ _ _ c (S p)); [lens|lens|].
      rewrite at_escape, (class_no_escape c c) by auto.
      assert (Hs : simple_escape c = Some c) by (apply escape_table_ok; auto). rewrite Hs. reflexivity.
    - exists $"\", ($"c" :: c :: r). split; [reflexivity|]. apply (gives_at _ _ _ _ _ c (S (S p))); [lens|lens|].
      rewrite at_c. unfold handle_control. rewrite next_cons.
      assert (Hl : exists n, letter c n) by eauto. apply letter_ok in Hl. rewrite Hl, (letter_code c n H). reflexivity.
    - exists $"\", ($"c" :: c :: r). split; [reflexivity|]. apply (gives_at _ _ _ _ _ c (S (S p))); [lens|lens|].
      rewrite at_c. unfold handle_control. rewrite next_cons. destruct (_ || _) eqn:E; [|reflexivity].
      apply letter_ok in E. destruct E as (n & E). destruct (H n E).
    - exists $"\", [$"c"]. split; [reflexivity|]. apply gives_over. reflexivity.
    - exists $"\", ($"x" :: hs ++ r). split; [reflexivity|].
      destruct (take_hex_st None hs ds r (S p) $"x" H H0) as (c & E). apply (gives_at _ _ _ _ _ c (S p + length hs)); [lens|lens|].
      rewrite at_x. unfold handle_x. rewrite E, H1. cbn [Nat.add Nat.eqb]. apply coded_only in H2. rewrite H2.
      destruct hs as [|h1 [|h2 [|]]]; try discriminate H1. inversion H as [|? d1 ? ds1 K1 K']; subst. inversion K' as [|? d2 ? ds2 K2 K'']; subst. inversion K''; subst.
      assert (Hv : fold_left hex_step [d1; d2] 0%N = hex_value 0 [d1; d2]); [|rewrite Hv; reflexivity].
      rewrite (hex_fold_all _ _ H). apply N.mod_small. apply hex_digit_lt in K1, K2. unfold hex_value, two32. cbn [fold_left]. lia.
    - exists $"\", ($"x" :: hs ++ r). split; [reflexivity|].
      destruct (take_hex_st None hs ds r (S p) $"x" H H0) as (c & E). apply (gives_at _ _ _ _ _ c (S p + length hs)); [lens|lens|].
      rewrite at_x. unfold handle_x. rewrite E. cbn [Nat.add]. destruct (Nat.eqb_spec (length hs) 2); [contradiction|]. reflexivity.
    - exists $"\", ($"u" :: hs ++ r). split; [reflexivity|]. destruct H as [|h d hs ds Hh H]; [contradiction|].
      destruct (take_hex_st (Some d) hs ds r (S (S p)) h H H0) as (c & E). apply (gives_at _ _ _ _ _ c (S (S p) + length hs)); [lens|lens|].
      rewrite at_u. unfold handle_u. cbn [app]. rewrite next_cons.
      assert (Hb : h <> $"{") by (intros ->; unfold hex_digit in Hh; cbn in Hh; lia). apply N.eqb_neq in Hb. rewrite Hb.
      rewrite (hex_to_digit h d Hh), E. apply coded_only in H2. rewrite H2.
      rewrite (hex_fold_start h hs d ds) by (constructor; assumption). reflexivity.
    - exists $"\", ($"u" :: c :: r). split; [reflexivity|]. apply (gives_at _ _ _ _ _ c (S (S p))); [lens|lens|].
      rewrite at_u. unfold handle_u. rewrite next_cons. apply N.eqb_neq in H0. rewrite H0, (not_hex_none c H). reflexivity.
    - exists $"\", [$"u"]. split; [reflexivity|]. apply gives_over. reflexivity.
    - exists $"\", ($"u" :: $"{" :: hs ++ $"}" :: r). split; [reflexivity|].
      destruct (take_hex_st None hs ds ($"}" :: r) (S (S p)) $"{" H (close_no_hex r)) as (c & E).
      apply (gives_at _ _ _ _ _ $"}" (S (S (S p) + length hs))); [lens|lens|].
      rewrite at_u. unfold handle_u. rewrite next_cons. change ($"{" =? $"{")%N with true. cbv iota. rewrite E. cbn [Nat.add].
      destruct (Nat.ltb_spec (length hs) 4); [lia|]. rewrite next_cons. change ($"}" =? $"}")%N with true. cbv iota.
      rewrite (hex_fold_all _ _ H). apply coded_only in H1. rewrite H1. reflexivity.
    - exists $"\", ($"u" :: $"{" :: hs ++ r). split; [reflexivity|].
      destruct (take_hex_st None hs ds r (S (S p)) $"{" H H0) as (c & E).
      apply (gives_at _ _ _ _ _ c (S (S p) + length hs)); [lens|lens|].
      rewrite at_u. unfold handle_u. rewrite next_cons. change ($"{" =? $"{")%N with true. cbv iota. rewrite E. cbn [Nat.add].
      destruct (Nat.ltb_spec (length hs) 4); [|lia]. reflexivity.
    - exists $"\", ($"u" :: $"{" :: hs ++ c :: r). split; [reflexivity|].
      destruct (take_hex_st None hs ds (c :: r) (S (S p)) $"{" H H1) as (c' & E).
      apply (gives_at _ _ _ _ _ c (S (S (S p) + length hs))); [lens|lens|].
      rewrite at_u. unfold handle_u. rewrite next_cons. change ($"{" =? $"{")%N with true. cbv iota. rewrite E. cbn [Nat.add].
      destruct (Nat.ltb_spec (length hs) 4); [lia|]. rewrite next_cons. apply N.eqb_neq in H2. rewrite H2. reflexivity.
    - exists $"\", ($"u" :: $"{" :: hs). split; [reflexivity|].
      destruct (take_hex_st None hs ds [] (S (S p)) $"{" H I) as (c' & E). rewrite app_nil_r in E.
      apply gives_over.
      rewrite at_u. unfold handle_u. rewrite next_cons. change ($"{" =? $"{")%N with true. cbv iota. rewrite E. cbn [Nat.add].
      destruct (Nat.ltb_spec (length hs) 4); [lia|]. reflexivity.
    - exists $"\", (c :: r). split; [reflexivity|]. apply (gives_at _ _ _ _ _ c (S p)); [lens|lens|].
      rewrite at_escape. destruct (escape_other c H) as (-> & -> & H1 & H2 & H3). apply N.eqb_neq in H1, H2, H3. rewrite H1, H2, H3. reflexivity.
    - exists $"\", []. split; [reflexivity|]. apply gives_over. reflexivity.
    - exists $"{", (ds ++ $"}" :: r). split; [reflexivity|]. destruct (range_first p ds o ($"}" :: r) H H0 (close_stops r)) as (c & E).
      apply (gives_at _ _ _ _ _ $"}" (S (p + length ds))); [lens|lens|]. rewrite at_brace, E. destruct o; reflexivity.
    - exists $"{", (ds ++ $"," :: $"}" :: r). split; [reflexivity|]. destruct (range_first p ds o ($"," :: $"}" :: r) H H0 (comma_stops _)) as (c & E).
      apply (gives_at _ _ _ _ _ $"}" (S (S (p + length ds)))); [lens|lens|]. rewrite at_brace, E. destruct o; reflexivity.
    - exists $"{", (ds1 ++ $"," :: ds2 ++ $"}" :: r). split; [reflexivity|].
      destruct (range_second p ds1 ds2 o1 o2 ($"}" :: r) H H0 H1 H2 (close_stops r)) as (c & E).
      apply (gives_at _ _ _ _ _ $"}" (S (p + length ds1 + 1 + length ds2))); [lens|lens|]. rewrite at_brace, E. destruct o1, o2; reflexivity.
    - exists $"{", (c :: r). split; [reflexivity|]. apply (gives_at _ _ _ _ _ c (S p)); [lens|lens|].
      rewrite at_brace. unfold handle_range. rewrite next_cons, (to_digit10_none c H). reflexivity.
    - exists $"{", []. split; [reflexivity|]. apply gives_over. reflexivity.
    - exists $"{", (ds ++ c :: r). split; [reflexivity|]. destruct (range_first p ds o (c :: r) H H0 H1) as (c' & E).
      apply (gives_at _ _ _ _ _ c (S (p + length ds))); [lens|lens|]. rewrite at_brace, E, next_cons.
      apply N.eqb_neq in H2, H3. rewrite H2, H3, (to_digit10_none c H1). reflexivity.
    - exists $"{", ds. split; [reflexivity|]. destruct (range_first p ds o [] H H0 I) as (c' & E). rewrite app_nil_r in E.
      apply gives_over. rewrite at_brace, E. reflexivity.
    - exists $"{", (ds ++ $"," :: c :: r). split; [reflexivity|]. destruct (range_first p ds o ($"," :: c :: r) H H0 (comma_stops _)) as (c' & E).
      apply (gives_at _ _ _ _ _ c (S (S (p + length ds)))); [lens|lens|]. rewrite at_brace, E, next_cons.
      change ($"," =? $",")%N with true. cbv iota. rewrite next_cons. apply N.eqb_neq in H2. rewrite H2, (to_digit10_none c H1). reflexivity.
    - exists $"{", (ds ++ [$","]). split; [reflexivity|]. destruct (range_first p ds o [$","] H H0 (comma_stops _)) as (c' & E).
      apply gives_over. rewrite at_brace, E. reflexivity.
    - exists $"{", (ds1 ++ $"," :: ds2 ++ c :: r). split; [reflexivity|].
      destruct (range_second p ds1 ds2 o1 o2 (c :: r) H H0 H1 H2 H3) as (c' & E).
      apply (gives_at _ _ _ _ _ c (S (p + length ds1 + 1 + length ds2))); [lens|lens|]. rewrite at_brace, E, next_cons.
      apply N.eqb_neq in H4. rewrite H4. reflexivity.
    - exists $"{", (ds1 ++ $"," :: ds2). split; [reflexivity|].
      destruct (range_second p ds1 ds2 o1 o2 [] H H0 H1 H2 I) as (c' & E). rewrite app_nil_r in E.
      apply gives_over. rewrite at_brace, E. reflexivity.
  Qed.

  Lemma crash_of p w' : crashes w' -> exists ch w, w' = ch :: w /\ token_kind_at ch (st p w ch) = Panic.
  Proof.
    assert (Hpre : forall u r, dec_string u -> exists us r', u ++ r = us ++ r' /\ dec_string us /\ no_digit_next r' /\ exists v, us = u ++ v).
    { intros u r Hu. destruct (dec_span r) as (us & r' & -> & H & Hr). exists (u ++ us), r'. rewrite app_assoc. split; [reflexivity|].
      destruct Hu as [Hne Hu]. split; [split|split]; [destruct u; [congruence|discriminate]|apply Forall_app; auto|assumption|eauto]. }
    destruct 1 as [ds r Ho|ds1 ds2 r Hd1 Ho].
    - exists $"{", (ds ++ r). split; [reflexivity|]. rewrite at_brace. pose proof Ho as (_ & Hd & _).
      destruct (Hpre ds r Hd) as (us & r' & -> & Hus & Hr & v & ->). destruct (dec_string_cons _ Hus) as (x & us & Eu & Hx & Hu).
      assert (Hp : fold (ds ++ v) (Val (Some 0%N)) = Panic) by (apply fold_panic; [apply Hus|eauto]).
      rewrite Eu in *. cbn [app]. unfold handle_range. rewrite next_cons, (digit_to_digit x Hx).
      destruct (take_dec_st x us r' (S p) x Hx Hu Hr) as (c & ->). rewrite Hp. reflexivity.
    - exists $"{", (ds1 ++ $"," :: ds2 ++ r). split; [reflexivity|]. rewrite at_brace. pose proof Ho as (_ & Hd & _).
      destruct (Hpre ds2 r Hd) as (us & r' & -> & Hus & Hr & v & ->).
      assert (Hp : fold (ds2 ++ v) (Val (Some 0%N)) = Panic) by (apply fold_panic; [apply Hus|eauto]).
      destruct (fold_cases ds1 (proj2 Hd1)) as [[E _]|(o1 & _ & Ho1)].
      + destruct (dec_string_cons _ Hd1) as (x & us1 & -> & Hx & Hu). cbn [app]. unfold handle_range. rewrite next_cons, (digit_to_digit x Hx).
        destruct (take_dec_st x us1 ($"," :: (ds2 ++ v) ++ r') (S p) x Hx Hu (comma_stops _)) as (c & ->). rewrite E. reflexivity.
      + destruct (range_first p ds1 o1 ($"," :: (ds2 ++ v) ++ r') Hd1 Ho1 (comma_stops _)) as (c & ->). rewrite next_cons.
        change ($"," =? $",")%N with true. cbv iota. destruct (dec_string_cons _ Hus) as (x & us & Eu & Hx & Hu). rewrite Eu in *. cbn [app]. rewrite next_cons.
        destruct (N.eqb_spec x $"}") as [E|_]; [destruct (digit_not_end x Hx); contradiction|]. rewrite (digit_to_digit x Hx).
        destruct (take_dec_st x us r' (S (S (p + length ds1))) x Hx Hu Hr) as (c' & ->). rewrite Hp. reflexivity.
  Qed.

  (** ** All tokens *)

  Lemma takes_shorter w k r cut : takes w k r cut -> length r < length w.
  Proof. destruct 1; lens. Qed.

  Lemma tok_next_st p c w cur : tok_next {| ts_rest := enumerate p (c :: w); ts_cur := cur |} =
    let! (k, s2) := token_kind_at c (st p w c) in Val (Some {| tk_kind := k; tk_pos := (p, token_end s2) |}, s2).
  Proof. reflexivity. Qed.

  Lemma leaves_end p w r (cut : bool) s : leaves p w r cut s ->
    token_end s = (if cut then 1 else p + (S (length w) - length r)) /\
    ts_rest s = enumerate (p + (S (length w) - length r)) r.
  Proof.
    intros [Hl H]. destruct cut.
    - destruct H as [-> ->]. split; reflexivity.
    - destruct H as (c & ->). unfold token_end, st. cbn [ts_cur ts_rest]. split; [lia|]. f_equal. lia.
  Qed.

  Lemma stream_ok : forall n w p cur f, length w < n -> length w < f ->
    forall l, tok_stream f {| ts_rest := enumerate p w; ts_cur := cur |} = l <-> tokenizes p w l.
  Proof.
    induction n as [|n IH]; intros w p cur f Hn Hf l; [lia|]. destruct f as [|f]; [lia|]. destruct w as [|c w].
    - split; [intros <-; constructor|]. intros H. inversion H; subst; [reflexivity| |].
      + inversion H0.
      + inversion H0; subst; discriminate.
    - cbn [tok_stream]. rewrite tok_next_st. split.
      + intros <-. destruct (token_at p c w) as [[-> Hc]|(k & s & r & cut & -> & Ht & Hl)]; cbn [bind]; [constructor; assumption|].
        pose proof (takes_shorter _ _ _ _ Ht) as Hs. destruct (leaves_end _ _ _ _ _ Hl) as [-> Er]. destruct s as [sr sc]. cbn [ts_rest] in Er. subst sr.
        apply (tokenizes_token p (c :: w) k r cut); [assumption|]. cbn [length] in *. apply (IH r _ sc f); [lia|lia|reflexivity].
      + intros H. inversion H as [|? ? Hc|? ? k r cut l' Ht Hl']; subst.
        * destruct (crash_of p _ Hc) as (ch & w' & [= <- <-] & ->). reflexivity.
        * pose proof (takes_shorter _ _ _ _ Ht) as Hs. destruct (token_of p _ _ _ _ Ht) as (ch & w' & [= <- <-] & s & -> & Hl). cbn [bind].
          destruct (leaves_end _ _ _ _ _ Hl) as [-> Er]. destruct s as [sr sc]. cbn [ts_rest] in Er. subst sr.
          f_equal. cbn [length] in *. apply (IH r _ sc f); [lia|lia|assumption].
  Qed.

  Lemma tokens_ok w l : tokens_of w = l <-> tokenizes 0 w l.
  Proof. apply (stream_ok (S (length w))); lia. Qed.

  Lemma tokens_one w : exists! l, tokenizes 0 w l.
  Proof.
    exists (tokens_of w). split; [apply tokens_ok; reflexivity|]. intros l H. apply tokens_ok. assumption.
  Qed.

  Lemma tokens_regex w l ks : tokenizes 0 w l -> stream_kinds l = Some ks ->
    (forall e, regex_parse w = Val (ParseOk e) <-> read_as ks e) /\
    ((exists errs, regex_parse w = Val (ParseErr errs)) <-> ~ exists e, read_as ks e).
  Proof.
    intros H Hk. apply tokens_ok in H. subst l. split; [exact (fun e => parse_reads w ks e Hk)|exact (parse_rejects w ks Hk)].
  Qed.
End Tokens.
