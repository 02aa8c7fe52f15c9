(** The [Debug] text of a token determines it. *)
From Verif Require Import Base RegexModel NfaModel LexerModel DotModel DebugModel SpecDebug DebugProofs DebugTypes.

(** ** Hexadecimal numbers *)

Definition is_hex (c : char) : Prop := (48 <= c <= 57 \/ 97 <= c <= 102)%N.
Definition hex_value (c : char) : N := (if c <? 58 then c - 48 else c - 87)%N.
Definition hex_number (ds : list char) : N := fold_left (fun v c => 16 * v + hex_value c)%N ds 0%N.

Lemma hex_digit d : (d < 16)%N -> is_hex (if (d <? 10)%N then 48 + d else 87 + d)%N /\ hex_value (if (d <? 10)%N then 48 + d else 87 + d)%N = d.
Proof.
  intros H. unfold is_hex, hex_value. destruct (N.ltb_spec d 10).
  - destruct (N.ltb_spec (48 + d) 58); lia.
  - destruct (N.ltb_spec (87 + d) 58); lia.
Qed.

Lemma hex_digits_read fuel : forall n acc, (n < 2 ^ N.of_nat fuel)%N ->
  exists ds, hex_digits fuel n acc = ds ++ acc /\ Forall is_hex ds /\ hex_number ds = n.
Proof.
  induction fuel as [|fuel IH]; intros n acc Hn.
  - exists []. cbn in *. repeat split; auto. lia.
  - cbn [hex_digits]. pose proof (N.mod_lt n 16 ltac:(lia)) as Hm. destruct (hex_digit (n mod 16) Hm) as [D1 D2].
    destruct (N.ltb_spec n 16).
    + eexists [_]. split; [reflexivity|]. split; [constructor; [exact D1|constructor]|]. unfold hex_number. cbn [fold_left].
      rewrite D2, N.mod_small by lia. lia.
    + assert (Hd : (n / 16 < 2 ^ N.of_nat fuel)%N).
      { apply N.div_lt_upper_bound; [lia|]. rewrite Nat2N.inj_succ, N.pow_succ_r' in Hn. lia. }
      destruct (IH (n / 16)%N ((if (n mod 16 <? 10)%N then 48 + n mod 16 else 87 + n mod 16)%N :: acc) Hd) as (ds & E & Hf & Hv).
      exists (ds ++ [(if (n mod 16 <? 10)%N then 48 + n mod 16 else 87 + n mod 16)%N]). repeat split.
      * rewrite E, <- app_assoc. reflexivity.
      * apply Forall_app. split; [auto|]. constructor; [exact D1|constructor].
      * unfold hex_number in *. rewrite fold_left_app, Hv. cbn [fold_left]. rewrite D2.
        pose proof (N.div_mod n 16 ltac:(lia)) as Hq. clear -Hq. generalize dependent (n mod 16)%N. generalize (n / 16)%N. intros; lia.
Qed.

Lemma hex_read n : exists ds, hex_digits (S (N.to_nat (N.log2 n))) n [] = ds /\ Forall is_hex ds /\ hex_number ds = n.
Proof.
  destruct (hex_digits_read (S (N.to_nat (N.log2 n))) n []) as (ds & E & H).
  - rewrite Nat2N.inj_succ, N2Nat.id. destruct (N.eq_dec n 0) as [->|Hn]; [reflexivity|]. apply N.log2_spec. lia.
  - exists ds. rewrite E, app_nil_r. split; [reflexivity|exact H].
Qed.

Lemma hex_split ds : forall ds' r r', Forall is_hex ds -> Forall is_hex ds' ->
  ds ++ str "}" ++ r = ds' ++ str "}" ++ r' -> ds = ds' /\ r = r'.
Proof.
  induction ds as [|d ds IH]; intros [|d' ds'] r r' H H' E; cbn in E; injection E; intros.
  - split; [reflexivity|assumption].
  - exfalso. inversion H'; subst. unfold is_hex in *. lia.
  - exfalso. inversion H; subst. unfold is_hex in *. lia.
  - subst. inversion H; subst. inversion H'; subst. destruct (IH ds' r r') as [-> ->]; try assumption. split; reflexivity.
Qed.

Section Escape.
  Context (printable : char -> bool) (q : char).
  Hypothesis Hq : q = 34%N \/ q = 39%N.

  (** The cases of [escape]. *)
  Inductive escaped (c : char) : list char -> Prop :=
  | esc_short x : In (c, x) [(0, 48); (9, 116); (10, 110); (13, 114); (92, 92); (q, q)]%N -> escaped c [92%N; x]
  | esc_plain : c <> 92%N -> c <> q -> c <> 10%N -> escaped c [c]
  | esc_hex ds : Forall is_hex ds -> hex_number ds = c -> escaped c (str "\u{" ++ ds ++ str "}").

  Lemma escape_cases c : escaped c (escape printable q c).
  Proof.
    unfold escape.
    destruct (N.eqb_spec c 0) as [->|N0]; [apply esc_short; cbn; auto 10|].
    destruct (N.eqb_spec c 9) as [->|N9]; [apply esc_short; cbn; auto 10|].
    destruct (N.eqb_spec c 10) as [->|N10]; [apply esc_short; cbn; auto 10|].
    destruct (N.eqb_spec c 13) as [->|N13]; [apply esc_short; cbn; auto 10|].
    destruct (N.eqb_spec c 92) as [->|N92]; [apply esc_short; cbn; auto 10|].
    destruct (N.eqb_spec c q) as [->|Nq]; [apply esc_short; cbn; auto 10|].
    destruct (printable c); [apply esc_plain; assumption|].
    destruct (hex_read c) as (ds & -> & H1 & H2). apply esc_hex; assumption.
  Qed.

  Lemma escaped_literal c u w : escaped c u -> literal q w -> literal q (u ++ w).
  Proof.
    intros [x Hx|H1 H2 H3|ds H1 H2] Hw.
    - apply literal_escape; [|assumption]. cbn in Hx. destruct Hq as [->| ->]; intuition congruence.
    - apply literal_char; assumption.
    - cbn [app str]. change (str "\u{" ++ ds ++ str "}") with (92%N :: 117%N :: 123%N :: ds ++ [125%N]). cbn [app].
      apply literal_escape; [discriminate|]. apply literal_char; [destruct Hq as [->| ->]; discriminate|discriminate|discriminate|].
      rewrite <- app_assoc. clear H2. induction H1 as [|d ds Hd Hds IH]; cbn [app].
      + apply literal_char; [destruct Hq as [->| ->]; discriminate|discriminate|discriminate|assumption].
      + unfold is_hex in Hd. apply literal_char; [destruct Hq as [->| ->]; lia|lia|lia|assumption].
  Qed.

  Lemma escaped_split c c' u u' r r' : escaped c u -> escaped c' u' -> u ++ r = u' ++ r' -> c = c' /\ r = r'.
  Proof.
    intros [x Hx|H1 H2 H3|ds H1 H2] [x' Hx'|H1' H2' H3'|ds' H1' H2'] E; cbn in E.
    - injection E as -> ->. split; [|reflexivity]. cbn in Hx, Hx'. destruct Hq as [Q|Q]; rewrite Q in *; intuition congruence.
    - injection E as <- E. congruence.
    - injection E as -> E. exfalso. cbn in Hx. destruct Hq as [Q|Q]; rewrite Q in *; intuition congruence.
    - injection E as -> E. congruence.
    - injection E as -> ->. split; reflexivity.
    - injection E as -> E. exfalso. apply H1. reflexivity.
    - injection E as <- E. exfalso. cbn in Hx'. destruct Hq as [Q|Q]; rewrite Q in *; intuition congruence.
    - injection E as <- E. exfalso. apply H1'. reflexivity.
    - injection E as E. change [125%N] with (str "}") in E. rewrite <- !app_assoc in E.
      apply hex_split in E; try assumption. destruct E as [<- <-]. split; [congruence|reflexivity].
  Qed.

  Lemma escape_literal w : literal q (flat_map (escape printable q) w ++ [q]).
  Proof.
    induction w as [|c w IH]; cbn [flat_map app]; [constructor|]. rewrite <- app_assoc.
    apply (escaped_literal c); [apply escape_cases|assumption].
  Qed.

  Lemma escaped_not_quote c u r : escaped c u -> u ++ r <> [q].
  Proof.
    intros [x Hx|H1 H2 H3|ds H1 H2] E; cbn in E; injection E; intros; subst; destruct Hq; subst; try discriminate; congruence.
  Qed.

  Lemma escape_inj w : forall w', flat_map (escape printable q) w ++ [q] = flat_map (escape printable q) w' ++ [q] -> w = w'.
  Proof.
    induction w as [|c w IH]; intros [|c' w'] E; cbn [flat_map app] in E; [reflexivity| | |].
    - exfalso. rewrite <- app_assoc in E. exact (escaped_not_quote c' _ _ (escape_cases c') (eq_sym E)).
    - exfalso. rewrite <- app_assoc in E. exact (escaped_not_quote c _ _ (escape_cases c) E).
    - rewrite <- !app_assoc in E. destruct (escaped_split c c' _ _ _ _ (escape_cases c) (escape_cases c') E) as [<- E'].
      f_equal. apply IH. assumption.
  Qed.
End Escape.

Lemma telling_str printable : telling (dbg_str printable).
Proof.
  split.
  - intros w. apply tame_literal; [left; reflexivity|]. apply escape_literal. left. reflexivity.
  - intros w w' E. injection E as E. apply (escape_inj printable 34 (or_introl eq_refl)). assumption.
Qed.

Lemma telling_token printable {K} (dbg_k : K -> dbg) : telling dbg_k -> telling (dbg_token printable dbg_k).
Proof.
  intros [K1 K2]. destruct (telling_str printable) as [S1 S2]. destruct telling_nat as [N1 N2]. split.
  - intros t. unfold dbg_token. apply tame_struct; [discriminate|word|]. tames; [apply K1|apply S1|].
    apply tame_tuple; [constructor|]. tames; apply N1.
  - intros [k w [a b]] [k' w' [a' b']] E. unfold dbg_token, dstruct, dtuple in E. cbn [map fst snd lt_kind lt_source lt_pos] in E.
    assert (k = k') as -> by (apply K2; congruence). assert (w = w') as -> by (apply S2; congruence).
    assert (a = a') as -> by (apply N2; congruence). assert (b = b') as -> by (apply N2; congruence). reflexivity.
Qed.

(** [show_char] of the dot texts escapes in the same way. *)
Lemma show_char_escape printable c : show_char printable c = 39%N :: escape printable 39 c ++ [39%N].
Proof.
  unfold show_char, escape. destruct (N.eqb_spec c 0) as [->|]; [reflexivity|]. destruct (N.eqb_spec c 9) as [->|]; [reflexivity|].
  destruct (N.eqb_spec c 10) as [->|]; [reflexivity|]. destruct (N.eqb_spec c 13) as [->|]; [reflexivity|].
  destruct (N.eqb_spec c 39) as [->|]; [reflexivity|]. destruct (N.eqb_spec c 92) as [->|]; [reflexivity|].
  destruct (printable c); reflexivity.
Qed.
Lemma telling_char printable : telling (fun c => Atom (show_char printable c)).
Proof.
  split.
  - intros c. rewrite show_char_escape. apply tame_literal; [right; reflexivity|].
    apply (escaped_literal printable 39 (or_intror eq_refl) c); [apply escape_cases|constructor].
  - intros c c' E0. assert (E : show_char printable c = show_char printable c') by congruence.
    rewrite !show_char_escape in E. injection E as E.
    exact (proj1 (escaped_split printable 39%N (or_intror eq_refl) c c' _ _ _ _ (escape_cases printable 39 c) (escape_cases printable 39 c') E)).
Qed.
