(** The text of regex errors determines them. *)
From Verif Require Import Base RegexModel DotModel ErrorModel SpecDot SpecErrors DotProofs.

Lemma dec_digits_read fuel : forall n acc, (n < 2 ^ N.of_nat fuel)%N ->
  exists ds, dec_digits fuel n acc = ds ++ acc /\ Forall is_digit ds /\ number ds = n.
Proof.
  induction fuel as [|fuel IH]; intros n acc Hn.
  - exists []. cbn in *. repeat split; auto. lia.
  - cbn [dec_digits]. destruct (N.ltb_spec n 10).
    + exists [(48 + n mod 10)%N]. rewrite N.mod_small by lia. split; [reflexivity|]. split; [constructor; [unfold is_digit; lia|constructor]|]. unfold number. cbn [fold_left]. lia.
    + assert (Hd : (n / 10 < 2 ^ N.of_nat fuel)%N).
      { apply N.div_lt_upper_bound; [lia|]. rewrite Nat2N.inj_succ, N.pow_succ_r' in Hn. lia. }
      destruct (IH (n / 10)%N ((48 + n mod 10)%N :: acc) Hd) as (ds & E & Hf & Hv).
      exists (ds ++ [(48 + n mod 10)%N]). pose proof (N.mod_lt n 10 ltac:(lia)) as Hm. repeat split.
      * rewrite E, <- app_assoc. reflexivity.
      * apply Forall_app. split; [auto|]. constructor; [|constructor]. unfold is_digit. generalize dependent (n mod 10)%N. intros; lia.
      * unfold number in *. rewrite fold_left_app, Hv. cbn [fold_left]. pose proof (N.div_mod n 10 ltac:(lia)) as Hq. clear -Hq. generalize dependent (n mod 10)%N. generalize (n / 10)%N. intros; lia.
Qed.

Lemma show_num_read n : Forall is_digit (show_num n) /\ number (show_num n) = n.
Proof.
  unfold show_num. destruct (dec_digits_read (S (N.to_nat (N.log2 n))) n []) as (ds & E & H).
  - rewrite Nat2N.inj_succ, N2Nat.id. destruct (N.eq_dec n 0) as [->|Hn]; [reflexivity|]. apply N.log2_spec. lia.
  - rewrite E, app_nil_r. exact H.
Qed.

(** Digits up to something that is none. *)
Lemma digits_split ds ds' c c' r r' : Forall is_digit ds -> Forall is_digit ds' -> ~ is_digit c -> ~ is_digit c' ->
  ds ++ c :: r = ds' ++ c' :: r' -> ds = ds' /\ c :: r = c' :: r'.
Proof.
  intros H. revert ds'. induction H as [|d ds Hd H IH]; intros ds' H' Hc Hc' E; destruct H' as [|d' ds' Hd' H'].
  - auto.
  - cbn in E. injection E as -> _. contradiction.
  - cbn in E. injection E as -> _. contradiction.
  - cbn in E. injection E as -> E. destruct (IH ds' H' Hc Hc' E) as (-> & ->). auto.
Qed.

Lemma id_split i i' c c' r r' : ~ is_digit c -> ~ is_digit c' -> show_id i ++ c :: r = show_id i' ++ c' :: r' -> i = i' /\ c :: r = c' :: r'.
Proof.
  intros Hc Hc' E. unfold show_id in E. destruct (show_num_read (N.of_nat i)) as (H & Hv), (show_num_read (N.of_nat i')) as (H' & Hv').
  destruct (digits_split _ _ _ _ _ _ H H' Hc Hc' E) as (E1 & E2). split; [|exact E2]. rewrite E1 in Hv. lia.
Qed.

Lemma kind_split k k' r r' : show_error_kind k ++ newline ++ r = show_error_kind k' ++ newline ++ r' -> k = k' /\ r = r'.
Proof. destruct k, k'; intros E; try discriminate E; (split; [reflexivity|]); apply app_inv_head in E; injection E as E; exact E. Qed.

Lemma error_split e e' r r' : show_error e ++ r = show_error e' ++ r' -> e = e' /\ r = r'.
Proof.
  unfold show_error. rewrite <- !app_assoc. intros E. apply app_inv_head in E.
  destruct e as [k [a b]], e' as [k' [a' b']]. cbn [pe_kind pe_pos fst snd] in *.
  apply id_split in E; [|unfold is_digit; cbn; lia|unfold is_digit; cbn; lia]. destruct E as (-> & E).
  change ($"," :: [$" "] ++ show_id b ++ str "): " ++ show_error_kind k ++ newline ++ r) with (str ", " ++ show_id b ++ str "): " ++ show_error_kind k ++ newline ++ r) in E.
  injection E as E.
  apply id_split in E; [|unfold is_digit; cbn; lia|unfold is_digit; cbn; lia]. destruct E as (-> & E). injection E as E.
  apply kind_split in E. destruct E as (-> & ->). auto.
Qed.

Lemma show_errors_inj errs : forall errs', show_errors errs = show_errors errs' -> errs = errs'.
Proof.
  unfold show_errors. induction errs as [|e errs IH]; intros [|e' errs'] E; try reflexivity; try discriminate.
  cbn [map concat] in E. rewrite <- !app_assoc in E. apply error_split in E. destruct E as (-> & E). injection E as E. f_equal. auto.
Qed.

(** No superfluous zeros. *)
Lemma dec_digits_head fuel : forall n acc, (n < 2 ^ N.of_nat fuel)%N -> (0 < n)%N ->
  exists d r, dec_digits fuel n acc = d :: r /\ d <> 48%N.
Proof.
  induction fuel as [|fuel IH]; intros n acc Hn Hp; [cbn in Hn; lia|].
  cbn [dec_digits]. destruct (N.ltb_spec n 10).
  - rewrite N.mod_small by lia. exists (48 + n)%N, acc. split; [reflexivity|lia].
  - apply IH.
    + apply N.div_lt_upper_bound; [lia|]. rewrite Nat2N.inj_succ, N.pow_succ_r' in Hn. lia.
    + apply N.div_str_pos. lia.
Qed.

Lemma show_id_decimal n : decimal n (show_id n).
Proof.
  unfold show_id. destruct (show_num_read (N.of_nat n)) as (H & Hv). split; [exact H|]. split; [exact Hv|].
  destruct n as [|n]; [left; reflexivity|right]. unfold show_num. apply dec_digits_head; [|lia].
  assert (Hp : (0 < N.of_nat (S n))%N) by lia. revert Hp. generalize (N.of_nat (S n)). intros m Hp. rewrite Nat2N.inj_succ, N2Nat.id. apply N.log2_spec. lia.
Qed.

Lemma digits_no_nl ds : Forall is_digit ds -> ~ In 10%N ds.
Proof. intros H Hin. rewrite Forall_forall in H. apply H in Hin. unfold is_digit in Hin. lia. Qed.

Lemma error_lines errs : exists ls, Forall2 error_line errs ls /\ lines (show_errors errs) = flat_map (fun l => [l; []]) ls ++ [[]].
Proof.
  induction errs as [|e errs (ls & H & E)]; [exists []; split; [constructor|reflexivity]|].
  set (l := str "[ERROR] (" ++ show_id (fst (pe_pos e)) ++ str ", " ++ show_id (snd (pe_pos e)) ++ str "): expected " ++ wanted (pe_kind e)).
  exists (l :: ls). split.
  - constructor; [|exact H]. exists (show_id (fst (pe_pos e))), (show_id (snd (pe_pos e))).
    split; [apply show_id_decimal|]. split; [apply show_id_decimal|reflexivity].
  - assert (El : show_error e = l ++ [10%N]).
    { unfold show_error, l. rewrite <- !app_assoc. do 4 f_equal. destruct (pe_kind e); reflexivity. }
    assert (Hl : ~ In 10%N l).
    { unfold l. rewrite !in_app_iff. intros [Hi|[Hi|[Hi|[Hi|[Hi|Hi]]]]].
      - cbn in Hi. decompose [or] Hi; discriminate || contradiction.
      - exact (digits_no_nl _ (proj1 (show_id_decimal _)) Hi).
      - cbn in Hi. decompose [or] Hi; discriminate || contradiction.
      - exact (digits_no_nl _ (proj1 (show_id_decimal _)) Hi).
      - cbn in Hi. decompose [or] Hi; discriminate || contradiction.
      - destruct (pe_kind e); cbn in Hi; decompose [or] Hi; discriminate || contradiction. }
    unfold show_errors in *. cbn [map concat]. rewrite El, <- !app_assoc. cbn [newline app].
    rewrite (lines_cut l) by exact Hl. cbn [flat_map app lines]. rewrite N.eqb_refl, E. reflexivity.
Qed.
