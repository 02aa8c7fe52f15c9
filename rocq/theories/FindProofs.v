(** The functions of SpecFind.v find shortest texts. *)
From Verif Require Import Base RegexModel SpecRegex NfaModel SpecNfa GrammarModel SpecKleene KleeneProofs LexerModel SpecLexer SpecMunch SpecLists SpecLines LexerMunch SpecQuery QueryProofs QueryLexer
  SpecKinds KindsProofs SpecAlike AlikeProofs SpecFind.
From Coq Require Import Lia.

Section Trails.
  Context {env : Env} (u : point) (cs : list char).

  Lemma add_snd (xs : list trail) : forall l, map snd (fold_left (fun acc t => if memb (snd t) (map snd acc) then acc else acc ++ [t]) xs l) =
    fold_left (fun acc p => if memb p acc then acc else acc ++ [p]) (map snd xs) (map snd l).
  Proof.
    induction xs as [|x xs IH]; intros l; [reflexivity|]. cbn [fold_left map]. rewrite IH. destruct (memb (snd x) (map snd l)); [reflexivity|].
    rewrite map_app. reflexivity.
  Qed.
  Lemma onward_snd l : map snd (flat_map (onward u cs) l) = flat_map (fun p => map (move u p) cs) (map snd l).
  Proof.
    induction l as [|t l IH]; [reflexivity|]. cbn [flat_map map]. etransitivity; [apply map_app|]. f_equal; [|exact IH]. unfold onward. rewrite map_map. reflexivity.
  Qed.
  Lemma spread_snd l : map snd (spread u cs l) = widen u cs (map snd l).
  Proof. unfold spread, widen. rewrite add_snd, onward_snd. reflexivity. Qed.
  Lemma spread_all_snd k : forall l, map snd (spread_all k u cs l) = widen_all k u cs (map snd l).
  Proof.
    induction k as [|k IH]; intros l; cbn [spread_all widen_all]; [apply spread_snd|].
    rewrite <- IH, !map_length. destruct (length (spread_all k u cs l) =? length l); [reflexivity|apply IH].
  Qed.

  Fixpoint ordered (l : list trail) : Prop :=
    match l with [] => True | t :: r => (forall b, In b r -> length (fst t) <= length (fst b)) /\ ordered r end.
  Lemma ordered_app l r : ordered l -> ordered r -> (forall a b, In a l -> In b r -> length (fst a) <= length (fst b)) -> ordered (l ++ r).
  Proof.
    induction l as [|t l IH]; intros Hl Hr H; [exact Hr|]. destruct Hl as (H1 & H2). split.
    - intros b Hb. apply in_app_or in Hb. destruct Hb as [Hb|Hb]; [auto|apply H; [left; reflexivity|exact Hb]].
    - apply IH; auto. intros a b Ha Hb. apply H; [right; exact Ha|exact Hb].
  Qed.
  Lemma ordered_level n l : (forall a, In a l -> length (fst a) = n) -> ordered l.
  Proof.
    induction l as [|t l IH]; intros H; [exact I|]. split; [|apply IH; intros a Ha; apply H; right; exact Ha].
    intros b Hb. rewrite (H t (or_introl eq_refl)), (H b (or_intror Hb)). reflexivity.
  Qed.
  Lemma find_first f l a : ordered l -> find f l = Some a -> forall b, In b l -> f b = true -> length (fst a) <= length (fst b).
  Proof.
    induction l as [|t l IH]; [discriminate|]. intros (H1 & H2) E b Hb Hf. cbn [find] in E. destruct (f t) eqn:Et.
    - injection E as <-. destruct Hb as [<-|Hb]; [reflexivity|auto].
    - destruct Hb as [<-|Hb]; [congruence|]. apply IH; assumption.
  Qed.

  Lemma add_trails (xs : list trail) : forall l, exists e, fold_left (fun acc t => if memb (snd t) (map snd acc) then acc else acc ++ [t]) xs l = l ++ e /\
    incl e xs /\ (forall t, In t e -> ~ In (snd t) (map snd l)) /\ (forall t, In t xs -> In (snd t) (map snd (l ++ e))).
  Proof.
    induction xs as [|x xs IH]; intros l; cbn [fold_left].
    - exists []. rewrite app_nil_r. split; [reflexivity|]. split; [intros y []|]. split; intros t [].
    - destruct (memb (snd x) (map snd l)) eqn:Em.
      + destruct (IH l) as (e & -> & H1 & H2 & H3). exists e. apply memb_in in Em. split; [reflexivity|]. split; [apply incl_tl, H1|]. split; [exact H2|].
        intros t [<-|Ht]; [rewrite map_app; apply in_or_app; left; exact Em|auto].
      + destruct (IH (l ++ [x])) as (e & -> & H1 & H2 & H3). exists (x :: e). rewrite <- app_assoc in *. apply memb_not_in in Em. split; [reflexivity|]. split; [|split].
        * intros y [<-|Hy]; [left; reflexivity|right; auto].
        * intros t [<-|Ht]; [exact Em|]. intros Hi. apply (H2 t Ht). rewrite map_app. apply in_or_app. left. exact Hi.
        * intros t [<-|Ht]; [apply in_map, in_or_app; right; left; reflexivity|apply H3; exact Ht].
  Qed.

  Context (o : point).
  Definition known (n : nat) (l : list trail) : Prop :=
    (forall w p, In (w, p) l -> p = walk u o w /\ incl w cs /\ length w <= n) /\
    (forall v, incl v cs -> length v <= n -> exists w, In (w, walk u o v) l /\ length w <= length v) /\ ordered l.

  Lemma walk_more w c : walk u o (w ++ [c]) = move u (walk u o w) c.
  Proof. unfold walk. rewrite fold_left_app. reflexivity. Qed.
  Lemma spread_known n l : known n l -> known (S n) (spread u cs l).
  Proof.
    intros (Ha & Hb & Hc). unfold spread. destruct (add_trails (flat_map (onward u cs) l) l) as (e & -> & H1 & H2 & H3).
    assert (He : forall t, In t e -> snd t = walk u o (fst t) /\ incl (fst t) cs /\ length (fst t) = S n).
    { intros t Ht. pose proof (H1 t Ht) as Hx. apply in_flat_map in Hx. destruct Hx as ((w & p) & Hp & Hx). unfold onward in Hx. apply in_map_iff in Hx.
      destruct Hx as (c & <- & Hc'). destruct (Ha w p Hp) as (-> & Hw & Hn). cbn [fst snd] in *.
      assert (Hi : incl (w ++ [c]) cs) by (apply incl_app; [exact Hw|intros y [<-|[]]; exact Hc']).
      split; [symmetry; apply walk_more|]. split; [exact Hi|]. rewrite app_length. cbn [length].
      destruct (Nat.eq_dec (length w) n) as [->|Hne]; [lia|]. exfalso. apply (H2 _ Ht). cbn [snd]. rewrite <- walk_more.
      destruct (Hb (w ++ [c]) Hi) as (w' & Hw' & _); [rewrite app_length; cbn; lia|]. exact (in_map snd _ _ Hw'). }
    split; [|split].
    - intros w p Hp. apply in_app_or in Hp. destruct Hp as [Hp|Hp]; [destruct (Ha w p Hp) as (A & B & C); auto|].
      destruct (He _ Hp) as (A & B & C). cbn [fst snd] in *. split; [exact A|]. split; [exact B|]. rewrite C. reflexivity.
    - intros v Hv Hn. destruct (Nat.le_gt_cases (length v) n) as [Hl|Hl].
      { destruct (Hb v Hv Hl) as (w & Hw & Hle). exists w. split; [apply in_or_app; left; exact Hw|exact Hle]. }
      destruct v as [|c v _] using rev_ind; [cbn in Hl; lia|]. rewrite app_length in *. cbn [length] in *.
      destruct (Hb v) as (w & Hw & Hle); [intros y Hy; apply Hv, in_or_app; left; exact Hy|lia|].
      assert (Hx : In (walk u o (v ++ [c])) (map snd (l ++ e))).
      { apply (H3 (w ++ [c], walk u o (v ++ [c]))). apply in_flat_map. exists (w, walk u o v). split; [exact Hw|]. unfold onward. apply in_map_iff.
        exists c. cbn [fst snd]. split; [rewrite walk_more; reflexivity|]. apply Hv, in_or_app. right. left. reflexivity. }
      apply in_map_iff in Hx. destruct Hx as ((w' & p') & E & Hx). cbn [snd] in E. subst p'. exists w'. split; [exact Hx|].
      apply in_app_or in Hx. destruct Hx as [Hx|Hx]; [destruct (Ha _ _ Hx) as (_ & _ & X); lia|]. destruct (He _ Hx) as (_ & _ & X). cbn [fst] in X. lia.
    - apply ordered_app; [exact Hc| |].
      + apply (ordered_level (S n)). intros a Hx. apply He. exact Hx.
      + intros (w & p) b Hw Hx. destruct (Ha w p Hw) as (_ & _ & X). destruct (He b Hx) as (_ & _ & Y). cbn [fst]. lia.
  Qed.
  Lemma spread_all_known k : forall n l, known n l -> exists m, known m (spread_all k u cs l).
  Proof.
    induction k as [|k IH]; intros n l H; cbn [spread_all]; [exists (S n); apply spread_known; exact H|].
    destruct (IH n l H) as (m & Hm). destruct (_ =? _); [eauto|]. exact (IH m _ Hm).
  Qed.
End Trails.

Section Found.
  Context {env : Env} (bs : list N) (Hbs : changes bs is_alphabetic).

  Lemma walk_incl rs w : incl (walk (universe rs) (origin rs) w) (universe rs).
  Proof. induction w as [|c w _] using rev_ind; [apply origin_incl|]. rewrite walk_more. apply move_incl. Qed.
  Lemma like_text rs w : exists v, incl v (some_chars bs rs) /\ length v = length w /\ walk (universe rs) (origin rs) v = walk (universe rs) (origin rs) w.
  Proof.
    induction w as [|c w (v & H1 & H2 & H3)] using rev_ind; [exists []; repeat split; intros y []|].
    destruct (some_chars_like bs Hbs rs (walk (universe rs) (origin rs) w) c (walk_incl rs w)) as (c' & Hc & E). exists (v ++ [c']). split; [|split].
    - apply incl_app; [exact H1|]. intros y [<-|[]]. exact Hc.
    - rewrite !app_length. cbn. lia.
    - rewrite !walk_more, H3. symmetry. exact E.
  Qed.
  Lemma all_points rs w : In (walk (universe rs) (origin rs) w) (widen_all (S (length (universe rs))) (universe rs) (some_chars bs rs) [origin rs]).
  Proof.
    set (u := universe rs). set (cs := some_chars bs rs).
    destruct (all_spec u cs (S (length u)) [origin rs]) as (H1 & H2 & H3 & H4); [constructor; [intros []|constructor]|].
    set (l := widen_all (S (length u)) u cs [origin rs]) in *.
    assert (Hw : forall p, In p l -> exists w, p = walk u (origin rs) w).
    { apply H4.
      - intros p [<-|[]]. exists []. reflexivity.
      - intros p c (v & ->) _. exists (v ++ [c]). symmetry. apply walk_more. }
    assert (Hg : forall p c, In p l -> In c cs -> In (move u p c) l).
    { destruct H3 as [H3|H3]; [exact H3|]. exfalso.
      assert (Hl : length l <= S (2 ^ length u)).
      { rewrite <- (parts_length u). change (S (length (parts u))) with (length (origin rs :: parts u)). apply NoDup_incl_length; [exact H1|].
        intros p Hp. destruct (Hw p Hp) as (v & ->). destruct v as [|c v _] using rev_ind; [left; reflexivity|right].
        rewrite walk_more. apply filter_part. }
      cbn [length Nat.pow] in H3. assert (2 ^ length u <> 0) by (apply Nat.pow_nonzero; discriminate). lia. }
    induction w as [|c w IH] using rev_ind; [apply H2; left; reflexivity|]. rewrite walk_more.
    destruct (some_chars_like bs Hbs rs (walk u (origin rs) w) c (walk_incl rs w)) as (c' & Hc & Em). fold u in Em. rewrite Em. apply Hg; assumption.
  Qed.

  Lemma find_text_ok rs phi : match find_text bs rs phi with
    | Some w => (exists l, answers rs w l /\ phi l = true) /\ forall w' l', answers rs w' l' -> phi l' = true -> length w <= length w'
    | None => forall w l, answers rs w l -> phi l = false
    end.
  Proof.
    unfold find_text. set (u := universe rs). set (cs := some_chars bs rs).
    destruct (spread_all_known u cs (origin rs) (S (length u)) 0 [([], origin rs)]) as (n & Ha & Hb & Hc).
    { split; [|split].
      - intros w p [E|[]]. injection E as <- <-. split; [reflexivity|]. split; [intros y []|reflexivity].
      - intros v _ Hv. destruct v; [|cbn in Hv; lia]. exists []. split; [left; reflexivity|reflexivity].
      - split; [intros b []|exact I]. }
    pose proof (spread_all_snd u cs (S (length u)) [([], origin rs)]) as Hs. cbn [map snd] in Hs.
    set (l := spread_all (S (length u)) u cs [([], origin rs)]) in *. set (f := fun t : trail => phi (map (done_at (snd t)) (seq 0 (length rs)))).
    assert (Hall : forall w lw, answers rs w lw -> phi lw = true -> exists t, In t l /\ f t = true /\ length (fst t) <= length w).
    { intros w lw Hw Hphi. destruct (like_text rs w) as (v & Hv & Hlen & Ew). fold u cs in Hv, Ew.
      assert (Hx : exists v', In (v', walk u (origin rs) w) l /\ length v' <= length w).
      { destruct (Nat.le_gt_cases (length v) n) as [Hl|Hl].
        - destruct (Hb v Hv Hl) as (v' & H1 & H2). rewrite Ew in H1. exists v'. split; [exact H1|lia].
        - pose proof (all_points rs w) as Hp. fold u cs in Hp. rewrite <- Hs in Hp. apply in_map_iff in Hp. destruct Hp as ((v' & p) & E & Hp). cbn [snd] in E. subst p.
          exists v'. split; [exact Hp|]. destruct (Ha _ _ Hp) as (_ & _ & X). lia. }
      destruct Hx as (v' & H1 & H2). exists (v', walk u (origin rs) w). split; [exact H1|]. split; [|exact H2]. unfold f. cbn [snd].
      pose proof (answers_unique rs w _ _ Hw (answers_at rs w)) as E. fold u in E. rewrite <- E. exact Hphi. }
    destruct (find f l) as [(w & p)|] eqn:E; cbn [option_map fst].
    - pose proof (find_first f l (w, p) Hc E) as Hf. apply find_some in E. destruct E as (Hi & Hp). destruct (Ha _ _ Hi) as (-> & _). split.
      + eexists. split; [apply answers_at|exact Hp].
      + intros w' l' Hw' Hl'. destruct (Hall w' l' Hw' Hl') as (t & Ht & Hft & Hle). specialize (Hf t Ht Hft). cbn [fst] in Hf. lia.
    - intros w lw Hw. apply Bool.not_true_iff_false. intros Hphi. destruct (Hall w lw Hw Hphi) as (t & Ht & Hft & _).
      rewrite (find_none f l E t Ht) in Hft. discriminate.
  Qed.
End Found.

Section Pairs.
  Context {env : Env} (bs : list N) (Hbs : changes bs is_alphabetic).

  Lemma find_pair r s phi (P : list char -> Prop) : (forall w a b, (a = true <-> words r w) -> (b = true <-> words s w) -> phi a b = true <-> P w) ->
    match find_text bs [r; s] (fun l => match l with [a; b] => phi a b | _ => false end) with
    | Some w => P w /\ forall w', P w' -> length w <= length w'
    | None => forall w, ~ P w
    end.
  Proof.
    intros HP. pose proof (find_text_ok bs Hbs [r; s] (fun l => match l with [a; b] => phi a b | _ => false end)) as H.
    assert (Hk : forall w, P w -> exists l, answers [r; s] w l /\ match l with [a; b] => phi a b | _ => false end = true).
    { intros w Hw. destruct (word_known r w) as (a & Ha). destruct (word_known s w) as (b & Hb). exists [a; b]. split; [constructor; [exact Ha|constructor; [exact Hb|constructor]]|].
      apply (HP w a b Ha Hb). exact Hw. }
    destruct (find_text bs [r; s] _) as [w|].
    - destruct H as ((l & Hl & E) & Hmin). split.
      + inversion Hl as [|? a ? l1 Ha H1]; subst. inversion H1 as [|? b ? l2 Hb H2]; subst. inversion H2; subst. apply (HP w a b Ha Hb). exact E.
      + intros w' Hw'. destruct (Hk w' Hw') as (l' & Hl' & E'). exact (Hmin w' l' Hl' E').
    - intros w Hw. destruct (Hk w Hw) as (l & Hl & E). rewrite (H w l Hl) in E. discriminate.
  Qed.

  Lemma xorb_iff a b (A B : Prop) : (a = true <-> A) -> (b = true <-> B) -> xorb a b = true <-> ~ (A <-> B).
  Proof. intros Ha Hb. destruct a, b; cbn; intuition discriminate. Qed.
  Lemma one_iff a b (A B : Prop) : (a = true <-> A) -> (b = true <-> B) -> a && negb b = true <-> A /\ ~ B.
  Proof. intros Ha Hb. destruct a, b; cbn; intuition discriminate. Qed.

  Lemma difference_ok e e' : match difference bs e e' with
    | Some w => ~ (impl_lang e w <-> impl_lang e' w) /\ forall w', ~ (impl_lang e w' <-> impl_lang e' w') -> length w <= length w'
    | None => forall w, impl_lang e w <-> impl_lang e' w
    end.
  Proof.
    assert (H : match difference bs e e' with
      | Some w => ~ (impl_lang e w <-> impl_lang e' w) /\ forall w', ~ (impl_lang e w' <-> impl_lang e' w') -> length w <= length w'
      | None => forall w, ~ ~ (impl_lang e w <-> impl_lang e' w)
      end) by (apply (find_pair _ _ xorb); intros w a b Ha Hb; rewrite r_impl_ok in Ha, Hb; apply xorb_iff; assumption).
    destruct (difference bs e e') as [w|]; [exact H|]. intros w. specialize (H w). destruct (word_known (r_impl e) w) as (a & Ha).
    destruct (word_known (r_impl e') w) as (b & Hb). rewrite r_impl_ok in Ha, Hb. destruct a, b; intuition discriminate.
  Qed.
  Lemma mistake_ok e : match mistake bs e with
    | Some w => ~ (impl_lang e w <-> lang e w) /\ forall w', ~ (impl_lang e w' <-> lang e w') -> length w <= length w'
    | None => forall w, impl_lang e w <-> lang e w
    end.
  Proof.
    assert (H : match mistake bs e with
      | Some w => ~ (impl_lang e w <-> lang e w) /\ forall w', ~ (impl_lang e w' <-> lang e w') -> length w <= length w'
      | None => forall w, ~ ~ (impl_lang e w <-> lang e w)
      end) by (apply (find_pair _ _ xorb); intros w a b Ha Hb; rewrite r_impl_ok in Ha; rewrite r_lang_ok in Hb; apply xorb_iff; assumption).
    destruct (mistake bs e) as [w|]; [exact H|]. intros w. specialize (H w). destruct (word_known (r_impl e) w) as (a & Ha).
    destruct (word_known (r_lang e) w) as (b & Hb). rewrite r_impl_ok in Ha. rewrite r_lang_ok in Hb. destruct a, b; intuition discriminate.
  Qed.
  Lemma common_ok e e' : match common bs e e' with
    | Some w => (w <> [] /\ impl_lang e w /\ impl_lang e' w) /\ forall w', w' <> [] /\ impl_lang e w' /\ impl_lang e' w' -> length w <= length w'
    | None => forall w, ~ (w <> [] /\ impl_lang e w /\ impl_lang e' w)
    end.
  Proof.
    apply (find_pair _ _ andb). intros w a b Ha Hb. rewrite r_some_ok, r_impl_ok in Ha. rewrite r_impl_ok in Hb. rewrite andb_true_iff. tauto.
  Qed.
  Lemma token_of_ok before e : match token_of bs before e with
    | Some w => (w <> [] /\ impl_lang e w /\ ~ matched impl_lang before w) /\
        forall w', w' <> [] /\ impl_lang e w' /\ ~ matched impl_lang before w' -> length w <= length w'
    | None => forall w, ~ (w <> [] /\ impl_lang e w /\ ~ matched impl_lang before w)
    end.
  Proof.
    apply (find_pair _ _ (fun a b => a && negb b)). intros w a b Ha Hb. rewrite r_some_ok, r_impl_ok in Ha. rewrite r_matched_ok in Hb.
    rewrite (one_iff a b _ _ Ha Hb). tauto.
  Qed.
End Pairs.

Section Lexers.
  Context {env : Env} {K : Type} {dk : DecEq K} (bs : list N) (Hbs : changes bs is_alphabetic).

  (** What both lexers make of a text that is not empty. *)
  Definition agree_at (es : list expr) (gens : list (generator K)) (es' : list expr) (gens' : list (generator K)) (x : list char) : Prop :=
    (matched impl_lang es x <-> matched impl_lang es' x) /\
    forall i i' k k', first_match impl_lang es x i -> first_match impl_lang es' x i' -> nth_error gens i = Some k -> nth_error gens' i' = Some k' ->
      gen_run k [] = gen_run k' [].

  Lemma first_kind_ok w : forall es (gens : list (generator K)) l, length gens = length es -> answers (map r_impl es) w l ->
    match first_kind gens l with
    | Some v => exists i k, first_match impl_lang es w i /\ nth_error gens i = Some k /\ v = gen_run k []
    | None => ~ matched impl_lang es w
    end.
  Proof.
    induction es as [|e es IH]; intros gens l Hl Ha.
    { destruct gens; [|discriminate]. cbn. intros (e & [] & _). }
    destruct gens as [|k gens]; [discriminate|]. inversion Ha as [|? b ? l1 Hb Ha1]; subst. cbn [first_kind]. rewrite r_impl_ok in Hb. destruct b.
    - exists 0, k. split; [|auto]. split; [exists e; split; [reflexivity|apply Hb; reflexivity]|]. intros j q Hj. lia.
    - assert (Hn : ~ impl_lang e w) by (intros X; apply Hb in X; discriminate). specialize (IH gens l1 ltac:(cbn in Hl; lia) Ha1).
      destruct (first_kind gens l1) as [v|].
      + destruct IH as (i & k' & ((q & Hq & Hx) & Hi) & Hk & ->). exists (S i), k'. split; [|auto]. split; [exists q; auto|].
        intros [|j] r Hj Hr; cbn in Hr; [injection Hr as <-; exact Hn|]. apply (Hi j r); [lia|exact Hr].
      + intros (q & [<-|Hq] & Hx); [contradiction|]. apply IH. exists q. auto.
  Qed.

  Lemma answers_app rs rs' w l : answers (rs ++ rs') w l -> answers rs w (firstn (length rs) l) /\ answers rs' w (skipn (length rs) l).
  Proof.
    revert l. induction rs as [|r rs IH]; intros l H; [split; [constructor|exact H]|]. inversion H as [|? b ? l1 Hb H1]; subst.
    destruct (IH l1 H1) as (A & B). cbn [length firstn skipn]. split; [constructor; [exact Hb|exact A]|exact B].
  Qed.
  Lemma not_empty_ok w : words (Times r_char (Star r_char)) w <-> w <> [].
  Proof.
    cbn [words]. split.
    - intros (u & v & -> & Hu & _). apply r_char_ok in Hu. destruct Hu as (c & ->). discriminate.
    - destruct w as [|c w]; [congruence|]. intros _. exists [c], w. split; [reflexivity|]. split; [apply r_char_ok; eauto|apply star_any].
  Qed.

  Lemma odd_text_ok es gens es' gens' : length gens = length es -> length gens' = length es' ->
    match odd_text bs es gens es' gens' with
    | Some w => (w <> [] /\ ~ agree_at es gens es' gens' w) /\ forall x, x <> [] -> ~ agree_at es gens es' gens' x -> length w <= length x
    | None => forall x, x <> [] -> agree_at es gens es' gens' x
    end.
  Proof.
    intros Hl Hl'. unfold odd_text. set (rs := _ :: _). set (phi := fun _ => _).
    assert (HP : forall w l, answers rs w l -> exists b c, phi l = b && negb c /\ (b = true <-> w <> []) /\ (c = true <-> agree_at es gens es' gens' w)).
    { intros w l H. inversion H as [|? b ? l1 Hb H1]; subst. rewrite not_empty_ok in Hb. apply answers_app in H1. rewrite map_length in H1. destruct H1 as (A & B).
      apply (first_kind_ok w es gens _ Hl) in A. apply (first_kind_ok w es' gens' _ Hl') in B. unfold phi. eexists b, _. split; [reflexivity|]. split; [exact Hb|].
      set (f1 := first_kind gens _) in *. set (f2 := first_kind gens' _) in *. rewrite (eqb_eq f1 f2).
      unfold agree_at. destruct f1 as [v|], f2 as [v'|].
      - destruct A as (i & k & Hf & Hk & ->). destruct B as (i' & k' & Hf' & Hk' & ->). split.
        + intros E. injection E as E. split; [split; intros _; eapply first_matched; eassumption|]. intros j j' q q' Hj Hj' Hq Hq'.
          rewrite (first_match_unique _ _ _ _ _ Hj Hf), Hk in Hq. rewrite (first_match_unique _ _ _ _ _ Hj' Hf'), Hk' in Hq'. injection Hq as <-. injection Hq' as <-. exact E.
        + intros (_ & X). f_equal. eapply X; eassumption.
      - destruct A as (i & k & Hf & _). split; [discriminate|]. intros (X & _). exfalso. apply B, X. eapply first_matched; eassumption.
      - destruct B as (i & k & Hf & _). split; [discriminate|]. intros (X & _). exfalso. apply A, X. eapply first_matched; eassumption.
      - split; [|reflexivity]. intros _. split; [tauto|]. intros i i' k k' Hf. exfalso. apply A. eapply first_matched; eassumption. }
    pose proof (find_text_ok bs Hbs rs phi) as H. destruct (find_text bs rs phi) as [w|].
    - destruct H as ((l & Hw & E) & Hmin). destruct (HP w l Hw) as (b & c & E' & Hb & Hc). rewrite E in E'. symmetry in E'. apply andb_prop in E'. destruct E' as (-> & Ec).
      destruct c; [discriminate|]. split; [split; [apply Hb; reflexivity|intros X; apply Hc in X; discriminate]|].
      intros x Hx Hn. apply (Hmin x _ (answers_at rs x)). destruct (HP x _ (answers_at rs x)) as (b' & c' & -> & Hb' & Hc').
      rewrite (proj2 Hb' Hx). destruct c'; [|reflexivity]. exfalso. apply Hn, Hc'. reflexivity.
    - intros x Hx. pose proof (H x _ (answers_at rs x)) as E. destruct (HP x _ (answers_at rs x)) as (b & c & E' & Hb & Hc). rewrite E' in E.
      rewrite (proj2 Hb Hx) in E. apply Hc. destruct c; [reflexivity|discriminate].
  Qed.

  Lemma agree_known es gens es' gens' : length gens = length es -> length gens' = length es' ->
    forall x : list char, x <> [] -> agree_at es gens es' gens' x \/ ~ agree_at es gens es' gens' x.
  Proof.
    intros Hl Hl' x Hx.
    assert (Hfm : forall qs, (exists i, first_match impl_lang qs x i) \/ ~ matched impl_lang qs x).
    { intros qs. destruct (word_known (r_matched qs) x) as ([|] & H); rewrite r_matched_ok in H; [left; apply matched_first, H; reflexivity|right; intros X; apply H in X; discriminate]. }
    assert (Hsome : forall (gs : list (generator K)) (qs : list expr), length gs = length qs -> forall i, first_match impl_lang qs x i -> exists k, nth_error gs i = Some k).
    { intros gs qs E i ((q & Hq & _) & _). destruct (nth_error gs i) as [k|] eqn:Ek; [eauto|]. apply nth_error_None in Ek.
      assert (i < length qs) by (apply nth_error_Some; congruence). lia. }
    unfold agree_at. destruct (Hfm es) as [(i & Hf)|Hn], (Hfm es') as [(i' & Hf')|Hn'].
    - destruct (Hsome _ _ Hl i Hf) as (k & Hk). destruct (Hsome _ _ Hl' i' Hf') as (k' & Hk'). destruct (eqb (gen_run k []) (gen_run k' [])) eqn:E.
      + left. apply (eqb_eq (gen_run k []) (gen_run k' [])) in E. split; [split; intros _; eapply first_matched; eassumption|]. intros j j' q q' Hj Hj' Hq Hq'.
        rewrite (first_match_unique _ _ _ _ _ Hj Hf), Hk in Hq. rewrite (first_match_unique _ _ _ _ _ Hj' Hf'), Hk' in Hq'. injection Hq as <-. injection Hq' as <-. exact E.
      + right. intros (_ & X). specialize (X i i' k k' Hf Hf' Hk Hk'). apply (eqb_eq (gen_run k []) (gen_run k' [])) in X. congruence.
    - right. intros (X & _). apply Hn', X. eapply first_matched; eassumption.
    - right. intros (X & _). apply Hn, X. eapply first_matched; eassumption.
    - left. split; [tauto|]. intros j j' k k' Hj. exfalso. apply Hn. eapply first_matched; eassumption.
  Qed.

  (** ** Lexers that differ differ on a text that is its own first token *)
  Lemma bounded_munches es es' (gens gens' : list (generator K)) input : length gens' = length es' ->
    forallb unit_kind gens = true -> forallb unit_kind gens' = true ->
    (forall x, x <> [] -> length x <= length input -> agree_at es gens es' gens' x) ->
    forall p tks, munches impl_lang es gens input p tks -> munches impl_lang es' gens' input p tks.
  Proof.
    intros Hl' Hu Hu' H. assert (Hlen : forall p (x y : list char), skipn p input = x ++ y -> length x <= length input).
    { intros p x y E. assert (X : length (skipn p input) = length x + length y) by (rewrite E; apply app_length). rewrite skipn_length in X. lia. }
    induction 1 as [p He|p x y i g ts Hx Hne Hf Hg Hlong Hm IH].
    - constructor. intros x y E Hn Hm. apply (He x y E Hn). apply (H x Hn (Hlen _ _ _ E)). exact Hm.
    - destruct (H x Hne (Hlen _ _ _ Hx)) as (HM & HK). destruct (matched_first es' x) as (i' & Hf'); [apply HM; exact (first_matched _ _ _ Hf)|].
      assert (Hi' : i' < length gens') by (rewrite Hl'; destruct Hf' as ((q & Hq & _) & _); apply nth_error_Some; congruence).
      destruct (nth_error gens' i') as [g'|] eqn:Eg'; [|apply nth_error_None in Eg'; lia].
      replace (gen_run g x) with (gen_run g' x).
      + apply (munch_token impl_lang es' gens' input p x y i' g' ts Hx Hne Hf' Eg'); [|exact IH].
        intros x' y' E Hlt Hmm. apply (Hlong x' y' E Hlt). apply (H x'); [destruct x'; [cbn in Hlt; lia|discriminate]|exact (Hlen _ _ _ E)|exact Hmm].
      + rewrite (unit_run gens' i' g' x Hu' Eg'), (unit_run gens i g x Hu Hg). symmetry. exact (HK i i' g g' Hf Hf' Hg Eg').
  Qed.
  Lemma whole_agrees es es' (gens gens' : list (generator K)) x tks : length gens = length es -> length gens' = length es' ->
    forallb unit_kind gens = true -> forallb unit_kind gens' = true -> x <> [] ->
    munches impl_lang es gens x 0 tks -> munches impl_lang es' gens' x 0 tks -> agree_at es gens es' gens' x.
  Proof.
    intros Hl Hl' Hu Hu' Hx M M'.
    assert (Hsome : forall (gs : list (generator K)) (qs : list expr), length gs = length qs -> forall i, first_match impl_lang qs x i -> exists k, nth_error gs i = Some k).
    { intros gs qs E i ((q & Hq & _) & _). destruct (nth_error gs i) as [k|] eqn:Ek; [eauto|]. apply nth_error_None in Ek.
      assert (i < length qs) by (apply nth_error_Some; congruence). lia. }
    split.
    - split; intros Hm; apply matched_first in Hm; destruct Hm as (i & Hf).
      + destruct (Hsome _ _ Hl i Hf) as (k & Hk). destruct (munch_whole es _ x i k Hx Hf Hk tks M) as (r & ->). apply munch_matched in M'.
        destruct M' as (j & g & Hj & _). exact (first_matched _ _ _ Hj).
      + destruct (Hsome _ _ Hl' i Hf) as (k & Hk). destruct (munch_whole es' _ x i k Hx Hf Hk tks M') as (r & ->). apply munch_matched in M.
        destruct M as (j & g & Hj & _). exact (first_matched _ _ _ Hj).
    - intros i i' k k' Hf Hf' Hk Hk'. destruct (munch_whole es _ x i k Hx Hf Hk tks M) as (r & ->).
      destruct (munch_whole es' _ x i' k' Hx Hf' Hk' _ M') as (r' & E). injection E as E _.
      rewrite <- (unit_run _ i k x Hu Hk), <- (unit_run _ i' k' x Hu' Hk'). exact E.
  Qed.

  Lemma shortest_difference (ts ts' : list (list char * generator K)) es es' : parsed ts es -> parsed ts' es' -> goodb bs es = true -> goodb bs es' = true ->
    forallb unit_kind (map snd ts) = true -> forallb unit_kind (map snd ts') = true ->
    let same input := exists lx lx' tks, build_lexer ts input = Val (inl lx) /\ build_lexer ts' input = Val (inl lx') /\ tokens_are lx tks /\ tokens_are lx' tks in
    match odd_text bs es (map snd ts) es' (map snd ts') with
    | Some w => ~ same w /\ forall w', ~ same w' -> length w <= length w'
    | None => forall w, same w
    end.
  Proof.
    intros Hp Hp' Hg Hg' Hu Hu' same.
    assert (Hl : length (map snd ts) = length es) by (rewrite map_length; exact (parsed_length ts es Hp)).
    assert (Hl' : length (map snd ts') = length es') by (rewrite map_length; exact (parsed_length ts' es' Hp')).
    assert (Hto : forall w, (forall x, x <> [] -> length x <= length w -> agree_at es (map snd ts) es' (map snd ts') x) -> same w).
    { intros w H. destruct (good_tokens bs Hbs ts es w Hp Hg) as (lx & tks & B & M & T). destruct (good_tokens bs Hbs ts' es' w Hp' Hg') as (lx' & tks' & B' & M' & T').
      exists lx, lx', tks. split; [exact B|]. split; [exact B'|]. split; [exact T|].
      rewrite <- (munches_unique _ _ _ _ _ _ (bounded_munches es es' _ _ w Hl' Hu Hu' H 0 tks M) tks' M'). exact T'. }
    assert (Hfrom : forall x, x <> [] -> same x -> agree_at es (map snd ts) es' (map snd ts') x).
    { intros x Hx (lx1 & lx1' & v & B1 & B1' & T1 & T1').
      destruct (good_tokens bs Hbs ts es x Hp Hg) as (lx & tks & B & M & T). destruct (good_tokens bs Hbs ts' es' x Hp' Hg') as (lx' & tks' & B' & M' & T').
      rewrite B in B1. injection B1 as <-. rewrite B' in B1'. injection B1' as <-. pose proof (tokens_unique lx tks v T T1) as ->. pose proof (tokens_unique lx' tks' v T' T1') as ->.
      exact (whole_agrees es es' _ _ x v Hl Hl' Hu Hu' Hx M M'). }
    pose proof (odd_text_ok es (map snd ts) es' (map snd ts') Hl Hl') as H. destruct (odd_text bs es (map snd ts) es' (map snd ts')) as [w|].
    - destruct H as ((Hw & Hn) & Hmin). split; [intros X; exact (Hn (Hfrom w Hw X))|]. intros w' Hd. destruct (Nat.le_gt_cases (length w) (length w')) as [Hle|Hgt]; [exact Hle|].
      exfalso. apply Hd, Hto. intros x Hx Hlx. destruct (agree_known es (map snd ts) es' (map snd ts') Hl Hl' x Hx) as [X|X]; [exact X|]. specialize (Hmin x Hx X). lia.
    - intros w. apply Hto. intros x Hx _. exact (H x Hx).
  Qed.
End Lexers.
