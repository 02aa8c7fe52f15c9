(** Proofs about the [Debug] texts. *)
From Verif Require Import Base RegexModel NfaModel DotModel GrammarModel CfsmModel SlrModel DebugModel SpecDebug.

(** ** Atoms *)

Lemma word_no c : word_char c -> ~ In c [32; 44; 58; 40; 41; 91; 93; 123; 125; 39; 34; 10]%N.
Proof. intros [H [H1 H2]] K. cbn in H, K. intuition congruence. Qed.

(** What cannot continue a word. *)
Definition stops (r : list char) : Prop := match r with [] => True | c :: _ => ~ word_char c end.

Lemma word_split u : forall u' x x', Forall word_char u -> Forall word_char u' -> stops x -> stops x' ->
  u ++ x = u' ++ x' -> u = u' /\ x = x'.
Proof.
  induction u as [|c u IH]; intros [|c' u'] x x' Hu Hu' Hx Hx' E; cbn in E.
  - split; [reflexivity|assumption].
  - subst x. inversion Hu'; subst. contradiction.
  - subst x'. inversion Hu; subst. contradiction.
  - injection E as <- E. inversion Hu; subst. inversion Hu'; subst.
    destruct (IH u' x x') as [-> ->]; try assumption. split; reflexivity.
Qed.

Lemma literal_split q u : literal q u -> forall u' r r', literal q u' -> q <> 92%N ->
  u ++ r = u' ++ r' -> u = u' /\ r = r'.
Proof.
  induction 1 as [|c w H1 H2 H3 H IH|c w H3 H IH]; intros u' r r' Hu' Hq E; inversion Hu'; subst; cbn in E; injection E; intros; subst; try congruence.
  - split; reflexivity.
  - destruct (IH w0 r r') as [-> ->]; try assumption. split; reflexivity.
  - destruct (IH w0 r r') as [-> ->]; try assumption. split; reflexivity.
Qed.

(** What may follow a value. *)
Definition after (r : list char) : Prop :=
  match r with
  | [] => True
  | c :: r' => In c (10%N :: str ",:)]}") \/ c = 32%N /\ match r' with c' :: _ => c' = 125%N | [] => False end
  end.

Lemma after_stops r : after r -> stops r.
Proof.
  destruct r as [|c r]; [reflexivity|]. cbn [after stops]. intros H K. apply word_no in K. apply K.
  destruct H as [H|[-> H]]; [|cbn; tauto]. cbn in H |- *. intuition (subst; auto 20).
Qed.

(** The first character of a value. *)
Definition starts (c : char) : Prop := ~ In c (str " ,:)]}") /\ c <> 10%N.

Lemma word_starts c : word_char c -> starts c.
Proof. intros [H [H1 H2]]. split; [|assumption]. intros K. apply H. cbn in K |- *. intuition (subst; auto 20). Qed.

Lemma quote_starts q : q = 34%N \/ q = 39%N -> starts q.
Proof. intros [->| ->]; split; cbn; intuition discriminate. Qed.

Lemma quote_not_word q : q = 34%N \/ q = 39%N -> ~ word_char q.
Proof. intros Hq K. apply word_no in K. apply K. cbn. destruct Hq as [->| ->]; auto 20. Qed.

(** Atoms against groups: [o] is what follows the name of a group. *)
Lemma atom_group d n o r : tame d -> (exists w, d = Atom w) -> Forall word_char n ->
  (exists c o', o = c :: o' /\ In c (str "([{ ") /\ (c = 32%N -> exists o'', o' = 123%N :: o'')) -> after r ->
  plain d ++ r = n ++ o -> False.
Proof.
  intros Hd [w ->] Hn [c [o' [-> [Hc Ho]]]] Hr E. cbn [plain] in E.
  assert (Hs : stops (c :: o')). { cbn [stops]. intros K. apply word_no in K. apply K. cbn in Hc |- *. intuition (subst; auto 20). }
  inversion Hd as [w0 Hw Hw'|q w0 Hq Hl|]; subst.
  - destruct (word_split w n r (c :: o') Hw' Hn (after_stops r Hr) Hs E) as [-> ->].
    cbn [after] in Hr. destruct Hr as [H|[-> H]].
    + cbn in H, Hc. intuition (subst; discriminate).
    + destruct (Ho eq_refl) as [o'' ->]. discriminate.
  - destruct n as [|x n]; cbn in E; injection E as E1 E2.
    + subst q. cbn in Hc. destruct Hq as [->| ->]; intuition discriminate.
    + subst x. inversion Hn; subst. exact (quote_not_word q Hq ltac:(assumption)).
Qed.

Lemma atom_atom w w' r r' : tame (Atom w) -> tame (Atom w') -> after r -> after r' ->
  w ++ r = w' ++ r' -> w = w' /\ r = r'.
Proof.
  intros H H' Hr Hr' E. inversion H as [u Hu Hw|q u Hq Hl|]; subst; inversion H' as [u' Hu' Hw'|q' u' Hq' Hl'|]; subst.
  - apply word_split; try assumption; apply after_stops; assumption.
  - exfalso. destruct w as [|c w]; [congruence|]. cbn in E. injection E as -> E. inversion Hw; subst.
    exact (quote_not_word q' Hq' ltac:(assumption)).
  - exfalso. destruct w' as [|c w']; [congruence|]. cbn in E. injection E as -> E. inversion Hw'; subst.
    exact (quote_not_word c Hq ltac:(assumption)).
  - cbn in E. injection E as <- E.
    destruct (literal_split q u Hl u' r r' Hl') as [-> ->]; try assumption; [destruct Hq as [->| ->]; discriminate|].
    split; reflexivity.
Qed.

(** ** [{:?}] *)

Definition entry (f : dbg -> list char) (e : option dbg * dbg) : list char :=
  match e with
  | (Some l, v) => f l ++ str ": " ++ f v
  | (None, v) => f v
  end.

Lemma plain_group n b es :
  plain (Group n b es) = n ++ opening b ++ join (str ", ") (map (entry plain) es) ++ closing b.
Proof. reflexivity. Qed.

Lemma group_starts n o : Forall word_char n -> (forall c o', o = c :: o' -> c = 32%N -> n <> []) ->
  (exists c o', o = c :: o' /\ In c (str "([{ ")) -> exists c r, n ++ o = c :: r /\ starts c.
Proof.
  intros Hn Ho [c [o' [-> Hc]]]. destruct n as [|x n].
  - exists c, o'. split; [reflexivity|]. specialize (Ho c o' eq_refl). split.
    + cbn in Hc |- *. intros K. assert (Hx : c <> 32%N). { intros ->. exact (Ho eq_refl eq_refl). } intuition (subst; congruence).
    + cbn in Hc. intuition (subst; discriminate).
  - exists x, (n ++ c :: o'). split; [reflexivity|]. inversion Hn; subst. apply word_starts. assumption.
Qed.

Lemma plain_starts d : tame d -> exists c r, plain d = c :: r /\ starts c.
Proof.
  intros H. inversion H as [w Hw Hw'|q w Hq Hl|n b es Hn Hb He Hl]; subst.
  - destruct w as [|c w]; [congruence|]. exists c, w. split; [reflexivity|]. inversion Hw'; subst. apply word_starts. assumption.
  - exists q, w. split; [reflexivity|]. apply quote_starts. assumption.
  - rewrite plain_group. apply group_starts; try assumption.
    + intros c o' E Ec. destruct b; cbn in E; injection E as <- E; try discriminate. exact (Hb eq_refl).
    + destruct b; eexists; eexists; split; try reflexivity; cbn; auto 10.
Qed.

(** The entries of a group are told apart one by one. *)
Definition reads_back (f : dbg -> list char) (d : dbg) : Prop :=
  forall d' r r', tame d' -> after r -> after r' -> f d ++ r = f d' ++ r' -> d = d' /\ r = r'.

Definition entry_tame (e : option dbg * dbg) : Prop := tame (snd e) /\ match fst e with Some l => tame l | None => True end.

Lemma colon_after x : after (str ": " ++ x).
Proof. cbn. auto. Qed.

Lemma entry_back f e e' r r' :
  reads_back f (snd e) -> match fst e with Some l => reads_back f l | None => True end ->
  entry_tame e' -> after r -> after r' -> (forall x, r <> 58%N :: x) -> (forall x, r' <> 58%N :: x) ->
  entry f e ++ r = entry f e' ++ r' -> e = e' /\ r = r'.
Proof.
  destruct e as [[l|] v], e' as [[l'|] v']; cbn [entry fst snd]; intros Hv Hl [Hv' Hl'] Hr Hr' Hc Hc' E;
    cbn [fst snd] in Hv', Hl'.
  - rewrite <- !app_assoc in E. destruct (Hl l' _ _ Hl' (colon_after _) (colon_after _) E) as [-> E'].
    cbn in E'. injection E' as E'. destruct (Hv v' _ _ Hv' Hr Hr' E') as [-> ->]. split; reflexivity.
  - exfalso. rewrite <- !app_assoc in E. destruct (Hl v' _ r' Hv' (colon_after _) Hr' E) as [_ E'].
    exact (Hc' _ (eq_sym E')).
  - exfalso. rewrite <- !app_assoc in E. destruct (Hv l' r _ Hl' Hr (colon_after _) E) as [_ E'].
    exact (Hc _ E').
  - destruct (Hv v' _ _ Hv' Hr Hr' E) as [-> ->]. split; reflexivity.
Qed.

Lemma entry_starts f e : (forall d, tame d -> exists c r, f d = c :: r /\ starts c) -> entry_tame e ->
  exists c r, entry f e = c :: r /\ starts c.
Proof.
  intros Hf [Hv Hl]. destruct e as [[l|] v]; cbn [fst snd entry] in *; [|apply Hf; assumption].
  destruct (Hf l Hl) as [c [r [E Hc]]]. rewrite E. eexists; eexists; split; [reflexivity|assumption].
Qed.

(** [join], one entry at a time. *)
Definition rest_of (l : list (list char)) : list char :=
  match l with [] => [] | _ => str ", " ++ join (str ", ") l end.
Lemma join_cons x l : join (str ", ") (x :: l) = x ++ rest_of l.
Proof. destruct l; cbn [join rest_of]; [rewrite app_nil_r|]; reflexivity. Qed.

Lemma closing_after b r : after (closing b ++ r).
Proof. destruct b; cbn; auto 10. Qed.

Lemma rest_after b l r : after (rest_of l ++ closing b ++ r) /\ forall x, rest_of l ++ closing b ++ r <> 58%N :: x.
Proof.
  destruct l as [|a l].
  - split; [apply closing_after|]. intros x E. destruct b; discriminate.
  - split; [cbn; auto|]. intros x E. discriminate.
Qed.

Lemma closing_not_start b r c x : closing b ++ r = c :: x -> starts c -> False.
Proof. intros E [H _]. destruct b; cbn in E; injection E as <- E; cbn in H; intuition. Qed.

Lemma entries_back b es :
  (forall l v, In (l, v) es -> reads_back plain v) -> (forall l v, In (Some l, v) es -> reads_back plain l) ->
  forall es' r r', Forall entry_tame es' ->
  join (str ", ") (map (entry plain) es) ++ closing b ++ r = join (str ", ") (map (entry plain) es') ++ closing b ++ r' ->
  Forall entry_tame es -> after r -> after r' -> es = es' /\ r = r'.
Proof.
  induction es as [|e es IH]; intros Hv Hl [|e' es'] r r' Ht' E Ht Hr Hr'.
  - cbn in E. apply app_inv_head in E. subst. split; reflexivity.
  - exfalso. inversion Ht'; subst. cbn [map] in E. rewrite join_cons in E.
    destruct (entry_starts plain e' plain_starts ltac:(assumption)) as [c [x [Ex Hc]]]. rewrite Ex in E.
    exact (closing_not_start b r c _ E Hc).
  - exfalso. inversion Ht; subst. cbn [map] in E. rewrite join_cons in E.
    destruct (entry_starts plain e plain_starts ltac:(assumption)) as [c [x [Ex Hc]]]. rewrite Ex in E.
    exact (closing_not_start b r' c _ (eq_sym E) Hc).
  - inversion Ht; subst. inversion Ht'; subst. cbn [map] in E. rewrite !join_cons, <- !app_assoc in E.
    destruct (rest_after b (map (entry plain) es) r) as [A1 A2].
    destruct (rest_after b (map (entry plain) es') r') as [A1' A2'].
    apply entry_back in E; try assumption.
    + destruct E as [<- E]. destruct es as [|e2 es], es' as [|e2' es'].
      * cbn in E. apply app_inv_head in E. subst. split; reflexivity.
      * exfalso. destruct b; discriminate.
      * exfalso. destruct b; discriminate.
      * cbn [rest_of map] in E. rewrite <- !app_assoc in E. apply app_inv_head in E.
        destruct (IH ltac:(intros; eapply Hv; right; eassumption) ltac:(intros; eapply Hl; right; eassumption)
                    (e2' :: es') r r') as [<- <-]; try assumption. split; reflexivity.
    + destruct e as [l v]. apply (Hv l v). left. reflexivity.
    + destruct e as [[l|] v]; cbn [fst]; [|exact I]. apply (Hl l v). left. reflexivity.
Qed.

Lemma group_entries n b es : tame (Group n b es) -> Forall entry_tame es.
Proof.
  intros H. inversion H as [| |? ? ? Hn Hb He Hl]; subst. apply Forall_forall. intros [[l|] v] Hi; split; cbn [fst snd]; eauto.
Qed.

Lemma opening_shape b x : exists c o', opening b ++ x = c :: o' /\ In c (str "([{ ") /\ (c = 32%N -> exists o'', o' = 123%N :: o'').
Proof. destruct b; cbn; eexists; eexists; (split; [reflexivity|]); split; auto 10; intros; try discriminate; eexists; reflexivity. Qed.

Lemma shape_stops o : (exists c o', o = c :: o' /\ In c (str "([{ ") /\ (c = 32%N -> exists o'', o' = 123%N :: o'')) -> stops o.
Proof. intros [c [o' [-> [Hc _]]]]. cbn [stops]. intros K. apply word_no in K. apply K. cbn in Hc |- *. intuition (subst; auto 20). Qed.

Lemma plain_back d : tame d -> reads_back plain d.
Proof.
  intros H. induction H as [w Hw Hw'|q w Hq Hl|n b es Hn Hb He IHe Hl IHl]; intros d' r r' Ht' Hr Hr' E.
  - destruct d' as [w'|n' b' es'|d']; [| |inversion Ht'].
    + destruct (atom_atom w w' r r' (tame_word w Hw Hw') Ht' Hr Hr' E) as [-> ->]. split; reflexivity.
    + exfalso. rewrite plain_group, <- !app_assoc in E. inversion Ht'; subst.
      apply (atom_group (Atom w) n' (opening b' ++ join (str ", ") (map (entry plain) es') ++ closing b' ++ r') r); eauto using tame_word.
      apply opening_shape.
  - destruct d' as [w'|n' b' es'|d']; [| |inversion Ht'].
    + destruct (atom_atom _ w' r r' (tame_literal q w Hq Hl) Ht' Hr Hr' E) as [-> ->]. split; reflexivity.
    + exfalso. rewrite plain_group, <- !app_assoc in E. inversion Ht'; subst.
      apply (atom_group (Atom (q :: w)) n' (opening b' ++ join (str ", ") (map (entry plain) es') ++ closing b' ++ r') r); eauto using tame_literal.
      apply opening_shape.
  - destruct d' as [w'|n' b' es'|d']; [| |inversion Ht'].
    + exfalso. rewrite plain_group, <- !app_assoc in E.
      apply (atom_group (Atom w') n (opening b ++ join (str ", ") (map (entry plain) es) ++ closing b ++ r) r'); eauto.
      apply opening_shape.
    + rewrite !plain_group, <- !app_assoc in E.
      assert (Hn' : Forall word_char n') by (inversion Ht'; assumption).
      apply word_split in E; try assumption; try (apply shape_stops, opening_shape).
      destruct E as [<- E].
      assert (Eb : b = b'). { destruct b, b'; cbn in E; injection E; intros; try reflexivity; discriminate. }
      subst b'. apply app_inv_head in E.
      apply entries_back in E; try assumption.
      * destruct E as [<- <-]. split; reflexivity.
      * exact (group_entries n b es' Ht').
      * apply (group_entries n b es). constructor; assumption.
Qed.

Lemma plain_inj d d' : tame d -> tame d' -> plain d = plain d' -> d = d'.
Proof.
  intros H H' E. apply (plain_back d H d' [] [] H' I I). rewrite !app_nil_r. assumption.
Qed.

(** ** Values with parts in the form [{:?}] *)

Definition bare_entry (f : dbg -> dbg) (e : option dbg * dbg) : option dbg * dbg :=
  match e with (Some l, v) => (Some (f l), f v) | (None, v) => (None, f v) end.
Fixpoint bare (d : dbg) : dbg :=
  match d with
  | Atom w => Atom w
  | Group n b es => Group n b (map (fun e => match e with (Some l, v) => (Some (bare l), bare v) | (None, v) => (None, bare v) end) es)
  | Flat d => bare d
  end.
Lemma bare_group n b es : bare (Group n b es) = Group n b (map (bare_entry bare) es).
Proof. reflexivity. Qed.

Inductive mild : dbg -> Prop :=
| mild_word w : w <> [] -> Forall word_char w -> mild (Atom w)
| mild_literal q w : q = 34%N \/ q = 39%N -> literal q w -> mild (Atom (q :: w))
| mild_group name b es :
    Forall word_char name -> (b = Fields -> name <> []) ->
    (forall l v, In (l, v) es -> mild v) ->
    (forall l v, In (Some l, v) es -> mild l) ->
    mild (Group name b es)
| mild_flat d : tame d -> mild (Flat d).

Lemma tame_mild d : tame d -> mild d.
Proof. induction 1; [apply mild_word|apply mild_literal|apply mild_group]; assumption. Qed.

Lemma mild_atom w : mild (Atom w) -> tame (Atom w).
Proof. intros H. inversion H; subst; [apply tame_word|apply tame_literal]; assumption. Qed.

Lemma tame_bare d : tame d -> bare d = d.
Proof.
  induction 1 as [w Hw Hw'|q w Hq Hl|n b es Hn Hb He IHe Hl IHl]; [reflexivity|reflexivity|]. rewrite bare_group. f_equal.
  rewrite <- (map_id es) at 2. apply map_ext_in. intros [[l|] v] Hi; cbn [bare_entry]; rewrite (IHe _ _ Hi); [rewrite (IHl _ _ Hi)|]; reflexivity.
Qed.

Lemma bare_in l v es : In (l, v) (map (bare_entry bare) es) -> exists l0 v0, In (l0, v0) es /\ l = option_map bare l0 /\ v = bare v0.
Proof.
  intros H. apply in_map_iff in H. destruct H as ([[l0|] v0] & E & Hi); cbn [bare_entry] in E; injection E as <- <-; eexists; eexists; (split; [exact Hi|split; reflexivity]).
Qed.

Lemma mild_tame d : mild d -> tame (bare d).
Proof.
  induction 1 as [w Hw Hw'|q w Hq Hl|n b es Hn Hb He IHe Hl IHl|d H]; [apply tame_word; assumption|apply tame_literal; assumption| |].
  - rewrite bare_group. apply tame_group; [assumption|assumption| |].
    + intros l v Hi. apply bare_in in Hi. destruct Hi as (l0 & v0 & Hi & _ & ->). exact (IHe _ _ Hi).
    + intros l v Hi. apply bare_in in Hi. destruct Hi as (l0 & v0 & Hi & E & _). destruct l0 as [l0|]; [|discriminate].
      injection E as ->. exact (IHl _ _ Hi).
  - cbn [bare]. rewrite (tame_bare d H). exact H.
Qed.

Lemma plain_bare d : mild d -> plain (bare d) = plain d.
Proof.
  induction 1 as [w Hw Hw'|q w Hq Hl|n b es Hn Hb He IHe Hl IHl|d H]; [reflexivity|reflexivity| |].
  - rewrite bare_group, !plain_group, map_map. do 4 f_equal. apply map_ext_in. intros [[l|] v] Hi; cbn [bare_entry entry]; rewrite (IHe _ _ Hi); [rewrite (IHl _ _ Hi)|]; reflexivity.
  - cbn [bare plain]. rewrite (tame_bare d H). reflexivity.
Qed.

Lemma plain_same d d' : mild d -> mild d' -> plain d = plain d' -> bare d = bare d'.
Proof. intros H H' E. apply plain_inj; [apply mild_tame; assumption|apply mild_tame; assumption|]. rewrite !plain_bare by assumption. exact E. Qed.

(** ** [{:#?}] *)

Definition sp (k : nat) : list char := concat (repeat (str "    ") k).

(** The text of a value whose first line is [k] levels deep. *)
Fixpoint pr (k : nat) (d : dbg) : list char :=
  match d with
  | Atom w => w
  | Group name b [] => name ++ opening_alt b ++ closing_alt b
  | Group name b entries =>
      name ++ opening_alt b ++ [10%N] ++
      concat (map (fun e => sp (S k) ++ match e with
                                        | (Some l, v) => pr (S k) l ++ str ": " ++ pr (S k) v
                                        | (None, v) => pr (S k) v
                                        end ++ [$","; 10%N]) entries) ++
      sp k ++ closing_alt b
  | Flat d => plain d
  end.

Fixpoint ends (b : bool) (w : list char) : bool :=
  match w with [] => b | c :: r => ends (c =? 10)%N r end.

Lemma pad_app b u v : pad_from b (u ++ v) = pad_from b u ++ pad_from (ends b u) v.
Proof.
  revert b. induction u as [|c u IH]; intros b; cbn [app pad_from ends]; [reflexivity|].
  rewrite IH, <- app_assoc. reflexivity.
Qed.
Lemma ends_app b u v : ends b (u ++ v) = ends (ends b u) v.
Proof. revert b. induction u as [|c u IH]; intros b; cbn [app ends]; [reflexivity|]. apply IH. Qed.

Definition single (w : list char) : Prop := Forall (fun c => c <> 10%N) w.
Lemma pad_single w : single w -> pad_from false w = w /\ ends false w = false.
Proof.
  induction 1 as [|c w H Hw [IH1 IH2]]; cbn [pad_from ends app]; [split; reflexivity|].
  apply N.eqb_neq in H. rewrite H, IH1, IH2. split; reflexivity.
Qed.
Lemma pad_single_true w : single w -> w <> [] -> pad_from true w = str "    " ++ w /\ ends true w = false.
Proof.
  intros H Hw. destruct w as [|c w]; [congruence|]. inversion H; subst. cbn [pad_from ends].
  assert (E : (c =? 10)%N = false) by (apply N.eqb_neq; assumption). rewrite E.
  destruct (pad_single w ltac:(assumption)) as [-> ->]. split; reflexivity.
Qed.

Lemma sp_S k : sp (S k) = str "    " ++ sp k.
Proof. reflexivity. Qed.
Lemma sp_single k : single (sp k).
Proof. induction k as [|k IH]; [constructor|]. rewrite sp_S. apply Forall_app. split; [|assumption]. repeat constructor; discriminate. Qed.

Lemma word_single w : Forall word_char w -> single w.
Proof. apply Forall_impl. intros c [_ [_ H]]. assumption. Qed.
Lemma literal_single q w : q <> 10%N -> literal q w -> single w.
Proof.
  intros Hq H. induction H; repeat constructor; try assumption. discriminate.
Qed.
Lemma atom_single w : tame (Atom w) -> single w.
Proof.
  intros H. inversion H as [u Hu Hw|q u Hq Hl|]; subst; [apply word_single; assumption|].
  constructor; [destruct Hq as [->| ->]; discriminate|]. apply (literal_single q); [destruct Hq as [->| ->]; discriminate|assumption].
Qed.
Lemma join_single l : Forall single l -> single (join (str ", ") l).
Proof.
  intros H. induction H as [|x l Hx H IH]; [constructor|]. rewrite join_cons. apply Forall_app. split; [exact Hx|].
  destruct l as [|y l]; [constructor|]. cbn [rest_of]. apply Forall_app. split; [repeat constructor; discriminate|exact IH].
Qed.
Lemma plain_single d : tame d -> single (plain d).
Proof.
  intros H. induction H as [w Hw Hw'|q w Hq Hl|n b es Hn Hb He IHe Hl IHl].
  - apply word_single. exact Hw'.
  - apply (atom_single (q :: w)). apply tame_literal; assumption.
  - rewrite plain_group. apply Forall_app. split; [apply word_single; exact Hn|]. apply Forall_app. split; [destruct b; repeat constructor; discriminate|].
    apply Forall_app. split; [|destruct b; repeat constructor; discriminate]. apply join_single. apply Forall_forall. intros x Hx.
    apply in_map_iff in Hx. destruct Hx as ([[l|] v] & <- & Hi); cbn [entry]; [|exact (IHe _ _ Hi)].
    apply Forall_app. split; [exact (IHl _ _ Hi)|]. apply Forall_app. split; [repeat constructor; discriminate|exact (IHe _ _ Hi)].
Qed.
Lemma opening_single b : single (opening_alt b).
Proof. destruct b; repeat constructor; discriminate. Qed.
Lemma closing_single b : single (closing_alt b).
Proof. destruct b; repeat constructor; discriminate. Qed.

Definition line (k : nat) (e : option dbg * dbg) : list char := sp (S k) ++ entry (pr (S k)) e ++ [$","; 10%N].
Lemma pr_group k n b e es :
  pr k (Group n b (e :: es)) =
  n ++ opening_alt b ++ [10%N] ++ concat (map (line k) (e :: es)) ++ sp k ++ closing_alt b.
Proof. reflexivity. Qed.
Lemma pretty_group n b e es :
  pretty (Group n b (e :: es)) =
  n ++ opening_alt b ++ [10%N] ++ concat (map (fun e => pad_from true (entry pretty e ++ [$","; 10%N])) (e :: es)) ++ closing_alt b.
Proof. reflexivity. Qed.

(** Indenting a value once more. *)
Definition deeper (d : dbg) : Prop := forall k, pad_from false (pr k d) = pr (S k) d /\ ends false (pr k d) = false.

Lemma entry_deeper k e :
  deeper (snd e) -> match fst e with Some l => deeper l | None => True end ->
  pad_from false (entry (pr k) e) = entry (pr (S k)) e /\ ends false (entry (pr k) e) = false.
Proof.
  destruct e as [[l|] v]; cbn [fst snd entry]; intros Hv Hl; [|apply Hv].
  destruct (Hl k) as [L1 L2]. destruct (Hv k) as [V1 V2].
  assert (C : single (str ": ")) by (repeat constructor; discriminate).
  destruct (pad_single _ C) as [C1 C2].
  rewrite !pad_app, !ends_app, L1, L2, C1, C2, V1, V2. split; reflexivity.
Qed.

(** The text of one entry is not affected by being put on a line. *)
Lemma line_pad b w : w = [$","; 10%N] -> pad_from b w = (if b then str "    " else []) ++ w /\ ends b w = true.
Proof. intros ->. destruct b; split; reflexivity. Qed.

Lemma line_deeper k e :
  deeper (snd e) -> match fst e with Some l => deeper l | None => True end ->
  pad_from true (line k e) = line (S k) e /\ ends true (line k e) = true.
Proof.
  intros Hv Hl. unfold line. destruct (entry_deeper (S k) e Hv Hl) as [E1 E2].
  destruct (pad_single_true (sp (S k)) (sp_single _) ltac:(discriminate)) as [S1 S2].
  destruct (line_pad false [$","; 10%N] eq_refl) as [L1 L2].
  rewrite !pad_app, !ends_app, S1, S2, E1, E2, L1, L2, (sp_S (S k)), <- !app_assoc. split; reflexivity.
Qed.

Lemma lines_deeper k es :
  (forall l v, In (l, v) es -> deeper v) -> (forall l v, In (Some l, v) es -> deeper l) ->
  pad_from true (concat (map (line k) es)) = concat (map (line (S k)) es) /\
  ends true (concat (map (line k) es)) = true.
Proof.
  induction es as [|[l v] es IH]; intros Hv Hl; cbn [map concat]; [split; reflexivity|].
  destruct (line_deeper k (l, v)) as [L1 L2].
  { apply (Hv l v). left. reflexivity. }
  { destruct l as [l|]; cbn [fst]; [|exact I]. apply (Hl l v). left. reflexivity. }
  destruct IH as [I1 I2]; [intros; eapply Hv; right; eassumption|intros; eapply Hl; right; eassumption|].
  rewrite pad_app, ends_app, L1, L2, I1, I2. split; reflexivity.
Qed.

Lemma mild_deeper d : mild d -> deeper d.
Proof.
  induction 1 as [w Hw Hw'|q w Hq Hl|n b es Hn Hb He IHe Hl IHl|d H]; intros k.
  - cbn [pr]. apply pad_single, word_single. assumption.
  - cbn [pr]. apply pad_single, atom_single. apply tame_literal; assumption.
  - destruct (pad_single n (word_single n Hn)) as [N1 N2].
    destruct (pad_single _ (opening_single b)) as [O1 O2].
    destruct es as [|e es].
    + cbn [pr]. destruct (pad_single _ (closing_single b)) as [C1 C2].
      rewrite !pad_app, !ends_app, N1, N2, O1, O2, C1, C2. split; reflexivity.
    + rewrite !pr_group, !pad_app, !ends_app, N1, N2, O1, O2.
      change (pad_from false [10%N]) with [10%N]. change (ends false [10%N]) with true.
      destruct (lines_deeper k (e :: es) IHe IHl) as [-> ->].
      assert (Hs : single (sp k ++ closing_alt b)) by (apply Forall_app; split; [apply sp_single|apply closing_single]).
      destruct (pad_single_true _ Hs) as [C1 C2]; [destruct b; destruct k; discriminate|].
      rewrite <- pad_app, C1, <- ends_app, C2, sp_S, <- app_assoc. split; reflexivity.
  - cbn [pr]. apply pad_single, plain_single. assumption.
Qed.

Lemma pretty_pr d : mild d -> pretty d = pr 0 d.
Proof.
  induction 1 as [w Hw Hw'|q w Hq Hl|n b es Hn Hb He IHe Hl IHl|d H]; [reflexivity|reflexivity| |reflexivity].
  destruct es as [|e es]; [reflexivity|]. rewrite pretty_group, pr_group.
  assert (Em : map (fun e => pad_from true (entry pretty e ++ [$","; 10%N])) (e :: es) = map (line 0) (e :: es));
    [|rewrite Em; reflexivity].
  apply map_ext_in. intros [l v] Hi.
  assert (Ee : entry pretty (l, v) = entry (pr 0) (l, v)).
  { destruct l as [l|]; cbn [entry]; rewrite (IHe _ _ Hi); [|reflexivity]. rewrite (IHl _ _ Hi). reflexivity. }
  rewrite Ee. destruct (entry_deeper 0 (l, v)) as [E1 E2].
  { apply mild_deeper. exact (He _ _ Hi). }
  { destruct l as [l|]; cbn [fst]; [|exact I]. apply mild_deeper. exact (Hl _ _ Hi). }
  assert (Ht : exists c x, entry (pr 0) (l, v) = c :: x /\ c <> 10%N).
  { assert (Hp : forall d, mild d -> exists c x, pr 0 d = c :: x /\ c <> 10%N).
    { intros d Hd. inversion Hd as [u Hu Hw|q u Hq Hu|n' b' es' Hn' Hb' _ _|d0 Hd0]; subst.
      - destruct u as [|c u]; [congruence|]. exists c, u. split; [reflexivity|]. inversion Hw; subst. destruct H1 as [_ [_ H]]. assumption.
      - exists q, u. split; [reflexivity|]. destruct Hq as [->| ->]; discriminate.
      - destruct n' as [|c n'].
        + destruct b'; try (exfalso; exact (Hb' eq_refl eq_refl)); destruct es'; cbn; eexists; eexists; (split; [reflexivity|discriminate]).
        + inversion Hn' as [|? ? Hc _]; subst. destruct Hc as [_ [_ Hc]].
          destruct es'; cbn; eexists; eexists; (split; [reflexivity|assumption]).
      - destruct (plain_starts d0 Hd0) as (c & x & E & _ & Hc). exists c, x. split; [exact E|exact Hc]. }
    destruct l as [l|]; cbn [entry]; [|apply Hp; exact (He _ _ Hi)].
    destruct (Hp l (Hl _ _ Hi)) as [c [x [E Hc]]]. rewrite E. eexists; eexists; split; [reflexivity|assumption]. }
  destruct Ht as [c [x [Et Hc]]].
  unfold line. rewrite sp_S. change (sp 0) with (@nil N). rewrite app_nil_r, <- E1, Et in *.
  cbn [app pad_from ends] in *. apply N.eqb_neq in Hc. rewrite Hc in *.
  rewrite pad_app, E2. reflexivity.
Qed.

Lemma pr_starts k d : mild d -> exists c r, pr k d = c :: r /\ starts c.
Proof.
  intros H. inversion H as [w Hw Hw'|q w Hq Hl|n b es Hn Hb He Hl|d0 Hd0]; subst.
  - destruct w as [|c w]; [congruence|]. exists c, w. split; [reflexivity|]. inversion Hw'; subst. apply word_starts. assumption.
  - exists q, w. split; [reflexivity|]. apply quote_starts. assumption.
  - assert (G : forall x, exists c r, n ++ opening_alt b ++ x = c :: r /\ starts c).
    { intros x. apply group_starts; try assumption.
      - intros c o' E Ec. destruct b; cbn in E; injection E as <- E; try discriminate. exact (Hb eq_refl).
      - destruct b; eexists; eexists; split; try reflexivity; cbn; auto 10. }
    destruct es as [|e es]; [cbn [pr]|rewrite pr_group]; apply G.
  - apply plain_starts. assumption.
Qed.

(** The entries of a group are told apart one by one. *)
Definition reads_same (f : dbg -> list char) (d : dbg) : Prop :=
  forall d' r r', mild d' -> after r -> after r' -> f d ++ r = f d' ++ r' -> bare d = bare d' /\ r = r'.
Definition entry_mild (e : option dbg * dbg) : Prop := mild (snd e) /\ match fst e with Some l => mild l | None => True end.

Lemma entry_same f e e' r r' :
  reads_same f (snd e) -> match fst e with Some l => reads_same f l | None => True end ->
  entry_mild e' -> after r -> after r' -> (forall x, r <> 58%N :: x) -> (forall x, r' <> 58%N :: x) ->
  entry f e ++ r = entry f e' ++ r' -> bare_entry bare e = bare_entry bare e' /\ r = r'.
Proof.
  destruct e as [[l|] v], e' as [[l'|] v']; cbn [entry bare_entry fst snd]; intros Hv Hl [Hv' Hl'] Hr Hr' Hc Hc' E;
    cbn [fst snd] in Hv', Hl'.
  - rewrite <- !app_assoc in E. destruct (Hl l' _ _ Hl' (colon_after _) (colon_after _) E) as [-> E'].
    cbn in E'. injection E' as E'. destruct (Hv v' _ _ Hv' Hr Hr' E') as [-> ->]. split; reflexivity.
  - exfalso. rewrite <- !app_assoc in E. destruct (Hl v' _ r' Hv' (colon_after _) Hr' E) as [_ E'].
    exact (Hc' _ (eq_sym E')).
  - exfalso. rewrite <- !app_assoc in E. destruct (Hv l' r _ Hl' Hr (colon_after _) E) as [_ E'].
    exact (Hc _ E').
  - destruct (Hv v' _ _ Hv' Hr Hr' E) as [-> ->]. split; reflexivity.
Qed.

Lemma mild_entries n b es : mild (Group n b es) -> Forall entry_mild es.
Proof.
  intros H. inversion H as [| |? ? ? Hn Hb He Hl|]; subst. apply Forall_forall. intros [[l|] v] Hi; split; cbn [fst snd]; eauto.
Qed.

Lemma opening_alt_shape b x : exists c o', opening_alt b ++ x = c :: o' /\ In c (str "([{ ") /\ (c = 32%N -> exists o'', o' = 123%N :: o'').
Proof. destruct b; cbn; eexists; eexists; (split; [reflexivity|]); split; auto 10; intros; try discriminate; eexists; reflexivity. Qed.

Lemma line_after x : after ([$","; 10%N] ++ x) /\ forall y, [$","; 10%N] ++ x <> 58%N :: y.
Proof. split; [cbn; auto|]. intros y E. discriminate. Qed.

Lemma lines_back k b es :
  (forall l v, In (l, v) es -> reads_same (pr (S k)) v) -> (forall l v, In (Some l, v) es -> reads_same (pr (S k)) l) ->
  forall es' r r', Forall entry_mild es' ->
  concat (map (line k) es) ++ sp k ++ closing_alt b ++ r = concat (map (line k) es') ++ sp k ++ closing_alt b ++ r' ->
  map (bare_entry bare) es = map (bare_entry bare) es' /\ r = r'.
Proof.
  assert (X : forall e x y, line k e ++ x = sp k ++ closing_alt b ++ y -> False).
  { intros e x y E. unfold line in E.
    assert (Es : sp (S k) = sp k ++ str "    ").
    { clear. induction k as [|k IH]; [reflexivity|]. rewrite (sp_S (S k)), IH at 1. rewrite (sp_S k), app_assoc. reflexivity. }
    rewrite Es, <- !app_assoc in E. apply app_inv_head in E. destruct b; discriminate. }
  induction es as [|e es IH]; intros Hv Hl [|e' es'] r r' Ht' E; cbn [map concat] in E.
  - cbn in E. apply app_inv_head in E. apply app_inv_head in E. subst. split; reflexivity.
  - exfalso. rewrite <- app_assoc in E. exact (X _ _ _ (eq_sym E)).
  - exfalso. rewrite <- app_assoc in E. exact (X _ _ _ E).
  - inversion Ht'; subst. unfold line at 1 3 in E. rewrite <- !app_assoc in E. apply app_inv_head in E.
    match type of E with _ ++ _ ++ ?x = _ ++ _ ++ ?y =>
      destruct (line_after x) as [A1 A2]; destruct (line_after y) as [B1 B2] end.
    apply entry_same in E; try assumption.
    + destruct E as [E1 E]. apply app_inv_head in E.
      destruct (IH ltac:(intros; eapply Hv; right; eassumption) ltac:(intros; eapply Hl; right; eassumption) es' r r') as [E2 <-];
        try assumption. cbn [map]. rewrite E1, E2. split; reflexivity.
    + destruct e as [l v]. apply (Hv l v). left. reflexivity.
    + destruct e as [[l|] v]; cbn [fst]; [|exact I]. apply (Hl l v). left. reflexivity.
Qed.

Lemma pr_shape k n b es : exists x, pr k (Group n b es) = n ++ opening_alt b ++ x.
Proof. destruct es as [|e es]; [|rewrite pr_group]; eexists; reflexivity. Qed.

(** A value in the form [{:?}] against one in the form [{:#?}]. *)
Lemma plain_pr d d' k r r' : tame d -> mild d' -> after r -> after r' -> plain d ++ r = pr k d' ++ r' -> d = bare d' /\ r = r'.
Proof.
  intros H H' Hr Hr' E. destruct d' as [w'|n' b' es'|d'].
  - apply (plain_back d H (Atom w') r r' (mild_atom w' H') Hr Hr' E).
  - pose proof (mild_entries n' b' es' H') as Hes.
    assert (Hn' : Forall word_char n') by (inversion H'; assumption).
    destruct (pr_shape k n' b' es') as [x Ex]. pose proof E as E0. rewrite Ex, <- !app_assoc in E.
    destruct d as [w|n b es|]; [exfalso; apply (atom_group (Atom w) n' (opening_alt b' ++ x ++ r') r); eauto; apply opening_alt_shape| |inversion H].
    assert (Hn : Forall word_char n) by (inversion H; assumption). pose proof (group_entries n b es H) as Het.
    rewrite plain_group, <- !app_assoc in E, E0. apply word_split in E; try assumption; [|apply shape_stops, opening_shape|apply shape_stops, opening_alt_shape].
    destruct E as [<- E].
    assert (Eb : b = b') by (destruct b, b'; cbn in E; injection E; intros; try reflexivity; discriminate). subst b'. clear x Ex E.
    destruct es' as [|e' es'].
    + cbn [pr] in E0. rewrite <- !app_assoc in E0. apply app_inv_head in E0. destruct es as [|e es].
      * destruct b; cbn in E0; injection E0; intros; subst; (split; [reflexivity|reflexivity]) || discriminate.
      * exfalso. inversion Het; subst. cbn [map] in E0. rewrite join_cons in E0.
        destruct (entry_starts plain e plain_starts ltac:(assumption)) as (c & y & Ey & Hc & _). rewrite Ey in E0.
        destruct b; cbn in E0; injection E0; intros; subst; try discriminate; apply Hc; cbn; auto 10.
    + exfalso. rewrite pr_group, <- !app_assoc in E0. apply app_inv_head in E0. destruct es as [|e es].
      * destruct b; discriminate.
      * inversion Het; subst. cbn [map] in E0. rewrite join_cons in E0.
        destruct (entry_starts plain e plain_starts ltac:(assumption)) as (c & y & Ey & _ & Hc). rewrite Ey in E0.
        destruct b; cbn in E0; injection E0; intros; subst; try discriminate; apply Hc; reflexivity.
  - cbn [pr bare] in *. inversion H' as [| | |d0 Hd0]; subst. rewrite (tame_bare d' Hd0).
    apply (plain_back d H d' r r' Hd0 Hr Hr' E).
Qed.

Lemma pr_back d : mild d -> forall k, reads_same (pr k) d.
Proof.
  intros H. induction H as [w Hw Hw'|q w Hq Hl|n b es Hn Hb He IHe Hl IHl|d H]; intros k d' r r' Ht' Hr Hr' E.
  - apply (plain_pr (Atom w) d' k r r' (tame_word w Hw Hw') Ht' Hr Hr' E).
  - apply (plain_pr (Atom (q :: w)) d' k r r' (tame_literal q w Hq Hl) Ht' Hr Hr' E).
  - destruct d' as [w'|n' b' es'|d'].
    + destruct (plain_pr (Atom w') (Group n b es) k r' r (mild_atom w' Ht') (mild_group n b es Hn Hb He Hl) Hr' Hr (eq_sym E)) as [E1 _].
      rewrite bare_group in E1. discriminate.
    + assert (Hn' : Forall word_char n') by (inversion Ht'; assumption).
      destruct (pr_shape k n b es) as [x Ex]. destruct (pr_shape k n' b' es') as [x' Ex'].
      pose proof E as E0. rewrite Ex, Ex', <- !app_assoc in E.
      apply word_split in E; try assumption; try (apply shape_stops, opening_alt_shape).
      destruct E as [<- E].
      assert (Eb : b = b'). { destruct b, b'; cbn in E; injection E; intros; try reflexivity; discriminate. }
      subst b'. clear E Ex Ex' x x'. destruct es as [|e es], es' as [|e' es'].
      * cbn [pr] in E0. apply app_inv_head in E0. split; [reflexivity|assumption].
      * exfalso. rewrite pr_group in E0. cbn [pr] in E0. rewrite <- !app_assoc in E0.
        apply app_inv_head in E0. apply app_inv_head in E0. destruct b; discriminate.
      * exfalso. rewrite pr_group in E0. cbn [pr] in E0. rewrite <- !app_assoc in E0.
        apply app_inv_head in E0. apply app_inv_head in E0. destruct b; discriminate.
      * rewrite !pr_group, <- !app_assoc in E0. do 3 apply app_inv_head in E0.
        apply lines_back in E0.
        -- rewrite !bare_group. destruct E0 as [-> <-]. split; reflexivity.
        -- intros l v Hi. exact (IHe l v Hi (S k)).
        -- intros l v Hi. exact (IHl l v Hi (S k)).
        -- exact (mild_entries n b _ Ht').
    + inversion Ht' as [| | |d0 Hd0]; subst. cbn [pr] in E.
      destruct (plain_pr d' (Group n b es) k r' r Hd0 (mild_group n b es Hn Hb He Hl) Hr' Hr (eq_sym E)) as [-> ->].
      split; [|reflexivity]. symmetry. exact (tame_bare _ Hd0).
  - cbn [pr bare] in *. rewrite (tame_bare d H). exact (plain_pr d d' k r r' H Ht' Hr Hr' E).
Qed.

Lemma pretty_same d d' : mild d -> mild d' -> pretty d = pretty d' -> bare d = bare d'.
Proof.
  intros H H' E. rewrite !pretty_pr in E by assumption.
  apply (pr_back d H 0 d' [] [] H' I I). rewrite !app_nil_r. assumption.
Qed.

Lemma pretty_inj d d' : tame d -> tame d' -> pretty d = pretty d' -> d = d'.
Proof.
  intros H H' E. rewrite <- (tame_bare d H), <- (tame_bare d' H'). apply pretty_same; [apply tame_mild; assumption|apply tame_mild; assumption|exact E].
Qed.
