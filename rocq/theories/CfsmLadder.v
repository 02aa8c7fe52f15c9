(** A family of small grammars with large automata: [i -> a (i+1) | b (i+1)] for
    [i < n] and [n -> a]. *)
From Verif Require Import Base GrammarModel CfsmModel SlrModel SpecCfg SpecCopies GrammarProofs CfsmProofs SlrNew CfsmCopies.

Definition letter (b : bool) : nat := if b then 1 else 0.
Notation ltr b := (Ter (letter b) : symbol nat nat).

Definition ladder_calls (n : nat) : list (call nat nat) :=
  CallStart 0 :: flat_map (fun i => map (fun b => CallRule i [ltr b; Var (S i)]) [false; true]) (seq 0 n) ++ [CallRule n [ltr false]].

Lemma ladder_length n : length (ladder_calls n) = 2 * n + 2.
Proof.
  unfold ladder_calls. cbn [length]. rewrite app_length. cbn [length].
  assert (E : forall k, length (flat_map (fun i => map (fun b => CallRule (V := nat) (T := nat) i [ltr b; Var (S i)]) [false; true]) (seq k n)) = 2 * n).
  { induction n as [|m IH]; intros k; [reflexivity|]. cbn [seq flat_map map app length]. rewrite IH. lia. }
  rewrite E. lia.
Qed.

Lemma ladder_added n v bd : added (ladder_calls n) v bd <-> v < n /\ (exists b, bd = [ltr b; Var (S v)]) \/ v = n /\ bd = [ltr false].
Proof.
  unfold added, ladder_calls. split.
  - intros (bd' & Hin & ->). destruct Hin as [Hin|Hin]; [discriminate|]. apply in_app_iff in Hin. destruct Hin as [Hin|[Hin|[]]].
    + apply in_flat_map in Hin. destruct Hin as (i & Hi & Hin). apply in_seq in Hi. apply in_map_iff in Hin.
      destruct Hin as (b & E & _). injection E as -> <-. left. split; [lia|]. exists b. reflexivity.
    + injection Hin as -> <-. right. auto.
  - intros [(Hv & b & ->)|(-> & ->)].
    + exists [ltr b; Var (S v)]. split; [|reflexivity]. right. apply in_app_iff. left. apply in_flat_map. exists v.
      split; [apply in_seq; lia|]. apply in_map_iff. exists b. split; auto. destruct b; cbn; auto.
    + exists [ltr false]. split; [|reflexivity]. right. apply in_app_iff. right. left. reflexivity.
Qed.

Lemma ladder_start n : last_start (ladder_calls n) = Some 0.
Proof.
  unfold ladder_calls. cbn [last_start].
  assert (E : forall l : list (call nat nat), (forall x, In x l -> exists v bd, x = CallRule v bd) -> last_start l = None).
  { induction l as [|x l IH]; intros H; [reflexivity|]. destruct (H x (or_introl eq_refl)) as (v & bd & ->). cbn [last_start]. apply IH. intros y Hy. apply H. right. auto. }
  rewrite E; [reflexivity|]. intros x Hx. apply in_app_iff in Hx. destruct Hx as [Hx|[<-|[]]]; [|eauto].
  apply in_flat_map in Hx. destruct Hx as (i & _ & Hx). apply in_map_iff in Hx. destruct Hx as (b & <- & _). eauto.
Qed.

Lemma ladder_closed n : closed_calls (ladder_calls n).
Proof.
  assert (Hr : forall v, v <= n -> has_rule (ladder_calls n) v).
  { intros v Hv. destruct (Nat.eq_dec v n) as [->|].
    - exists [ltr false]. apply ladder_added. auto.
    - exists [ltr false; Var (S v)]. apply ladder_added. left. split; [lia|eauto]. }
  exists 0. split; [apply ladder_start|]. split; [apply Hr; lia|]. intros v bd x H Hx. apply Hr. apply ladder_added in H.
  destruct H as [(Hv & b & ->)|(-> & ->)].
  - destruct Hx as [Hx|[Hx|[]]]; [discriminate|]. injection Hx as <-. lia.
  - destruct Hx as [Hx|[]]. discriminate.
Qed.

Section Ladder.
  Variable n : nat.
  Variable g : grammar nat nat.
  Hypothesis Hg : build (do_calls (ladder_calls n)) = Val g.

  Lemma ladder_g_start : g_start g = 0.
  Proof. apply build_contents in Hg. destruct Hg as (H & _). rewrite ladder_start in H. injection H as ->. reflexivity. Qed.

  Lemma ladder_rule v bd : rule g v bd <-> v < n /\ (exists b, bd = [ltr b; Var (S v)]) \/ v = n /\ bd = [ltr false].
  Proof. apply build_contents in Hg. destruct Hg as (_ & H & _). rewrite H. apply ladder_added. Qed.

  Lemma skip_none (a b a' b' : list (symbol nat nat)) : ~ In Eps b -> skip_eps (a, b) (a', b') -> a' = a /\ b' = b.
  Proof. intros Hn H. inversion H as [? ? H1|? ? ? H1]; subst; auto. destruct Hn. left. reflexivity. Qed.

  Lemma ladder_no_eps v bd : rule g v bd -> ~ In Eps bd.
  Proof.
    intros H. apply ladder_rule in H. destruct H as [(_ & b & ->)|(_ & ->)]; cbn; intuition discriminate.
  Qed.

  (** The items after a word. *)
  Lemma ladder_items w h a r : lr0 g w (h, a, r) <-> exists bs, length bs = h /\ w = map (fun b => ltr b) bs ++ a /\ rule g h (a ++ r).
  Proof.
    split.
    - intros H. remember (h, a, r) as d eqn:E. revert h a r E.
      induction H as [bd a0 b0 H1 H2|w h0 a0 v r0 bd a' b' H IH H1 H2|w h0 a0 s r0 a' b' H IH H2]; intros h a r E; injection E as <- <- <-.
      + apply skip_none in H2; [|eapply ladder_no_eps; eauto]. destruct H2 as [-> ->].
        exists []. rewrite ladder_g_start in *. auto.
      + apply skip_none in H2; [|eapply ladder_no_eps; eauto]. destruct H2 as [-> ->].
        destruct (IH _ _ _ eq_refl) as (bs & Hl & -> & Hr). apply ladder_rule in Hr.
        destruct Hr as [(Hv & b & Hr)|(-> & Hr)].
        * destruct a0 as [|x [|y a0]]; cbn [app] in Hr; [discriminate| |].
          -- injection Hr as -> -> _. exists (bs ++ [b]). rewrite app_length, map_app, app_nil_r. cbn [length map]. split; [lia|]. auto.
          -- injection Hr as _ _ Hr. destruct a0; discriminate.
        * destruct a0 as [|x a0]; [discriminate|]. injection Hr as _ Hr. destruct a0; discriminate.
      + destruct (IH _ _ _ eq_refl) as (bs & Hl & -> & Hr).
        apply skip_none in H2.
        * destruct H2 as [-> ->]. exists bs. rewrite <- !app_assoc. auto.
        * apply ladder_no_eps in Hr. intros Hin. apply Hr. apply in_app_iff. right. right. auto.
    - intros (bs & Hl & -> & Hr).
      assert (Hskip : forall (a b : list (symbol nat nat)), ~ In Eps b -> skip_eps (a, b) (a, b)).
      { intros a0 b0 Hn. constructor. intros b' ->. apply Hn. left. reflexivity. }
      assert (Hfront : forall bs h bd, length bs = h -> rule g h bd -> lr0 g (map (fun b => ltr b) bs) (h, [], bd)).
      { clear - Hg Hskip. induction bs as [|b bs IH] using rev_ind; intros h bd Hl Hr.
        - cbn in Hl. subst h. pose proof (ladder_no_eps _ _ Hr) as He. rewrite <- ladder_g_start in *. eapply lr0_start; eauto.
        - rewrite app_length in Hl. cbn [length] in Hl. rewrite map_app. cbn [map].
          assert (Hh : h = S (length bs)) by lia. clear Hl. subst h.
          assert (Hr' : rule g (length bs) [ltr b; Var (S (length bs))]).
          { apply ladder_rule. left. apply ladder_rule in Hr. split; [lia|eauto]. }
          apply (lr0_close g _ (length bs) [ltr b] (S (length bs)) [] bd); auto.
          + apply (lr0_goto g _ _ [] _ [Var (S (length bs))]); [apply IH; auto|]. apply Hskip. cbn. intuition discriminate.
          + apply Hskip. eapply ladder_no_eps; eauto. }
      revert r Hr. induction a as [|x a IH] using rev_ind; intros r Hr.
      + rewrite app_nil_r. apply Hfront; auto.
      + rewrite app_assoc. rewrite <- app_assoc in Hr. apply (lr0_goto g _ h a x r); [apply IH; exact Hr|].
        apply Hskip. apply ladder_no_eps in Hr. intros Hin. apply Hr. apply in_app_iff. right. right. auto.
  Qed.

  Lemma ladder_word_length w d : lr0 g w d -> let '(h, a, _) := d in length w = h + length a.
  Proof.
    destruct d as [[h a] r]. intros H. apply ladder_items in H. destruct H as (bs & <- & -> & _).
    rewrite app_length, map_length. reflexivity.
  Qed.

  Lemma ladder_shortest w : viable g w -> shortest g w.
  Proof.
    intros H. split; auto. destruct H as (d & Hd). intros w' Hs. pose proof (proj1 (Hs d) Hd) as Hd'.
    apply ladder_word_length in Hd, Hd'. destruct d as [[h a] r]. lia.
  Qed.

  Lemma vecs_spec k : length (vecs k) = 2 ^ k /\ NoDup (vecs k) /\ forall bs, In bs (vecs k) -> length bs = k.
  Proof.
    induction k as [|k (IH1 & IH2 & IH3)]; [split; [reflexivity|split; [repeat constructor; auto|intros bs [<-|[]]; reflexivity]]|].
    cbn [vecs]. split; [|split].
    - rewrite app_length, !map_length, IH1. cbn. lia.
    - assert (Hm : forall b, NoDup (map (cons b) (vecs k))) by (intros b; apply FinFun.Injective_map_NoDup; [intros x y E; congruence|auto]).
      apply nodup_app; auto. intros x H1 H2. apply in_map_iff in H1, H2. destruct H1 as (? & <- & _), H2 as (? & E & _). discriminate.
    - intros bs H. apply in_app_iff in H. destruct H as [H|H]; apply in_map_iff in H; destruct H as (x & <- & H); cbn; auto.
  Qed.

  Lemma ltr_inj bs : forall bs', map (fun b => ltr b) bs = map (fun b => ltr b) bs' -> bs = bs'.
  Proof.
    induction bs as [|b bs IH]; intros [|b' bs'] E; try discriminate; auto. injection E as E1 E2. f_equal; auto.
    destruct b, b'; auto; discriminate.
  Qed.

  Lemma ladder_states : exists ws, length ws = 2 ^ n /\ NoDup ws /\ Forall (shortest g) ws.
  Proof.
    destruct (vecs_spec n) as (H1 & H2 & H3). exists (map (map (fun b => ltr b)) (vecs n)). split; [rewrite map_length; auto|]. split.
    - apply FinFun.Injective_map_NoDup; auto. intros x y. apply ltr_inj.
    - apply Forall_forall. intros w Hw. apply in_map_iff in Hw. destruct Hw as (bs & <- & Hb). apply ladder_shortest.
      exists (n, [], [ltr false]). apply ladder_items. exists bs. rewrite app_nil_r. split; auto. split; auto. apply ladder_rule. auto.
  Qed.

  (** ** Words with the same items *)

  Definition tail_like (z : list (symbol nat nat)) : Prop := (exists b, z = [ltr b]) \/ exists b k, z = [ltr b; Var k].

  Lemma app_split {A} (x y z a : list A) : x ++ z = y ++ a -> length a <= length z -> exists m, y = x ++ m /\ z = m ++ a.
  Proof.
    revert y. induction x as [|c x IH]; intros y E Hl.
    - exists y. auto.
    - destruct y as [|c' y]; cbn in E.
      + subst a. cbn in Hl. rewrite app_length in Hl. lia.
      + injection E as -> E. destruct (IH _ E Hl) as (m & -> & ->). exists m. auto.
  Qed.

  Lemma map_app_inv {A B} (f : A -> B) (l1 : list A) : forall bs m, map f bs = map f l1 ++ m -> exists bs', m = map f bs'.
  Proof.
    induction l1 as [|x l1 IH]; intros bs m E; [exists bs; auto|]. destruct bs as [|b bs]; [discriminate|]. injection E as _ E. eauto.
  Qed.

  Lemma tail_same b1 b2 z : length b1 = length b2 -> tail_like z ->
    same_state g (map (fun b => ltr b) b1 ++ z) (map (fun b => ltr b) b2 ++ z).
  Proof.
    assert (Hone : forall b1 b2 z, length b1 = length b2 -> tail_like z -> forall d,
              lr0 g (map (fun b => ltr b) b1 ++ z) d -> lr0 g (map (fun b => ltr b) b2 ++ z) d).
    { clear b1 b2 z. intros b1 b2 z Hl Hz [[h a] r] H. apply ladder_items in H. destruct H as (bs & Hh & E & Hr). apply ladder_items.
      assert (Hle : length a <= length z).
      { assert (H2 : length a <= 2).
        { apply ladder_rule in Hr. destruct Hr as [(_ & b & Hr)|(_ & Hr)]; apply (f_equal (@length _)) in Hr; rewrite app_length in Hr; cbn in Hr; lia. }
        destruct Hz as [(b & ->)|(b & k & ->)]; [|exact H2]. cbn. destruct (le_lt_dec (length a) 1); auto. exfalso.
        destruct a as [|x [|y [|u a]]]; cbn in *; try lia.
        replace (map (fun b => ltr b) bs ++ [x; y]) with ((map (fun b => ltr b) bs ++ [x]) ++ [y]) in E by (rewrite <- app_assoc; reflexivity).
        apply app_inj_tail in E. destruct E as [_ <-]. apply ladder_rule in Hr. destruct Hr as [(_ & c & Hr)|(_ & Hr)]; discriminate. }
      destruct (app_split _ _ _ _ E Hle) as (m & Em & ->). destruct (map_app_inv _ _ _ _ Em) as (bs' & ->).
      exists (b2 ++ bs'). rewrite map_app, <- app_assoc. split; [|auto].
      apply (f_equal (@length _)) in Em. rewrite app_length, !map_length in Em. rewrite app_length. lia. }
    intros Hl Hz d. split; apply Hone; auto.
  Qed.

  Definition zeros k := map (fun b => ltr b) (repeat false k).

  Definition ladder_reps : list (list (symbol nat nat)) :=
    [] :: (zeros n ++ [ltr false]) ::
    flat_map (fun h => flat_map (fun b => [zeros h ++ [ltr b]; zeros h ++ [ltr b; Var (S h)]]) [false; true]) (seq 0 n).

  Lemma ladder_reps_length : length ladder_reps = 4 * n + 2.
  Proof.
    unfold ladder_reps. cbn [length].
    assert (E : forall m k, length (flat_map (fun h => flat_map (fun b => [zeros h ++ [ltr b]; zeros h ++ [ltr b; Var (S h)]]) [false; true]) (seq k m)) = 4 * m).
    { induction m as [|m IH]; intros k; [reflexivity|]. cbn [seq flat_map]. rewrite app_length, IH. cbn [flat_map app length]. lia. }
    rewrite E. lia.
  Qed.

  Lemma in_reps h b z : h < n -> z = [ltr b] \/ z = [ltr b; Var (S h)] -> In (zeros h ++ z) ladder_reps.
  Proof.
    intros Hh Hz. right. right. apply in_flat_map. exists h. split; [apply in_seq; lia|]. apply in_flat_map. exists b.
    split; [destruct b; cbn; auto|]. destruct Hz as [-> | ->]; cbn; auto.
  Qed.

  Lemma ladder_classes w : viable g w -> exists w', In w' ladder_reps /\ same_state g w w'.
  Proof.
    assert (Hz : forall bs z, tail_like z -> same_state g (map (fun b => ltr b) bs ++ z) (zeros (length bs) ++ z)).
    { intros bs z Hz. apply tail_same; auto. rewrite repeat_length. reflexivity. }
    intros ([[h a] r] & H). apply ladder_items in H. destruct H as (bs & Hl & -> & Hr). apply ladder_rule in Hr.
    destruct a as [|x a].
    - destruct bs as [|b bs _] using rev_ind; [exists []; split; [left; auto|intros d; reflexivity]|].
      rewrite app_length in Hl. cbn in Hl. rewrite app_nil_r, map_app. cbn [map].
      exists (zeros (length bs) ++ [ltr b]). split; [apply (in_reps _ b); [|auto]|apply Hz; left; eauto].
      destruct Hr as [(Hr & _)|(Hr & _)]; lia.
    - destruct Hr as [(Hh & b & Hr)|(-> & Hr)].
      + injection Hr as -> Hr. destruct a as [|y a].
        * exists (zeros h ++ [ltr b]). split; [apply (in_reps _ b); auto|]. rewrite <- Hl. apply Hz. left. eauto.
        * injection Hr as -> Hr. assert (a = []) as -> by (destruct a; [auto|discriminate]).
          exists (zeros h ++ [ltr b; Var (S h)]). split; [apply (in_reps _ b); auto|]. rewrite <- Hl. apply Hz. right. eauto.
      + injection Hr as -> Hr. assert (a = []) as -> by (destruct a; [auto|discriminate]).
        exists (zeros n ++ [ltr false]). split; [right; left; auto|]. rewrite <- Hl. apply Hz. left. eauto.
  Qed.
End Ladder.

Lemma automaton_blowup n : exists (cs : list (call nat nat)) g, length cs = 2 * n + 2 /\
  (forall v bd, In (CallRule v bd) cs -> length bd <= 2) /\ build (do_calls cs) = Val g /\
  (exists ws, length ws = 4 * n + 2 /\ forall w, viable g w -> exists w', In w' ws /\ same_state g w w') /\
  forall (ho : HashOrder) fuel p c, from_grammar fuel p g = Val c -> 2 ^ n <= length (cf_states c).
Proof.
  destruct (proj1 (build_ok (ladder_calls n)) (ladder_closed n)) as (g & Hg).
  exists (ladder_calls n), g. split; [apply ladder_length|]. split.
  { intros v bd [H|H]; [discriminate|]. apply in_app_iff in H. destruct H as [H|[H|[]]].
    - apply in_flat_map in H. destruct H as (i & _ & H). apply in_map_iff in H. destruct H as (b & E & _). injection E as _ <-. auto.
    - injection H as _ <-. cbn. lia. }
  split; [auto|]. split.
  { exists (ladder_reps n). split; [apply ladder_reps_length|]. apply (ladder_classes n g Hg). }
  intros ho fuel p c Hc. destruct (ladder_states n g Hg) as (ws & <- & H2 & H3).
  apply (proj1 (states_between g (ex_intro _ _ Hg) fuel p c Hc)); auto.
Qed.
