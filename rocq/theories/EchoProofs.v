(** Grammars on which [first_bodies] takes up exponentially many bodies (C99). *)
From Verif Require Import Base GrammarModel SpecCfg GrammarProofs GrammarTotal FollowProofs WorkModel SpecWork WorkProofs.

Lemma in_repeat_fix {A} (x : A) (l : list A) : NoDup l -> (forall y, In y l <-> y = x) -> l = [x].
Proof.
  intros Hn H. destruct l as [|a l]; [destruct (proj2 (H x) eq_refl)|].
  assert (a = x) as -> by (apply H; left; reflexivity). f_equal. destruct l as [|b l]; [reflexivity|].
  assert (b = x) as -> by (apply H; right; left; reflexivity). inversion Hn as [|? ? Hx _]; subst. destruct Hx. left; reflexivity.
Qed.

Lemma val_inj {A} (x y : A) : Val x = Val y -> x = y.
Proof. intros H. injection H as H. exact H. Qed.

Section Loop.
  Context {V T : Type} {dv : DecEq V} {dt : DecEq T} {ho : HashOrder}.
  Variables (p : list nat) (g : grammar V T).

  Definition deps_of (st : @fstate V T) (v : V) : list (option V * list (body V T)) :=
    match mget v (f_deps st) with Some d => d | None => [] end.

  Definition popped (st : @fstate V T) (rest : list (option V * list (body V T))) : @fstate V T :=
    {| f_result := f_result st; f_first := f_first st; f_pending := rest; f_deps := f_deps st; f_visited := f_visited st |}.

  Lemma work_step fuel st r c o bs rest : work_loop fuel p g st = Val (r, c) -> f_pending st = (o, bs) :: rest ->
    exists fuel' st1 c1, first_entry p g o bs (popped st rest) = Val st1 /\ work_loop fuel' p g st1 = Val (r, c1) /\
      w_bodies c = length bs + w_bodies c1.
  Proof.
    intros H E. destruct fuel as [|fuel]; cbn in H; rewrite E in H; [discriminate|].
    apply bind_val in H. destruct H as (st1 & E1 & H). apply bind_val in H. destruct H as ([r1 c1] & E2 & H).
    injection H as <- <-. exists fuel, st1, c1. auto.
  Qed.

  Lemma extend_more (o : option V) (syms : list (symbol V T)) (st : @fstate V T) : exists more, f_pending (extend_for_variable p o syms st) = f_pending st ++ more.
  Proof.
    unfold extend_for_variable. destruct o as [v|]; [|exists []; rewrite app_nil_r; reflexivity].
    destruct (Nat.eqb _ _); [exists []; rewrite app_nil_r; reflexivity|eexists; reflexivity].
  Qed.

  Lemma scan_more (o : option V) (s : body V T) : forall (st : @fstate V T) st', first_scan p g o s st = Val st' -> exists more, f_pending st' = f_pending st ++ more.
  Proof.
    induction s as [|[t|v|] s IH]; intros st st' H; cbn [first_scan] in H.
    - injection H as <-. exists []. rewrite app_nil_r. reflexivity.
    - injection H as <-. apply extend_more.
    - destruct (memb v _).
      + destruct (mget v _) as [fv|]; [|injection H as <-; exists []; rewrite app_nil_r; reflexivity].
        match type of H with context [extend_for_variable p o ?y ?x] => destruct (extend_more o y x) as (m1 & E1) end.
        destruct (memb Eps fv).
        * apply IH in H. destruct H as (m2 & E2). rewrite E2, E1. cbn [f_pending add_dependency]. rewrite <- app_assoc. eauto.
        * injection H as <-. rewrite E1. cbn. eauto.
      + apply bind_val in H. destruct H as (bs & _ & H). injection H as <-. cbn. eauto.
    - destruct s; [injection H as <-; apply extend_more|]. apply IH. exact H.
  Qed.

  Lemma entry_more (o : option V) (bs : list (body V T)) : forall (st : @fstate V T) st', first_entry p g o bs st = Val st' -> exists more, f_pending st' = f_pending st ++ more.
  Proof.
    induction bs as [|b bs IH]; intros st st' H; cbn [first_entry] in H.
    - injection H as <-. exists []. rewrite app_nil_r. reflexivity.
    - apply bind_val in H. destruct H as (st1 & E & H). apply scan_more in E. destruct E as (m1 & E1).
      apply IH in H. destruct H as (m2 & E2). rewrite E2, E1, <- app_assoc. eauto.
  Qed.

  (** Whatever is pending is taken up. *)
  Lemma work_pending fuel : forall st r c, work_loop fuel p g st = Val (r, c) ->
    list_sum (map (fun e => length (snd e)) (f_pending st)) <= w_bodies c.
  Proof.
    induction fuel as [|fuel IH]; intros st r c H; cbn in H.
    - destruct (f_pending st) as [|[o bs] rest]; [apply Nat.le_0_l|discriminate].
    - destruct (f_pending st) as [|[o bs] rest] eqn:E; [apply Nat.le_0_l|].
      apply bind_val in H. destruct H as (st1 & E1 & H). apply bind_val in H. destruct H as ([r1 c1] & E2 & H).
      injection H as <- <-. apply IH in E2. apply entry_more in E1. destruct E1 as (more & E1). cbn [f_pending] in E1.
      rewrite E1, map_app, list_sum_app in E2. cbn [map list_sum fold_right snd w_bodies add_work]. unfold list_sum in *. lia.
  Qed.

  Lemma deps_add (v : V) (o : option V) (s : body V T) (st : @fstate V T) w : deps_of (add_dependency v o s st) w =
    if eqb w v then mupdate o [] (fun l => l ++ [s]) (deps_of st v) else deps_of st w.
  Proof. unfold deps_of, add_dependency. cbn. rewrite mget_mupdate. destruct (eqb w v); reflexivity. Qed.

  (** A scan through variables that can all be empty, for no variable. *)
  Lemma scan_none (vs : list V) : forall (st : @fstate V T), NoDup vs ->
    (forall v, In v vs -> In v (f_visited st) /\ exists fv, mget v (f_first st) = Some fv /\ In Eps fv) ->
    exists st', first_scan p g None (map Var vs) st = Val st' /\ f_pending st' = f_pending st /\ f_first st' = f_first st /\
      f_visited st' = f_visited st /\ (forall v, ~ In v vs -> deps_of st' v = deps_of st v) /\
      forall v a b, vs = a ++ v :: b -> deps_of st' v = mupdate None [] (fun l => l ++ [map Var (v :: b)]) (deps_of st v).
  Proof.
    induction vs as [|x vs IH]; intros st Hn Hv.
    - exists st. repeat split; auto. intros v a b E. destruct a; discriminate.
    - inversion Hn as [|? ? Hx Hn']; subst. destruct (Hv x (or_introl eq_refl)) as (Hvis & fv & Ef & He).
      cbn [map first_scan]. cbn [f_visited f_first add_dependency]. rewrite (proj2 (memb_in _ _) Hvis), Ef, (proj2 (memb_in _ _) He).
      match goal with |- context [extend_for_variable p None ?y ?s] => set (st1 := extend_for_variable p None y s) end.
      destruct (IH st1 Hn') as (st' & E & H1 & H2 & H3 & H4 & H5).
      { intros v Hin. apply Hv. right. exact Hin. }
      assert (Hd : forall v, deps_of st1 v = if eqb v x then mupdate None [] (fun l => l ++ [map Var (x :: vs)]) (deps_of st x) else deps_of st v).
      { intros v. exact (deps_add x None (map Var (x :: vs)) st v). }
      exists st'. split; [exact E|]. split; [exact H1|]. split; [exact H2|]. split; [exact H3|]. split.
      + intros v Hnv. rewrite H4 by (intros Hin; apply Hnv; right; exact Hin). rewrite Hd.
        rewrite (proj2 (eqb_neq v x)); [reflexivity|]. intros ->. apply Hnv. left. reflexivity.
      + intros v [|a0 a] b E0.
        * cbn in E0. injection E0 as -> ->. rewrite H4 by exact Hx. rewrite Hd, eqb_refl. reflexivity.
        * cbn in E0. injection E0 as <- E0. rewrite (H5 v a b E0), Hd.
          rewrite (proj2 (eqb_neq v x)); [reflexivity|]. intros ->. apply Hx. rewrite E0. apply in_elt.
  Qed.

  Definition first_of (st : @fstate V T) (v : V) : list (symbol V T) :=
    match mget v (f_first st) with Some l => l | None => [] end.

  Lemma hash_none {A} q : hash_at q (@nil A) = [].
  Proof. apply Permutation_nil, Permutation_sym, hash_at_perm. Qed.

  Lemma extend_first v syms st w : mget w (f_first (extend_for_variable p (Some v) syms st)) =
    if eqb w v then Some (set_extend syms (first_of st v)) else mget w (f_first st).
  Proof.
    unfold extend_for_variable, first_of. destruct (Nat.eqb _ _); cbn [f_first]; apply mget_mupdate.
  Qed.

  Lemma extend_vis o syms (st : @fstate V T) : f_visited (extend_for_variable p o syms st) = f_visited st.
  Proof. unfold extend_for_variable. destruct o; [destruct (Nat.eqb _ _)|]; reflexivity. Qed.

  Lemma extend_grows v syms st : length (first_of st v) <> length (set_extend syms (first_of st v)) ->
    (exists q, f_pending (extend_for_variable p (Some v) syms st) = f_pending st ++ hash_at q (deps_of st v)) /\
    forall w, deps_of (extend_for_variable p (Some v) syms st) w = if eqb w v then [] else deps_of st w.
  Proof.
    intros H. unfold extend_for_variable. fold (first_of st v). rewrite (proj2 (Nat.eqb_neq _ _) H). cbn [f_pending]. split.
    - eexists. f_equal. unfold deps_of. destruct (mget v (f_deps st)); [reflexivity|]. symmetry. apply hash_none.
    - intros w. unfold deps_of. cbn [f_deps]. rewrite mget_mremove. destruct (eqb w v); reflexivity.
  Qed.

  Lemma extend_stays v syms st : (forall x, In x syms -> In x (first_of st v)) ->
    f_pending (extend_for_variable p (Some v) syms st) = f_pending st /\
    forall w, deps_of (extend_for_variable p (Some v) syms st) w = deps_of st w.
  Proof.
    intros H. unfold extend_for_variable. fold (first_of st v). rewrite (set_extend_closed syms (first_of st v) H), Nat.eqb_refl.
    split; reflexivity.
  Qed.
End Loop.

Section Echo.
  Context {ho : HashOrder}.
  Variables (n : nat) (g : grammar nat nat) (p : list nat).
  Hypothesis Hpos : 1 <= n.
  Hypothesis Hbuild : build (do_calls (echo_calls n)) = Val g.
  Notation N := (2 * n).

  Lemma echo_good : good g.
  Proof. apply built_good. exists (echo_calls n). exact Hbuild. Qed.

  Lemma echo_rule v bd : rule g v bd <->
    (v = 0 /\ bd = Var N :: Var N :: odds 0 n) \/ (v = 1 /\ (bd = [Eps] \/ bd = [Var N; Ter 0])) \/
    (exists k, 1 <= k < N /\ v = S k /\ bd = [Var k]).
  Proof.
    destruct (build_rules _ _ Hbuild) as [_ H]. rewrite H. unfold added, echo_calls. split.
    - intros (bd' & Hin & ->). apply in_app_iff in Hin. destruct Hin as [[E|[E|[E|[E|[]]]]]|Hin]; try discriminate.
      + injection E as <- <-. auto.
      + injection E as <- <-. auto.
      + injection E as <- <-. auto.
      + apply in_map_iff in Hin. destruct Hin as (k & E & Hk). injection E as <- <-. apply in_seq in Hk. right. right.
        exists (S k). repeat split; lia.
    - intros [[-> ->]|[[-> [->| ->]]|(k & Hk & -> & ->)]].
      + exists (Var N :: Var N :: odds 0 n). split; [right; left|]; reflexivity.
      + exists []. split; [right; right; left|]; reflexivity.
      + exists [Var N; Ter 0]. split; [right; right; right; left|]; reflexivity.
      + exists [Var k]. split; [|reflexivity]. apply in_app_iff. right. apply in_map_iff. exists (k - 1).
        split; [f_equal; [lia|do 2 f_equal; lia]|]. apply in_seq. lia.
  Qed.

  Lemma echo_bodies_chain k : 1 <= k < N -> get_rule_bodies g (S k) = Some [[Var k]].
  Proof.
    intros Hk. assert (Hr : rule g (S k) [Var k]) by (apply echo_rule; right; right; exists k; auto).
    apply (rule_get g _ _ echo_good) in Hr. destruct Hr as (bds & E & Hin). rewrite E. f_equal. apply in_repeat_fix.
    - destruct (good_ok _ echo_good) as [Hn Hb]. apply (Hb (S k)). apply mget_in. exact E.
    - intros y. split.
      + intros Hy. assert (Hr : rule g (S k) y) by (apply (rule_get g _ _ echo_good); eauto).
        apply echo_rule in Hr. destruct Hr as [[E0 _]|[[E0 _]|(k' & Hk' & E0 & ->)]]; [discriminate|lia|]. injection E0 as <-. reflexivity.
      + intros ->. exact Hin.
  Qed.

  Lemma echo_bodies_one : exists bds, get_rule_bodies g 1 = Some bds /\ Permutation bds [[Eps]; [Var N; Ter 0]].
  Proof.
    assert (Hr : rule g 1 [Eps]) by (apply echo_rule; auto).
    apply (rule_get g _ _ echo_good) in Hr. destruct Hr as (bds & E & _). exists bds. split; [exact E|].
    apply NoDup_Permutation.
    - destruct (good_ok _ echo_good) as [Hn Hb]. apply (Hb 1). apply mget_in. exact E.
    - repeat constructor; cbn; intuition discriminate.
    - intros y. split.
      + intros Hy. assert (Hr : rule g 1 y) by (apply (rule_get g _ _ echo_good); eauto).
        apply echo_rule in Hr. destruct Hr as [[E0 _]|[[E0 [->| ->]]|(k' & Hk' & E0 & ->)]]; [discriminate|cbn; auto|cbn; auto|lia].
      + intros Hy. assert (Hr : rule g 1 y) by (apply echo_rule; right; left; cbn in Hy; intuition).
        apply (rule_get g _ _ echo_good) in Hr. destruct Hr as (bds' & E' & Hr). congruence.
  Qed.

  (** What waits for [v]: the next variable of the chain, and [c] times the body. *)
  Definition suf (v : nat) : body nat nat := odds (v / 2) n.
  Definition dep (v c : nat) : list (option nat * list (body nat nat)) :=
    (Some (S v), [[Var v]]) :: match c with 0 => [] | S _ => [(None, repeat (suf v) c)] end.
  Definition whole : body nat nat := Var N :: odds 0 n.

  (** ** The first phase: variables are visited down the chain *)

  Record going_down (k : nat) (st : @fstate nat nat) : Prop := {
    gd_first : forall v, mget v (f_first st) = None;
    gd_vis : forall v, In v (f_visited st) <-> k <= v <= N;
    gd_top : deps_of st N = [(None, [whole])];
    gd_chain : forall v, k <= v < N -> deps_of st v = dep v 0;
    gd_none : forall v, v < k -> deps_of st v = []
  }.

  Lemma perm_one {A} (l : list A) x : Permutation l [x] -> l = [x].
  Proof. intros H. apply Permutation_sym, Permutation_length_1_inv in H. exact H. Qed.

  Lemma hash_one {A} q (x : A) : hash_at q [x] = [x].
  Proof. apply perm_one, hash_at_perm. Qed.

  Lemma perm_two {A} (l : list A) x y : Permutation l [x; y] -> l = [x; y] \/ l = [y; x].
  Proof. intros H. apply Permutation_sym, Permutation_length_2_inv in H. exact H. Qed.

  Lemma memb_not {A} `{DecEq A} (x : A) l : ~ In x l -> memb x l = false.
  Proof. intros H0. destruct (memb x l) eqn:E; [|reflexivity]. apply memb_in in E. contradiction. Qed.

  Lemma down_start st r c fuel : f_first st = [] -> f_visited st = [] -> f_deps st = [] -> f_pending st = [(None, [whole])] ->
    work_loop fuel p g st = Val (r, c) ->
    exists fuel' st' c', work_loop fuel' p g st' = Val (r, c') /\ w_bodies c = S (w_bodies c') /\
      f_pending st' = [(Some N, [[Var (N - 1)]])] /\ going_down N st'.
  Proof.
    intros H1 H2 H3 H4 H. destruct (work_step p g _ _ _ _ _ _ _ H H4) as (fuel' & st' & c' & E & H' & Hc).
    exists fuel', st', c'. split; [exact H'|]. split; [exact Hc|]. clear H H' Hc.
    cbn [first_entry] in E. apply bind_val in E. destruct E as (st1 & E & E1). injection E1 as <-.
    unfold whole in E. cbn [first_scan] in E.
    rewrite memb_not in E by (cbn [add_dependency f_visited popped]; rewrite H2; intros []).
    destruct N as [|m] eqn:EN; [lia|]. rewrite <- EN in *.
    replace (get_rule_bodies g N) with (Some [[@Var nat nat m]]) in E by (symmetry; rewrite EN; apply echo_bodies_chain; lia).
    cbn [of_option bind] in E. injection E as <-. cbn [f_pending add_dependency popped]. rewrite hash_one.
    split; [replace (N - 1) with m by lia; reflexivity|]. constructor; cbn [f_first f_visited add_dependency popped].
    - intros v. rewrite H1. reflexivity.
    - intros v. rewrite H2. cbn. split; [intros [<-|[]]; lia|]. intros Hv. left. lia.
    - unfold deps_of. cbn [f_deps add_dependency popped]. rewrite H3. cbn [mupdate mget]. rewrite eqb_refl. reflexivity.
    - intros v Hv. lia.
    - intros v Hv. unfold deps_of. cbn [f_deps add_dependency popped]. rewrite H3. cbn [mupdate mget].
      rewrite (proj2 (eqb_neq v N)) by lia. reflexivity.
  Qed.

  Lemma down_step k st r c fuel bds : 1 <= k < N -> going_down (S k) st -> f_pending st = [(Some (S k), [[Var k]])] ->
    get_rule_bodies g k = Some bds ->
    work_loop fuel p g st = Val (r, c) ->
    exists fuel' st' c', work_loop fuel' p g st' = Val (r, c') /\ w_bodies c' <= w_bodies c /\
      (exists q, f_pending st' = [(Some k, hash_at q bds)]) /\ going_down k st'.
  Proof.
    intros Hk Hd Hp Hb H. destruct (work_step p g _ _ _ _ _ _ _ H Hp) as (fuel' & st' & c' & E & H' & Hc).
    exists fuel', st', c'. split; [exact H'|]. split; [rewrite Hc; lia|]. clear H H' Hc.
    cbn [first_entry] in E. apply bind_val in E. destruct E as (st1 & E & E1). injection E1 as <-.
    cbn [first_scan] in E.
    rewrite memb_not in E by (cbn [add_dependency f_visited popped]; rewrite (gd_vis _ _ Hd); lia).
    rewrite Hb in E. cbn [of_option bind] in E. injection E as <-. split; [eexists; reflexivity|].
    assert (Hdep : forall v, deps_of {| f_result := f_result st; f_first := f_first st; f_pending := [];
      f_deps := f_deps (add_dependency k (Some (S k)) [Var k] (popped st []));
      f_visited := f_visited st ++ [k] |} v = if eqb v k then mupdate (Some (S k)) [] (fun l => l ++ [[Var k]]) (deps_of st k) else deps_of st v).
    { intros v. exact (deps_add k (Some (S k)) [Var k] (popped st []) v). }
    constructor; cbn [f_first f_visited add_dependency popped].
    - intros v. apply (gd_first _ _ Hd).
    - intros v. rewrite in_app_iff, (gd_vis _ _ Hd). cbn. lia.
    - etransitivity; [apply (Hdep N)|]. rewrite (proj2 (eqb_neq N k)) by lia. apply (gd_top _ _ Hd).
    - intros v Hv. etransitivity; [apply (Hdep v)|]. destruct (eqb_spec v k) as [->|Hne].
      + rewrite (gd_none _ _ Hd) by lia. reflexivity.
      + apply (gd_chain _ _ Hd). lia.
    - intros v Hv. etransitivity; [apply (Hdep v)|]. rewrite (proj2 (eqb_neq v k)) by lia. apply (gd_none _ _ Hd). lia.
  Qed.

  Lemma down_all bds : get_rule_bodies g 1 = Some bds -> forall k st r c fuel, 2 <= k <= N -> going_down k st -> f_pending st = [(Some k, [[Var (k - 1)]])] ->
    work_loop fuel p g st = Val (r, c) ->
    exists fuel' st' c', work_loop fuel' p g st' = Val (r, c') /\ w_bodies c' <= w_bodies c /\
      (exists q, f_pending st' = [(Some 1, hash_at q bds)]) /\ going_down 1 st'.
  Proof.
    intros Hb. induction k as [|k IH]; intros st r c fuel Hk Hd Hp H; [lia|].
    replace (S k - 1) with k in Hp by lia. destruct (Nat.eq_dec k 1) as [->|Hne].
    - exact (down_step 1 st r c fuel bds ltac:(lia) Hd Hp Hb H).
    - destruct (down_step k st r c fuel [[Var (k - 1)]] ltac:(lia) Hd Hp) as (f1 & s1 & c1 & H1 & Hc1 & (q & Hq) & Hd1); auto.
      { replace k with (S (k - 1)) at 1 by lia. apply echo_bodies_chain. lia. }
      rewrite hash_one in Hq. destruct (IH s1 r c1 f1 ltac:(lia) Hd1 Hq H1) as (f2 & s2 & c2 & H2 & Hc2 & Hr). exists f2, s2, c2.
      split; [exact H2|]. split; [lia|exact Hr].
  Qed.

  (** ** The second phase: all variables become empty up the chain *)

  Record going_up (k : nat) (st : @fstate nat nat) : Prop := {
    gu_low : forall v, 1 <= v < k -> mget v (f_first st) = Some [Eps];
    gu_high : forall v, k <= v -> mget v (f_first st) = None;
    gu_vis : forall v, In v (f_visited st) <-> 1 <= v <= N;
    gu_top : deps_of st N = [(None, [whole]); (Some 1, [[Var N; Ter 0]])];
    gu_chain : forall v, 1 <= v < N -> S v <> k -> deps_of st v = dep v 0;
    gu_gap : forall v, S v = k -> deps_of st v = []
  }.

  Lemma extend_eps k st : mget k (f_first st) = None ->
    length (first_of st k) <> length (set_extend [@Eps nat nat] (first_of st k)) /\ set_extend [Eps] (first_of st k) = [Eps].
  Proof. intros H. unfold first_of. rewrite H. cbn. split; [discriminate|reflexivity]. Qed.

  Lemma up_start st r c fuel q bds : going_down 1 st -> Permutation bds [[Eps]; [Var N; Ter 0]] ->
    f_pending st = [(Some 1, hash_at q bds)] -> work_loop fuel p g st = Val (r, c) ->
    exists fuel' st' c', work_loop fuel' p g st' = Val (r, c') /\ w_bodies c' <= w_bodies c /\
      f_pending st' = [(Some 2, [[Var 1]])] /\ going_up 2 st'.
  Proof.
    intros Hd Hb Hp H. destruct (work_step p g _ _ _ _ _ _ _ H Hp) as (fuel' & st' & c' & E & H' & Hc).
    exists fuel', st', c'. split; [exact H'|]. split; [rewrite Hc; lia|]. clear H H' Hc.
    assert (Hb' : Permutation (hash_at q bds) [[Eps]; [Var N; Ter 0]]) by (etransitivity; [apply hash_at_perm|exact Hb]).
    apply perm_two in Hb'. match type of E with first_entry _ _ _ _ ?x = _ => set (s0 := x) in * end.
    assert (Hf0 : forall v, mget v (f_first s0) = None) by apply (gd_first _ _ Hd).
    assert (Hd0 : forall v, deps_of s0 v = deps_of st v) by reflexivity.
    assert (Hv0 : f_visited s0 = f_visited st) by reflexivity. assert (Hp0 : f_pending s0 = []) by reflexivity. clearbody s0.
    destruct Hb' as [Eb|Eb]; rewrite Eb in E; cbn [first_entry] in E.
    - cbn [first_scan bind] in E. set (s1 := extend_for_variable p (Some 1) [Eps] s0) in *.
      destruct (extend_eps 1 s0 (Hf0 1)) as [Hgr Hse]. destruct (extend_grows p 1 [Eps] s0 Hgr) as [(q1 & Hp1) Hd1]. fold s1 in Hp1, Hd1.
      assert (Hf1 : forall v, mget v (f_first s1) = if eqb v 1 then Some [Eps] else None).
      { intros v. unfold s1. rewrite extend_first, Hse. destruct (eqb v 1); auto. }
      assert (Hv1 : f_visited s1 = f_visited st) by (rewrite <- Hv0; exact (extend_vis p (Some 1) [Eps] s0)).
      clearbody s1.
      cbn [f_visited f_first add_dependency] in E. rewrite (proj2 (memb_in _ _)) in E by (rewrite Hv1; apply (gd_vis _ _ Hd); lia).
      rewrite Hf1, (proj2 (eqb_neq N 1)) in E by lia. cbn [bind] in E. apply val_inj in E; subst st'.
      assert (Hdd : forall v, deps_of (add_dependency N (Some 1) [Var N; Ter 0] s1) v =
        if eqb v N then mupdate (Some 1) [] (fun l => l ++ [[Var N; Ter 0]]) (deps_of s1 N) else deps_of s1 v) by (intros v; apply deps_add).
      split.
      + cbn [f_pending add_dependency]. rewrite Hp1, Hp0, (Hd0 1), (gd_chain _ _ Hd) by lia. apply hash_one.
      + constructor; cbn [f_first f_visited add_dependency].
        * intros v Hv. rewrite Hf1, (proj2 (eqb_eq v 1)) by lia. reflexivity.
        * intros v Hv. rewrite Hf1, (proj2 (eqb_neq v 1)) by lia. reflexivity.
        * intros v. rewrite Hv1. apply (gd_vis _ _ Hd).
        * rewrite Hdd, eqb_refl, Hd1, (proj2 (eqb_neq N 1)) by lia. rewrite Hd0, (gd_top _ _ Hd). reflexivity.
        * intros v Hv Hne. rewrite Hdd, (proj2 (eqb_neq v N)), Hd1, (proj2 (eqb_neq v 1)), Hd0 by lia. apply (gd_chain _ _ Hd). lia.
        * intros v Hv. rewrite Hdd, (proj2 (eqb_neq v N)), Hd1, (proj2 (eqb_eq v 1)) by lia. reflexivity.
    - cbn [first_scan bind] in E. cbn [f_visited f_first add_dependency] in E.
      rewrite (proj2 (memb_in _ _)) in E by (rewrite Hv0; apply (gd_vis _ _ Hd); lia). rewrite Hf0 in E. cbn [bind] in E.
      apply val_inj in E; subst st'. match goal with |- context [extend_for_variable _ _ _ ?x] => set (s1 := x) in * end.
      assert (Hdd : forall v, deps_of s1 v =
        if eqb v N then mupdate (Some 1) [] (fun l => l ++ [[Var N; Ter 0]]) (deps_of s0 N) else deps_of s0 v) by (intros v; apply deps_add).
      assert (Hf1 : forall v, mget v (f_first s1) = None) by exact Hf0.
      assert (Hv1 : f_visited s1 = f_visited st) by exact Hv0. assert (Hp2 : f_pending s1 = []) by exact Hp0. clearbody s1.
      destruct (extend_eps 1 s1 (Hf1 1)) as [Hgr Hse]. destruct (extend_grows p 1 [Eps] s1 Hgr) as [(q1 & Hp1) Hd1].
      split.
      + rewrite Hp1, Hp2, Hdd, (proj2 (eqb_neq 1 N)), Hd0, (gd_chain _ _ Hd) by lia. apply hash_one.
      + constructor; try rewrite extend_vis.
        * intros v Hv. rewrite extend_first, (proj2 (eqb_eq v 1)), Hse by lia. reflexivity.
        * intros v Hv. rewrite extend_first, (proj2 (eqb_neq v 1)) by lia. apply Hf1.
        * intros v. rewrite Hv1. apply (gd_vis _ _ Hd).
        * rewrite Hd1, (proj2 (eqb_neq N 1)), Hdd, eqb_refl by lia. rewrite Hd0, (gd_top _ _ Hd). reflexivity.
        * intros v Hv Hne. rewrite Hd1, (proj2 (eqb_neq v 1)), Hdd, (proj2 (eqb_neq v N)), Hd0 by lia. apply (gd_chain _ _ Hd). lia.
        * intros v Hv. rewrite Hd1, (proj2 (eqb_eq v 1)) by lia. reflexivity.
  Qed.

  (** One step up: the state after it, without what is pending. *)
  Lemma up_turn k st r c fuel : 2 <= k <= N -> going_up k st -> f_pending st = [(Some k, [[Var (k - 1)]])] ->
    work_loop fuel p g st = Val (r, c) ->
    exists fuel' st' c' q, work_loop fuel' p g st' = Val (r, c') /\ w_bodies c' <= w_bodies c /\
      f_pending st' = hash_at q (deps_of st k) /\
      (forall v, mget v (f_first st') = if eqb v k then Some [Eps] else mget v (f_first st)) /\ f_visited st' = f_visited st /\
      forall v, deps_of st' v = if eqb v k then [] else if eqb v (k - 1) then dep (k - 1) 0 else deps_of st v.
  Proof.
    intros Hk Hu Hp H. destruct (work_step p g _ _ _ _ _ _ _ H Hp) as (fuel' & st' & c' & E & H' & Hc).
    exists fuel', st', c'. clear H. cbn [first_entry] in E. apply bind_val in E. destruct E as (s2 & E & E1). apply val_inj in E1; subst s2.
    cbn [first_scan] in E. cbn [f_visited f_first add_dependency popped] in E.
    rewrite (proj2 (memb_in _ _)) in E by (apply (gu_vis _ _ Hu); lia). rewrite (gu_low _ _ Hu) in E by lia.
    cbn [filter is_eps negb orb memb existsb] in E. change (memb Eps [@Eps nat nat]) with true in E. cbn [first_scan] in E. apply val_inj in E; subst st'.
    match goal with |- context [extend_for_variable _ _ _ ?x] => set (s1 := x) in * end.
    assert (Hdd : forall v, deps_of s1 v =
      if eqb v (k - 1) then mupdate (Some k) [] (fun l => l ++ [[Var (k - 1)]]) (deps_of st (k - 1)) else deps_of st v)
      by (intros v; apply (deps_add (k - 1) (Some k) [Var (k - 1)] (popped st []))).
    assert (Hf1 : forall v, mget v (f_first s1) = mget v (f_first st)) by reflexivity.
    assert (Hk1 : mget k (f_first s1) = None) by (rewrite Hf1; apply (gu_high _ _ Hu); lia).
    destruct (extend_eps k s1 Hk1) as [Hgr Hse]. destruct (extend_grows p k [Eps] s1 Hgr) as [(q1 & Hp1) Hd1].
    exists q1. split; [exact H'|]. split; [rewrite Hc; lia|]. split; [|split; [|split]].
    - rewrite Hp1, Hdd, (proj2 (eqb_neq k (k - 1))) by lia. reflexivity.
    - intros v. rewrite extend_first, Hse. reflexivity.
    - exact (extend_vis p (Some k) [Eps] s1).
    - intros v. rewrite Hd1. destruct (eqb v k); [reflexivity|]. rewrite Hdd. destruct (eqb v (k - 1)) eqn:Ek; [|reflexivity].
      rewrite (gu_gap _ _ Hu) by lia. cbn [mupdate]. unfold dep. replace (S (k - 1)) with k by lia. reflexivity.
  Qed.

  Lemma up_all : forall d k st r c fuel, N - k = d -> 2 <= k <= N -> going_up k st -> f_pending st = [(Some k, [[Var (k - 1)]])] ->
    work_loop fuel p g st = Val (r, c) ->
    exists fuel' st' c', work_loop fuel' p g st' = Val (r, c') /\ w_bodies c' <= w_bodies c /\
      (f_pending st' = [(None, [whole]); (Some 1, [[Var N; Ter 0]])] \/ f_pending st' = [(Some 1, [[Var N; Ter 0]]); (None, [whole])]) /\
      (forall v, 1 <= v <= N -> mget v (f_first st') = Some [Eps]) /\ (forall v, In v (f_visited st') <-> 1 <= v <= N) /\
      (forall v, 1 <= v < N -> deps_of st' v = dep v 0).
  Proof.
    induction d as [|d IH]; intros k st r c fuel Hd Hk Hu Hp H;
      destruct (up_turn k st r c fuel Hk Hu Hp H) as (f1 & s1 & c1 & q & H1 & Hc1 & Hp1 & Hf1 & Hv1 & Hd1).
    - assert (k = N) as -> by lia. exists f1, s1, c1. split; [exact H1|]. split; [exact Hc1|]. split; [|split; [|split]].
      + rewrite Hp1, (gu_top _ _ Hu). apply perm_two, hash_at_perm.
      + intros v Hv. rewrite Hf1. destruct (eqb v N) eqn:E; [reflexivity|]. apply eqb_neq in E. apply (gu_low _ _ Hu). lia.
      + intros v. rewrite Hv1. apply (gu_vis _ _ Hu).
      + intros v Hv. rewrite Hd1, (proj2 (eqb_neq v N)) by lia. destruct (eqb v (N - 1)) eqn:E.
        * apply eqb_eq in E. rewrite E. reflexivity.
        * apply eqb_neq in E. apply (gu_chain _ _ Hu); lia.
    - destruct (IH (S k) s1 r c1 f1) as (f2 & s2 & c2 & H2 & Hc2 & Hr); auto; try lia.
      + constructor.
        * intros v Hv. rewrite Hf1. destruct (eqb v k) eqn:E; [reflexivity|]. apply eqb_neq in E. apply (gu_low _ _ Hu). lia.
        * intros v Hv. rewrite Hf1, (proj2 (eqb_neq v k)) by lia. apply (gu_high _ _ Hu). lia.
        * intros v. rewrite Hv1. apply (gu_vis _ _ Hu).
        * rewrite Hd1, (proj2 (eqb_neq N k)), (proj2 (eqb_neq N (k - 1))) by lia. apply (gu_top _ _ Hu).
        * intros v Hv Hne. rewrite Hd1, (proj2 (eqb_neq v k)) by lia. destruct (eqb v (k - 1)) eqn:E.
          -- apply eqb_eq in E. rewrite E. reflexivity.
          -- apply eqb_neq in E. apply (gu_chain _ _ Hu); lia.
        * intros v Hv. rewrite Hd1, (proj2 (eqb_eq v k)) by lia. reflexivity.
      + rewrite Hp1, (gu_chain _ _ Hu) by lia. unfold dep. rewrite hash_one. replace (S k - 1) with k by lia. reflexivity.
      + exists f2, s2, c2. split; [exact H2|]. split; [lia|exact Hr].
  Qed.

  (** ** The third phase: the terminal climbs the chain, and at every odd
      variable doubles what is pending for no variable *)

  Record echoing (k M : nat) (st : @fstate nat nat) : Prop := {
    ec_vis : forall v, In v (f_visited st) <-> 1 <= v <= N;
    ec_low : forall v, 1 <= v < k -> exists l, mget v (f_first st) = Some l /\ In Eps l /\ In (Ter 0) l;
    ec_high : forall v, k <= v <= N -> mget v (f_first st) = Some [Eps];
    ec_deps : forall v, k <= v < N -> deps_of st v = dep v (if Nat.odd v then M else 0)
  }.

  Definition link (k : nat) : option nat * list (body nat nat) :=
    (Some k, [if Nat.eqb k 1 then [Var N; Ter 0] else [Var (k - 1)]]).

  Lemma dep_link v c : 1 <= v -> dep v c = link (S v) :: match c with 0 => [] | S _ => [(None, repeat (suf v) c)] end.
  Proof.
    intros Hv. unfold dep, link. rewrite (proj2 (Nat.eqb_neq (S v) 1)) by lia. replace (S v - 1) with v by lia. reflexivity.
  Qed.

  Lemma repeat_snoc {A} (x : A) c : repeat x c ++ [x] = repeat x (S c).
  Proof. induction c as [|c IH]; cbn; [reflexivity|]. f_equal. exact IH. Qed.

  Lemma dep_more v c : mupdate None [] (fun l => l ++ [suf v]) (dep v c) = dep v (S c).
  Proof. destruct c as [|c]; [reflexivity|]. unfold dep. cbn -[repeat]. rewrite repeat_snoc. reflexivity. Qed.

  Lemma odd_half v : Nat.odd v = true -> v = 2 * (v / 2) + 1.
  Proof.
    intros H. rewrite <- Nat.div2_div. rewrite (Nat.div2_odd v) at 1. rewrite H. cbn [Nat.b2n]. reflexivity.
  Qed.
  Lemma even_half v : Nat.odd v = false -> v = 2 * (v / 2).
  Proof.
    intros H. rewrite <- Nat.div2_div. rewrite (Nat.div2_odd v) at 1. rewrite H. cbn [Nat.b2n]. lia.
  Qed.
  Lemma not_odd j : Nat.odd (2 * j) = false.
  Proof. rewrite Nat.odd_mul. reflexivity. Qed.

  Definition odd_from (i : nat) : list nat := map (fun j => 2 * j + 1) (seq i (n - i)).
  Lemma odds_from i : odds i n = map Var (odd_from i).
  Proof. unfold odds, odd_from. rewrite map_map. reflexivity. Qed.

  Lemma in_odd_from i v : In v (odd_from i) <-> exists j, v = 2 * j + 1 /\ i <= j < n.
  Proof.
    unfold odd_from. rewrite in_map_iff. split.
    - intros (j & <- & Hj). apply in_seq in Hj. exists j. lia.
    - intros (j & -> & Hj). exists j. split; [reflexivity|]. apply in_seq. lia.
  Qed.

  Lemma nodup_odd_from i : NoDup (odd_from i).
  Proof. unfold odd_from. apply FinFun.Injective_map_NoDup; [intros a b; lia|apply seq_NoDup]. Qed.

  Lemma odd_from_split i j : i <= j -> j < n -> exists a, odd_from i = a ++ (2 * j + 1) :: odd_from (S j).
  Proof.
    intros Hi Hj. exists (map (fun j => 2 * j + 1) (seq i (j - i))). unfold odd_from.
    replace (n - i) with ((j - i) + S (n - S j)) by lia. rewrite seq_app, map_app. f_equal.
    replace (i + (j - i)) with j by lia. reflexivity.
  Qed.

  Lemma odd_from_cons j : j < n -> odd_from j = (2 * j + 1) :: odd_from (S j).
  Proof. intros Hj. unfold odd_from. replace (n - j) with (S (n - S j)) by lia. reflexivity. Qed.

  Lemma none_scan k M st i pre : echoing k M st -> 1 <= k -> 2 * i + 1 <= k -> pre = [] \/ pre = [N] ->
    exists st', first_scan p g None (map Var (pre ++ odd_from i)) st = Val st' /\ f_pending st' = f_pending st /\ echoing k (S M) st'.
  Proof.
    intros He Hk1 Hi Hpre.
    destruct (scan_none p g (pre ++ odd_from i) st) as (st' & E & H1 & H2 & H3 & H4 & H5).
    - destruct Hpre as [->| ->]; [apply nodup_odd_from|]. constructor; [|apply nodup_odd_from].
      intros Hin. apply in_odd_from in Hin. destruct Hin as (j & Ej & _). lia.
    - intros v Hv.
      assert (Hr : 1 <= v <= N).
      { apply in_app_or in Hv. destruct Hv as [Hv|Hv].
        - destruct Hpre as [->| ->]; [destruct Hv|]. destruct Hv as [<-|[]]. lia.
        - apply in_odd_from in Hv. destruct Hv as (j & -> & Hj). lia. }
      split; [apply (ec_vis _ _ _ He); exact Hr|]. destruct (le_lt_dec k v) as [Hle|Hlt].
      + exists [Eps]. split; [apply (ec_high _ _ _ He); lia|left; reflexivity].
      + destruct (ec_low _ _ _ He v) as (l & El & Hl & _); [lia|]. exists l. auto.
    - exists st'. split; [exact E|]. split; [exact H1|]. constructor.
      + intros v. rewrite H3. apply (ec_vis _ _ _ He).
      + intros v Hv. rewrite H2. apply (ec_low _ _ _ He). exact Hv.
      + intros v Hv. rewrite H2. apply (ec_high _ _ _ He). exact Hv.
      + intros v Hv. destruct (Nat.odd v) eqn:Eo.
        * pose proof (odd_half v Eo) as Ev. destruct (odd_from_split i (v / 2)) as (a & Ea); [lia|lia|].
          rewrite (H5 v (pre ++ a) (odd_from (S (v / 2)))).
          -- rewrite (ec_deps _ _ _ He) by exact Hv. rewrite Eo.
             assert (Es : map Var (v :: odd_from (S (v / 2))) = suf v).
             { unfold suf. rewrite odds_from, (odd_from_cons (v / 2)) by lia. rewrite <- Ev. reflexivity. }
             rewrite Es. apply dep_more.
          -- rewrite Ea, <- Ev, app_assoc. reflexivity.
        * rewrite H4; [rewrite (ec_deps _ _ _ He) by exact Hv; rewrite Eo; reflexivity|].
          intros Hin. apply in_app_or in Hin. destruct Hin as [Hin|Hin].
          -- destruct Hpre as [->| ->]; [destruct Hin|]. destruct Hin as [<-|[]]. lia.
          -- apply in_odd_from in Hin. destruct Hin as (j & -> & _). rewrite Nat.odd_add, not_odd in Eo. discriminate.
  Qed.

  Lemma none_entry k i pre m : forall M st, echoing k M st -> 1 <= k -> 2 * i + 1 <= k -> pre = [] \/ pre = [N] ->
    exists st', first_entry p g None (repeat (map Var (pre ++ odd_from i)) m) st = Val st' /\ f_pending st' = f_pending st /\ echoing k (M + m) st'.
  Proof.
    induction m as [|m IH]; intros M st He Hk Hi Hpre; cbn [repeat first_entry].
    - exists st. rewrite Nat.add_0_r. auto.
    - destruct (none_scan k M st i pre He Hk Hi Hpre) as (s1 & E1 & Hp1 & He1). rewrite E1. cbn [bind].
      destruct (IH (S M) s1 He1 Hk Hi Hpre) as (s2 & E2 & Hp2 & He2). exists s2. split; [exact E2|].
      split; [congruence|]. replace (M + S m) with (S M + m) by lia. exact He2.
  Qed.

  Lemma none_turn k M st i pre m rest r c fuel : echoing k M st -> 1 <= k -> 2 * i + 1 <= k -> pre = [] \/ pre = [N] ->
    f_pending st = (None, repeat (map Var (pre ++ odd_from i)) m) :: rest -> work_loop fuel p g st = Val (r, c) ->
    exists fuel' st' c', work_loop fuel' p g st' = Val (r, c') /\ w_bodies c = m + w_bodies c' /\ f_pending st' = rest /\ echoing k (M + m) st'.
  Proof.
    intros He Hk Hi Hpre Hp H. destruct (work_step p g _ _ _ _ _ _ _ H Hp) as (fuel' & s1 & c1 & E & H1 & Hc).
    destruct (none_entry k i pre m M (popped st rest)) as (s2 & E2 & Hp2 & He2); auto.
    { destruct He as [a b d e]. constructor; assumption. }
    rewrite E2 in E. apply val_inj in E. subst s1. exists fuel', s2, c1. rewrite repeat_length in Hc. auto.
  Qed.

  Lemma grows_by (x : symbol nat nat) syms l : In x syms -> ~ In x l -> length l <> length (set_extend syms l).
  Proof. intros Hx Hl E. apply set_extend_same in E. apply Hl. rewrite <- E. apply in_set_extend. left. exact Hx. Qed.

  Lemma link_turn k M st rest r c fuel : echoing k M st -> 1 <= k < N -> f_pending st = link k :: rest -> work_loop fuel p g st = Val (r, c) ->
    exists fuel' st' c' q, work_loop fuel' p g st' = Val (r, c') /\ w_bodies c' <= w_bodies c /\
      f_pending st' = rest ++ hash_at q (dep k (if Nat.odd k then M else 0)) /\ echoing (S k) M st'.
  Proof.
    intros He Hk Hp H. destruct (work_step p g _ _ _ _ _ _ _ H Hp) as (fuel' & st' & c' & E & H' & Hc).
    exists fuel', st', c'. clear H. cbn [first_entry] in E. apply bind_val in E. destruct E as (s2 & E & E1). apply val_inj in E1. subst s2.
    assert (Hgen : exists s1 syms, st' = extend_for_variable p (Some k) syms s1 /\ In (Ter 0) syms /\
      f_pending s1 = rest /\ f_visited s1 = f_visited st /\ (forall v, mget v (f_first s1) = mget v (f_first st)) /\
      forall v, k <= v < N -> deps_of s1 v = deps_of st v).
    { destruct (Nat.eqb k 1) eqn:Ek.
      - apply Nat.eqb_eq in Ek. subst k. cbn [first_scan] in E. cbn [f_visited f_first add_dependency popped] in E.
        rewrite (proj2 (memb_in _ _)) in E by (apply (ec_vis _ _ _ He); lia). rewrite (ec_high _ _ _ He) in E by lia.
        cbn [filter is_eps negb orb] in E. change (memb Eps [@Eps nat nat]) with true in E. cbn iota in E. apply val_inj in E.
        match type of E with extend_for_variable _ _ _ (extend_for_variable _ _ ?y ?x) = _ => set (s0 := x) in *; change y with (@nil (symbol nat nat)) in E end.
        exists (extend_for_variable p (Some 1) [] s0), [Ter 0]. split; [symmetry; exact E|]. split; [left; reflexivity|].
        destruct (extend_stays p 1 [] s0) as [Hp0 Hd0]; [intros x []|].
        split; [rewrite Hp0; reflexivity|]. split; [rewrite extend_vis; reflexivity|]. split.
        + intros v. rewrite extend_first. cbn [set_extend fold_left]. destruct (eqb v 1) eqn:Ev; [|reflexivity].
          apply eqb_eq in Ev. subst v. unfold first_of. change (f_first s0) with (f_first st). rewrite (ec_high _ _ _ He) by lia. reflexivity.
        + intros v Hv. rewrite Hd0. unfold s0. etransitivity; [apply (deps_add N (Some 1) [Var N; Ter 0] (popped st rest))|].
          rewrite (proj2 (eqb_neq v N)) by lia. reflexivity.
      - apply Nat.eqb_neq in Ek. cbn [first_scan] in E. cbn [f_visited f_first add_dependency popped] in E.
        rewrite (proj2 (memb_in _ _)) in E by (apply (ec_vis _ _ _ He); lia).
        destruct (ec_low _ _ _ He (k - 1)) as (l & El & Hl & Ht); [lia|]. rewrite El, (proj2 (memb_in _ _) Hl) in E. apply val_inj in E.
        match type of E with extend_for_variable _ _ ?y ?x = _ => exists x, y end. split; [symmetry; exact E|].
        split; [apply filter_In; split; [exact Ht|reflexivity]|]. split; [reflexivity|]. split; [reflexivity|]. split; [reflexivity|].
        intros v Hv. etransitivity; [apply (deps_add (k - 1) (Some k) [Var (k - 1)] (popped st rest))|].
        rewrite (proj2 (eqb_neq v (k - 1))) by lia. reflexivity. }
    destruct Hgen as (s1 & syms & -> & Ht & Hp1 & Hv1 & Hf1 & Hd1).
    assert (Hfo : first_of s1 k = [Eps]) by (unfold first_of; rewrite Hf1, (ec_high _ _ _ He) by lia; reflexivity).
    assert (Hgr : length (first_of s1 k) <> length (set_extend syms (first_of s1 k))).
    { rewrite Hfo. apply (grows_by (Ter 0)); [exact Ht|]. intros [Hx|[]]. discriminate. }
    destruct (extend_grows p k syms s1 Hgr) as [(q & Hp2) Hd2]. exists q. split; [exact H'|]. split; [rewrite Hc; lia|].
    split; [rewrite Hp2, Hp1, Hd1, (ec_deps _ _ _ He) by lia; reflexivity|]. constructor.
    - intros v. rewrite extend_vis, Hv1. apply (ec_vis _ _ _ He).
    - intros v Hv. rewrite extend_first. destruct (eqb v k) eqn:Ev.
      + eexists. split; [reflexivity|]. rewrite Hfo. split; apply in_set_extend; [right; left; reflexivity|left; exact Ht].
      + apply eqb_neq in Ev. rewrite Hf1. apply (ec_low _ _ _ He). lia.
    - intros v Hv. rewrite extend_first, (proj2 (eqb_neq v k)), Hf1 by lia. apply (ec_high _ _ _ He). lia.
    - intros v Hv. rewrite Hd2, (proj2 (eqb_neq v k)), Hd1 by lia. apply (ec_deps _ _ _ He). lia.
  Qed.

  Lemma suf_map v : suf v = map Var ([] ++ odd_from (v / 2)).
  Proof. apply odds_from. Qed.

  Lemma doubling : forall d k M st r c fuel, N - k <= d -> 1 <= k <= N -> 1 <= M -> echoing k M st -> f_pending st = [link k] ->
    work_loop fuel p g st = Val (r, c) -> M * (2 ^ (n - k / 2) - 1) <= w_bodies c.
  Proof.
    induction d as [|d IH]; intros k M st r c fuel Hd Hk HM He Hp H.
    { assert (k = N) as -> by lia. replace (N / 2) with n by (rewrite Nat.mul_comm, Nat.div_mul; lia).
      rewrite Nat.sub_diag. cbn [Nat.pow]. lia. }
    destruct (Nat.eq_dec k N) as [->|Hne].
    { replace (N / 2) with n by (rewrite Nat.mul_comm, Nat.div_mul; lia). rewrite Nat.sub_diag. cbn [Nat.pow]. lia. }
    destruct (link_turn k M st [] r c fuel He ltac:(lia) Hp H) as (f1 & s1 & c1 & q & H1 & Hc1 & Hp1 & He1). cbn [app] in Hp1.
    rewrite dep_link in Hp1 by lia. destruct (Nat.odd k) eqn:Eo.
    - pose proof (odd_half k Eo) as Ek. set (h := k / 2) in *. assert (Hh : h < n) by lia.
      assert (Eh : S k / 2 = S h) by (rewrite Ek; replace (S (2 * h + 1)) with (S h * 2) by lia; apply Nat.div_mul; lia).
      assert (Epow : 2 ^ (n - h) = 2 * 2 ^ (n - S h)) by (replace (n - h) with (S (n - S h)) by lia; reflexivity).
      assert (H2pos : 1 <= 2 ^ (n - S h)) by (apply Nat.neq_0_lt_0, Nat.pow_nonzero; lia).
      destruct M as [|M']; [lia|]. set (M := S M') in *.
      assert (Hp2 : Permutation (f_pending s1) [link (S k); (None, repeat (suf k) M)]) by (rewrite Hp1; apply hash_at_perm).
      apply perm_two in Hp2. rewrite suf_map in Hp2. fold h in Hp2. destruct Hp2 as [Hp2|Hp2].
      + destruct (Nat.eq_dec (S k) N) as [El|Hl].
        * pose proof (work_pending p g f1 s1 r c1 H1) as Hw. rewrite Hp2 in Hw.
          cbn [map snd link length] in Hw. rewrite repeat_length in Hw. unfold list_sum in Hw. cbn [fold_right] in Hw.
          assert (n - S h = 0) as E0 by lia. rewrite Epow, E0. cbn [Nat.pow]. nia.
        * destruct (link_turn (S k) M s1 [(None, repeat (map Var ([] ++ odd_from h)) M)] r c1 f1 He1 ltac:(lia) Hp2 H1) as (f2 & s2 & c2 & q2 & H2 & Hc2 & Hp3 & He2).
          rewrite dep_link in Hp3 by lia.
          assert (Eo2 : Nat.odd (S k) = false) by (rewrite Nat.odd_succ, <- Nat.negb_odd, Eo; reflexivity).
          rewrite Eo2, hash_one in Hp3. cbn [app] in Hp3.
          destruct (none_turn (S (S k)) M s2 h [] M [link (S (S k))] r c2 f2 He2 ltac:(lia) ltac:(lia) (or_introl eq_refl) Hp3 H2) as (f3 & s3 & c3 & H3 & Hc3 & Hp4 & He3).
          pose proof (IH (S (S k)) (M + M) s3 r c3 f3 ltac:(lia) ltac:(lia) ltac:(lia) He3 Hp4 H3) as Hb.
          assert (Eh2 : S (S k) / 2 = S h) by (rewrite Ek; replace (S (S (2 * h + 1))) with (1 + S h * 2) by lia; rewrite Nat.div_add by lia; reflexivity).
          rewrite Eh2 in Hb. rewrite Epow. nia.
      + destruct (none_turn (S k) M s1 h [] M [link (S k)] r c1 f1 He1 ltac:(lia) ltac:(lia) (or_introl eq_refl) Hp2 H1) as (f3 & s3 & c3 & H3 & Hc3 & Hp4 & He3).
        pose proof (IH (S k) (M + M) s3 r c3 f3 ltac:(lia) ltac:(lia) ltac:(lia) He3 Hp4 H3) as Hb.
        rewrite Eh in Hb. rewrite Epow. nia.
    - rewrite hash_one in Hp1. pose proof (even_half k Eo) as Ek. set (h := k / 2) in *.
      pose proof (IH (S k) M s1 r c1 f1 ltac:(lia) ltac:(lia) HM He1 Hp1 H1) as Hb.
      assert (Eh : S k / 2 = h) by (rewrite Ek; replace (S (2 * h)) with (1 + h * 2) by lia; rewrite Nat.div_add by lia; reflexivity).
      rewrite Eh in Hb. lia.
  Qed.

  Lemma whole_map : whole = map Var ([N] ++ odd_from 0).
  Proof. unfold whole. rewrite odds_from. reflexivity. Qed.

  (** Computing FIRST of [N 1 3 5 ..] takes up at least [2^(n-1)] bodies. *)
  Lemma echo_body r c fuel : work_body fuel p g whole = Val (r, c) -> 2 ^ (n - 1) <= w_bodies c.
  Proof.
    unfold work_body. intros H. apply bind_val in H. destruct H as ([r0 c0] & H & E). injection E as _ <-.
    match type of H with work_loop _ _ _ ?s = _ => destruct (down_start s r0 c0 fuel eq_refl eq_refl eq_refl eq_refl H) as (f1 & s1 & c1 & H1 & Hc1 & Hp1 & Hd1) end.
    destruct echo_bodies_one as (bds & Hb & Hbp).
    destruct (down_all bds Hb N s1 r0 c1 f1 ltac:(lia) Hd1 Hp1 H1) as (f2 & s2 & c2 & H2 & Hc2 & (q & Hp2) & Hd2).
    destruct (up_start s2 r0 c2 f2 q bds Hd2 Hbp Hp2 H2) as (f3 & s3 & c3 & H3 & Hc3 & Hp3 & Hu3).
    destruct (up_all (N - 2) 2 s3 r0 c3 f3 eq_refl ltac:(lia) Hu3 Hp3 H3) as (f4 & s4 & c4 & H4 & Hc4 & Hp4 & Hf4 & Hv4 & Hd4).
    assert (He4 : echoing 1 0 s4).
    { constructor; auto; [intros v Hv; lia|]. intros v Hv. rewrite Hd4 by lia. destruct (Nat.odd v); reflexivity. }
    assert (Epow : 2 ^ n = 2 * 2 ^ (n - 1)) by (replace n with (S (n - 1)) at 1 by lia; reflexivity).
    assert (H2pos : 1 <= 2 ^ (n - 1)) by (apply Nat.neq_0_lt_0, Nat.pow_nonzero; lia).
    enough (2 ^ (n - 1) <= w_bodies c4) by lia. rewrite whole_map in Hp4.
    change (Some 1, [[Var N; Ter 0]]) with (link 1) in Hp4. destruct Hp4 as [Hp4|Hp4].
    - destruct (none_turn 1 0 s4 0 [N] 1 [link 1] r0 c4 f4 He4 ltac:(lia) ltac:(lia) (or_intror eq_refl) Hp4 H4) as (f5 & s5 & c5 & H5 & Hc5 & Hp5 & He5).
      pose proof (doubling N 1 1 s5 r0 c5 f5 ltac:(lia) ltac:(lia) ltac:(lia) He5 Hp5 H5) as Hw.
      change (1 / 2) with 0 in Hw. rewrite Nat.sub_0_r in Hw. lia.
    - destruct (link_turn 1 0 s4 [(None, repeat (map Var ([N] ++ odd_from 0)) 1)] r0 c4 f4 He4 ltac:(lia) Hp4 H4) as (f5 & s5 & c5 & q5 & H5 & Hc5 & Hp5 & He5).
      change (Nat.odd 1) with true in Hp5. cbn iota in Hp5. rewrite dep_link, hash_one in Hp5 by lia. cbn [app] in Hp5.
      destruct (none_turn 2 0 s5 0 [N] 1 [link 2] r0 c5 f5 He5 ltac:(lia) ltac:(lia) (or_intror eq_refl) Hp5 H5) as (f6 & s6 & c6 & H6 & Hc6 & Hp6 & He6).
      pose proof (doubling N 2 1 s6 r0 c6 f6 ltac:(lia) ltac:(lia) ltac:(lia) He6 Hp6 H6) as Hw.
      change (2 / 2) with 1 in Hw. lia.
  Qed.
End Echo.

(** ** Computing FOLLOW of such a grammar *)
Lemma scan_bodies {V T} {dv : DecEq V} {dt : DecEq T} {ho : HashOrder} fuel p (g : grammar V T) h v tl st st' c : tl <> [] ->
  work_scan fuel p g h (Var v :: tl) st = Val (st', c) -> exists f c1, work_body fuel (length tl :: p) g tl = Val (f, c1) /\ w_bodies c1 <= w_bodies c.
Proof.
  intros Hne H. cbn [work_scan] in H. destruct tl as [|s tl]; [destruct (Hne eq_refl)|]. set (rest := s :: tl) in *.
  apply bind_val in H. destruct H as ([f c1] & E1 & H). apply bind_val in H. destruct H as ([r c2] & E2 & H). injection H as _ <-.
  exists f, c1. split; [exact E1|]. cbn. lia.
Qed.

Lemma rules_bodies {V T} {dv : DecEq V} {dt : DecEq T} {ho : HashOrder} fuel p (g : grammar V T) i h b rs : In (i, (h, b)) rs -> forall st st' c,
  work_rules fuel p g rs st = Val (st', c) -> exists s1 s2 c1, work_scan fuel (i :: p) g h b s1 = Val (s2, c1) /\ w_bodies c1 <= w_bodies c.
Proof.
  induction rs as [|[j [h' b']] rs IH]; intros Hin st st' c H; [destruct Hin|]. cbn [work_rules] in H.
  apply bind_val in H. destruct H as ([s1 c1] & E1 & H). apply bind_val in H. destruct H as ([s2 c2] & E2 & H). injection H as _ <-.
  cbn [w_bodies add_work]. destruct Hin as [E|Hin].
  - injection E as -> -> ->. exists st, s1, c1. split; [exact E1|lia].
  - destruct (IH Hin _ _ _ E2) as (t1 & t2 & c3 & E3 & Hc). exists t1, t2, c3. split; [exact E3|lia].
Qed.

Lemma echo_set {ho : HashOrder} n g p fuel r c k : 1 <= n -> build (do_calls (echo_calls n)) = Val g ->
  work_set fuel p g = Val (r, c, k) -> 2 ^ (n - 1) <= w_bodies c.
Proof.
  intros Hn Hb H. unfold work_set in H. apply bind_val in H. destruct H as ([st c0] & E1 & H).
  apply bind_val in H. destruct H as ([r0 k0] & E2 & H). injection H as _ <- _.
  assert (Hr : rule g 0 (Var (2 * n) :: whole n)) by (apply (echo_rule n g Hn Hb); left; auto).
  apply (in_iter_rules g p) in Hr. rewrite <- map_snd_enumerate in Hr. apply in_map_iff in Hr. destruct Hr as ([i hb] & E & Hin). cbn in E. subst hb.
  destruct (rules_bodies _ _ _ _ _ _ _ Hin _ _ _ E1) as (s1 & s2 & c1 & E3 & Hc1). apply scan_bodies in E3; [|discriminate].
  destruct E3 as (f & c2 & E3 & Hc2). apply (echo_body n g _ Hn Hb) in E3. lia.
Qed.

Lemma echo_heads n x : 1 <= n -> x <= 2 * n -> has_rule (echo_calls n) x.
Proof.
  intros Hn Hx. destruct x as [|[|x]].
  - exists (Var (2 * n) :: Var (2 * n) :: odds 0 n). eexists. split; [right; left; reflexivity|reflexivity].
  - exists [Eps]. exists []. split; [right; right; left; reflexivity|reflexivity].
  - exists [Var (S x)]. exists [Var (S x)]. split; [|reflexivity]. apply in_or_app. right. apply in_map_iff. exists x. split; [reflexivity|]. apply in_seq. lia.
Qed.

Lemma echo_build n : 1 <= n -> exists g, build (do_calls (echo_calls n)) = Val g.
Proof.
  intros Hn. apply build_exact. exists 0. split; [|split].
  - unfold echo_calls. cbn [app last_start].
    assert (E : forall l : list nat, last_start (map (fun k => CallRule (S (S k)) [@Var nat nat (S k)]) l) = None) by (induction l as [|a l IH]; cbn; auto).
    rewrite E. reflexivity.
  - apply echo_heads; lia.
  - intros v bd x (bd' & Hin & ->) Hx. apply echo_heads; [exact Hn|]. apply in_app_or in Hin.
    destruct Hin as [[E|[E|[E|[E|[]]]]]|Hin]; try discriminate.
    + injection E as <- <-. destruct Hx as [Hx|[Hx|Hx]]; [injection Hx as <-; lia|injection Hx as <-; lia|].
      apply in_map_iff in Hx. destruct Hx as (j & Ej & Hj). apply in_seq in Hj. assert (x = 2 * j + 1) as -> by congruence. lia.
    + injection E as <- <-. destruct Hx as [Hx|[]]. discriminate.
    + injection E as <- <-. destruct Hx as [Hx|[Hx|[]]]; [|discriminate]. injection Hx as <-. lia.
    + apply in_map_iff in Hin. destruct Hin as (k & E & Hk). apply in_seq in Hk. injection E as <- <-.
      destruct Hx as [Hx|[]]. injection Hx as <-. lia.
Qed.

Lemma echo_size n : length (echo_calls n) <= 2 * n + 4 /\ forall v bd, In (CallRule v bd) (echo_calls n) -> length bd <= n + 2.
Proof.
  split.
  - unfold echo_calls. rewrite app_length, map_length, seq_length. cbn [length]. lia.
  - intros v bd Hin. apply in_app_or in Hin. destruct Hin as [[E|[E|[E|[E|[]]]]]|Hin]; try discriminate.
    + injection E as <- <-. cbn [length]. unfold odds. rewrite map_length, seq_length. lia.
    + injection E as <- <-. cbn. lia.
    + injection E as <- <-. cbn. lia.
    + apply in_map_iff in Hin. destruct Hin as (k & E & Hk). injection E as <- <-. cbn. lia.
Qed.

Lemma echo_exponential n : 1 <= n ->
  length (echo_calls n) <= 2 * n + 4 /\ (forall v bd, In (CallRule v bd) (echo_calls n) -> length bd <= n + 2) /\
  exists g, build (do_calls (echo_calls n)) = Val g /\
    forall (ho : HashOrder) p, (exists fuel r c k, work_set fuel p g = Val (r, c, k)) /\
      forall fuel r c k, work_set fuel p g = Val (r, c, k) -> 2 ^ (n - 1) <= w_bodies c.
Proof.
  intros Hn. destruct (echo_size n) as [H1 H2]. split; [exact H1|]. split; [exact H2|].
  destruct (echo_build n Hn) as (g & Hg). exists g. split; [exact Hg|]. intros ho p. split.
  - destruct (follow_set_total g ltac:(exists (echo_calls n); exact Hg) p) as (m & fs & E). specialize (E m (le_n _)).
    rewrite set_same in E. destruct (work_set m p g) as [[[r c] k]| |] eqn:Ew; try discriminate. exists m, r, c, k. exact Ew.
  - intros fuel r c k. exact (echo_set n g p fuel r c k Hn Hg).
Qed.
