(** Changes to the list of patterns of a lexer. *)
From Verif Require Import Base RegexModel SpecRegex NfaModel SpecNfa SpecSpin LexerModel SpecLexer SpecCalls SpecStuck SpecLists
  LexerWitness LexerRef LexerSpin.

Definition retoken {K K'} (f : K -> K') (t : ltoken K) : ltoken K' :=
  {| lt_kind := f (lt_kind t); lt_source := lt_source t; lt_pos := lt_pos t |}.

(** ** Lists that choose alike *)
Section Choose.
  Context {env : Env} {K K' : Type} (f : K -> K') (L : expr -> list char -> Prop).
  Context (es : list expr) (gens : list (generator K)) (es' : list expr) (gens' : list (generator K')).

  (** The first list can be replaced by the second. *)
  Record chooses : Prop := {
    ch_feed : forall x, feedable es x <-> feedable es' x;
    ch_mat : forall x, x <> [] -> matched L es x <-> matched L es' x;
    ch_first : forall x i g, x <> [] -> first_match L es x i -> nth_error gens i = Some g ->
      exists i' g', first_match L es' x i' /\ nth_error gens' i' = Some g' /\ forall y, f (gen_run g y) = gen_run g' y;
    ch_spin : forall w, (exists e, In e es /\ spinning e w) <-> exists e, In e es' /\ spinning e w
  }.
  Hypothesis H : chooses.

  Lemma letters_nil (u : list (nat * char)) : letters u = [] -> u = [].
  Proof. destruct u; [reflexivity|discriminate]. Qed.
  Lemma choose_last u v : last_match L es u v <-> last_match L es' u v.
  Proof.
    split; intros Hl v1 v2 E Hne Hm; (apply (Hl v1 v2 E Hne)); apply (ch_mat H); try exact Hm; intros X; apply letters_nil, app_eq_nil in X; tauto.
  Qed.

  Lemma choose_call s o s' : call L es gens s o s' -> call L es' gens' s (option_map (retoken f) o) s'.
  Proof.
    intros [u v c r i g E Hne Hf Hnf Hm Hg Hl|v c r E Hf Hnf Hl|i g E Hm Hg|Hf Hm]; cbn [option_map].
    - destruct (ch_first H _ _ _ (fun X => Hne (letters_nil _ X)) Hm Hg) as (i' & g' & Hm' & Hg' & Hy).
      unfold retoken, token_of; cbn [lt_kind lt_source lt_pos]. rewrite Hy.
      apply (call_token L es' gens' s u v c r i' g'); auto; [apply (ch_feed H), Hf|intros X; apply Hnf, (ch_feed H), X|apply choose_last, Hl].
    - apply (call_vain L es' gens' s v c r); auto; [apply (ch_feed H), Hf|intros X; apply Hnf, (ch_feed H), X|apply choose_last, Hl].
    - destruct (ch_first H _ _ _ (fun X => E (letters_nil _ X)) Hm Hg) as (i' & g' & Hm' & Hg' & Hy).
      unfold retoken, token_of; cbn [lt_kind lt_source lt_pos]. rewrite Hy. apply (call_last L es' gens' s i' g'); auto.
    - apply call_over; [apply (ch_feed H), Hf|]. destruct (ahead s) as [|p l] eqn:Ea; [left; reflexivity|]. right. intros X.
      destruct Hm as [Hm|Hm]; [discriminate|]. apply Hm, (ch_mat H); [discriminate|exact X].
  Qed.

  Lemma choose_calls s os : calls L es gens s os -> calls L es' gens' s (map (option_map (retoken f)) os).
  Proof. induction 1 as [|s o s' os Hc _ IH]; [constructor|]. econstructor; [apply choose_call; exact Hc|exact IH]. Qed.

  Hypothesis Huniq : forall s o s1 o2 s2, call L es' gens' s o s1 -> call L es' gens' s o2 s2 -> o = o2 /\ s1 = s2.

  Lemma choose_back os0 : forall s s1 os, reaches L es' gens' s os0 s1 -> calls L es gens s os -> length os0 < length os ->
    exists os', reaches L es gens s os' s1 /\ length os' = length os0.
  Proof.
    induction os0 as [|o os0 IH]; intros s s1 os Hr Hc Hl.
    - inversion Hr; subst. exists []. split; [constructor|reflexivity].
    - inversion Hr as [|? ? s2 ? ? Hc2 Hr2]; subst. destruct Hc as [|s o' s' os Hc Hcs]; [cbn in Hl; lia|].
      destruct (Huniq _ _ _ _ _ Hc2 (choose_call _ _ _ Hc)) as [_ ->]. cbn in Hl.
      destruct (IH _ _ _ Hr2 Hcs) as (os' & Hr' & Hl'); [lia|]. exists (o' :: os'). split; [econstructor; eassumption|cbn; congruence].
  Qed.
End Choose.

Section Lexers.
  Context {env : Env} {K K' : Type} (f : K -> K') (L : expr -> list char -> Prop).

  Lemma chooses_imitates (ts : list (list char * generator K)) (ts' : list (list char * generator K')) es es' input lx lx' :
    parsed ts es -> parsed ts' es' -> agreed L es -> agreed L es' ->
    chooses f L es (map snd ts) es' (map snd ts') ->
    build_lexer ts input = Val (inl lx) -> build_lexer ts' input = Val (inl lx') -> imitates f lx lx'.
  Proof.
    intros Hp Hp' Ha Ha' Hch Hb Hb' ho fuel n os lx1 Hr.
    destruct (lexer_calls ts input lx es ho fuel n os lx1 L Hb Hp Ha Hr) as (Hn & Hc).
    pose proof (call_unique L es' (map snd ts') (fun x => matched_feedable L ts' input lx' es' x Hb' Hp' Ha')) as Hu.
    destruct (lexer_free ts' input lx' es' L n Hb' Hp' Ha') as (os' & N & lx2 & Hn' & Hc' & HN).
    - intros os0 s Hre Hlt Hst. rewrite <- Hn in Hlt.
      destruct (choose_back f L es (map snd ts) es' (map snd ts') Hch Hu _ _ _ _ Hre Hc Hlt) as (os1 & Hre1 & Hl1).
      assert (Hst1 : stuck es s) by (apply (ch_spin _ _ _ _ _ _ Hch); exact Hst).
      pose proof (lexer_stuck ts input lx es L os1 s ho fuel n Hb Hp Ha Hre1 Hst1 ltac:(lia)). congruence.
    - exists N, lx2. pose proof (choose_calls f L es (map snd ts) es' (map snd ts') Hch _ _ Hc) as Hc2.
      assert (E : map (option_map (retoken f)) os = os').
      { apply (calls_unique L es' (map snd ts') (fun x => matched_feedable L ts' input lx' es' x Hb' Hp' Ha') _ (starting input) os' Hc2 Hc').
        rewrite map_length. lia. }
      unfold retoken in E. rewrite E. exact HN.
  Qed.
End Lexers.

Lemma parsed_length {env : Env} {B} (ts : list (list char * B)) es : parsed ts es -> length (map snd ts) = length es.
Proof. unfold parsed. intros H. rewrite map_length. induction H; cbn; congruence. Qed.

(** ** Reordering *)
Section Reorder.
  Context {env : Env} {K : Type} (L : expr -> list char -> Prop).
  Notation pats := (list (expr * generator K)).

  (** First matches of lists of pairs. *)
  Definition picks (l : pats) (x : list char) (g : generator K) : Prop :=
    exists l1 e l2, l = l1 ++ (e, g) :: l2 /\ L e x /\ forall e' g', In (e', g') l1 -> ~ L e' x.

  Lemma split_fst (l : pats) (a : list expr) e b : map fst l = a ++ e :: b -> exists l1 g l2, l = l1 ++ (e, g) :: l2 /\ map fst l1 = a.
  Proof.
    revert a. induction l as [|[e0 g0] l IH]; intros [|a0 a] E; cbn in E; try discriminate.
    - injection E as -> <-. exists [], g0, l. auto.
    - injection E as -> E. destruct (IH _ E) as (l1 & g & l2 & -> & <-). exists ((a0, g0) :: l1), g, l2. auto.
  Qed.

  Lemma picks_first (l : pats) x i g : first_match L (map fst l) x i -> nth_error (map snd l) i = Some g -> picks l x g.
  Proof.
    intros [(e & He & Hx) Hj] Hg. destruct (nth_error_split _ _ He) as (a & b & E & Ha).
    destruct (split_fst _ _ _ _ E) as (l1 & g1 & l2 & -> & Hl1). exists l1, e, l2.
    assert (g1 = g) as ->.
    { rewrite map_app in Hg. cbn in Hg. rewrite nth_error_app2 in Hg; rewrite map_length in *; [|subst; rewrite map_length; lia].
      subst. rewrite map_length, Nat.sub_diag in Hg. cbn in Hg. congruence. }
    split; [reflexivity|]. split; [exact Hx|]. intros e' g' Hin. destruct (In_nth_error _ _ Hin) as (j & Hj').
    assert (Hlt : j < length l1) by (apply nth_error_Some; congruence).
    apply (Hj j e'); [subst; rewrite map_length; exact Hlt|]. rewrite map_app, nth_error_app1; [|rewrite map_length; exact Hlt].
    rewrite nth_error_map, Hj'. reflexivity.
  Qed.

  Lemma first_picks (l : pats) x g : picks l x g -> exists i, first_match L (map fst l) x i /\ nth_error (map snd l) i = Some g.
  Proof.
    intros (l1 & e & l2 & -> & Hx & Hn). exists (length l1). rewrite !map_app. cbn [map fst snd]. split; [split|].
    - exists e. split; [|exact Hx]. rewrite nth_error_app2; rewrite map_length; [|lia]. rewrite Nat.sub_diag. reflexivity.
    - intros j e' Hlt He'. rewrite nth_error_app1 in He'; [|rewrite map_length; exact Hlt].
      apply nth_error_In, in_map_iff in He'. destruct He' as ([e2 g2] & <- & Hin). exact (Hn _ _ Hin).
    - rewrite nth_error_app2; rewrite map_length; [|lia]. rewrite Nat.sub_diag. reflexivity.
  Qed.

  Lemma picks_swap (l : pats) a b r x g : x <> [] -> ~ overlap L (fst a) (fst b) ->
    picks (l ++ a :: b :: r) x g -> picks (l ++ b :: a :: r) x g.
  Proof.
    intros Hx Ho (l1 & e & l2 & E & He & Hn).
    assert (Hab : L (fst a) x -> L (fst b) x -> False) by (intros H1 H2; apply Ho; exists x; auto).
    destruct (Nat.lt_trichotomy (length l1) (length l)) as [Hlt|[Heq|Hgt]].
    - apply app_eq_app in E. destruct E as (z & [[E1 E2]|[E1 E2]]).
      + subst l. destruct z as [|p z]; [rewrite app_nil_r in Hlt; lia|]. cbn in E2. injection E2 as <- E2. subst l2.
        exists l1, e, (z ++ b :: a :: r). rewrite <- app_assoc. auto.
      + subst l1. rewrite app_length in Hlt. lia.
    - assert (l1 = l /\ a :: b :: r = (e, g) :: l2) as [-> E2].
      { clear - E Heq. revert l E Heq. induction l1 as [|p l1 IH]; intros [|q l] E Heq; try discriminate; [auto|].
        cbn in E. injection E as -> E. cbn in Heq. destruct (IH l E ltac:(lia)) as [-> ?]. auto. }
      injection E2 as -> <-. exists (l ++ [b]), e, r. rewrite <- app_assoc. split; [reflexivity|]. split; [exact He|].
      intros e' g' Hin. apply in_app_iff in Hin. destruct Hin as [Hin|[->|[]]]; [eauto|]. intros X. exact (Hab He X).
    - assert (exists z, l1 = l ++ a :: z /\ b :: r = z ++ (e, g) :: l2) as (z & -> & E2).
      { apply app_eq_app in E. destruct E as (z & [[E1 E2]|[E1 E2]]); subst; [rewrite app_length in Hgt; lia|].
        destruct z as [|p z]; [rewrite app_nil_r in Hgt; lia|]. cbn in E2. injection E2 as <- E2. eauto. }
      destruct z as [|p z]; cbn in E2.
      + injection E2 as -> <-. exists l, e, (a :: r). split; [reflexivity|]. split; [exact He|].
        intros e' g' Hin. apply (Hn e' g'). apply in_app_iff. auto.
      + injection E2 as <- E2. subst r. exists (l ++ b :: a :: z), e, l2. rewrite <- app_assoc. split; [reflexivity|]. split; [exact He|].
        intros e' g' Hin. apply (Hn e' g'). apply in_app_iff in Hin. apply in_app_iff. cbn in *. tauto.
  Qed.

  Lemma overlap_sym e e' : overlap L e e' -> overlap L e' e.
  Proof. intros (x & H1 & H2 & H3). exists x. auto. Qed.

  Lemma reordered_sym (l l' : pats) : reordered L l l' -> reordered L l' l.
  Proof.
    induction 1; [constructor| |eapply reordered_again; eassumption].
    apply reordered_swap. intros X. apply overlap_sym in X. auto.
  Qed.
  Lemma reordered_in (l l' : pats) p : reordered L l l' -> In p l -> In p l'.
  Proof. induction 1 as [l|l a b r _|l l1 l2 _ IH1 _ IH2]; auto. rewrite !in_app_iff. cbn. tauto. Qed.
  Lemma reordered_picks (l l' : pats) x g : x <> [] -> reordered L l l' -> picks l x g -> picks l' x g.
  Proof. intros Hx. induction 1; eauto using picks_swap. Qed.

  Lemma reordered_chooses (l l' : pats) : reordered L l l' ->
    chooses (fun k : K => k) L (map fst l) (map snd l) (map fst l') (map snd l').
  Proof.
    intros H. pose proof (reordered_sym _ _ H) as H'.
    assert (Hin : forall e, In e (map fst l) <-> In e (map fst l')).
    { intros e. rewrite !in_map_iff. split; intros (p & Hp & Hi); exists p; (split; [exact Hp|]); eapply reordered_in; eassumption. }
    split.
    - intros x. split; intros [->|(e & He & Hx)]; try (left; reflexivity); right; exists e; (split; [apply Hin; exact He|exact Hx]).
    - intros x _. split; intros (e & He & Hx); exists e; (split; [apply Hin; exact He|exact Hx]).
    - intros x i g Hx Hf Hg. destruct (first_picks l' x g) as (i' & Hf' & Hg').
      + eapply reordered_picks; [exact Hx|exact H|]. eapply picks_first; eassumption.
      + exists i', g. auto.
    - intros w. split; intros (e & He & Hx); exists e; (split; [apply Hin; exact He|exact Hx]).
  Qed.

  Lemma combine_fst (es : list expr) (gens : list (generator K)) : length gens = length es -> map fst (combine es gens) = es.
  Proof. revert gens. induction es as [|e es IH]; intros [|g gens] H; cbn in *; try discriminate; [reflexivity|]. rewrite IH; auto. Qed.
  Lemma combine_snd (es : list expr) (gens : list (generator K)) : length gens = length es -> map snd (combine es gens) = gens.
  Proof. revert gens. induction es as [|e es IH]; intros [|g gens] H; cbn in *; try discriminate; [reflexivity|]. rewrite IH; auto. Qed.

  Lemma agreed_in (es es' : list expr) : (forall e, In e es' -> In e es) -> agreed L es -> agreed L es'.
  Proof. intros H [->|[-> Ha]]; [left; reflexivity|right; split; [reflexivity|auto]]. Qed.

  Lemma reordered_imitates (ts ts' : list (list char * generator K)) es es' input lx lx' :
    parsed ts es -> parsed ts' es' -> agreed L es -> reordered L (combine es (map snd ts)) (combine es' (map snd ts')) ->
    build_lexer ts input = Val (inl lx) -> build_lexer ts' input = Val (inl lx') -> imitates (fun k => k) lx lx'.
  Proof.
    intros Hp Hp' Ha H Hb Hb'. pose proof (parsed_length _ _ Hp) as El. pose proof (parsed_length _ _ Hp') as El'.
    pose proof (reordered_chooses _ _ H) as Hch. rewrite !combine_fst, !combine_snd in Hch by assumption.
    eapply chooses_imitates; [exact Hp|exact Hp'|exact Ha| |exact Hch|exact Hb|exact Hb'].
    apply (agreed_in es); [|exact Ha]. intros e He. rewrite <- (combine_fst es' (map snd ts') El') in He.
    apply in_map_iff in He. destruct He as (p & <- & Hp2). apply (reordered_in _ _ _ (reordered_sym _ _ H)) in Hp2.
    rewrite <- (combine_fst es (map snd ts) El). apply in_map. exact Hp2.
  Qed.

  (** ** Dropping a pattern *)
  Lemma shadowed_chooses (l r : pats) e g : shadowed L (map fst l) e -> redundant (map fst (l ++ r)) e ->
    chooses (fun k : K => k) L (map fst (l ++ (e, g) :: r)) (map snd (l ++ (e, g) :: r)) (map fst (l ++ r)) (map snd (l ++ r)) /\
    chooses (fun k : K => k) L (map fst (l ++ r)) (map snd (l ++ r)) (map fst (l ++ (e, g) :: r)) (map snd (l ++ (e, g) :: r)).
  Proof.
    intros Hs [Hr1 Hr2].
    assert (Hin : forall e', In e' (map fst (l ++ r)) -> In e' (map fst (l ++ (e, g) :: r))).
    { intros e'. rewrite !map_app, !in_app_iff. cbn. tauto. }
    assert (Hout : forall e', In e' (map fst (l ++ (e, g) :: r)) -> e' = e \/ In e' (map fst (l ++ r))).
    { intros e'. rewrite !map_app, !in_app_iff. cbn. intuition. }
    assert (Hfeed : forall x, feedable (map fst (l ++ (e, g) :: r)) x <-> feedable (map fst (l ++ r)) x).
    { intros x. split; intros [->|(e' & He & Hx)]; try (left; reflexivity).
      - destruct (Hout _ He) as [->|He']; [auto|right; eauto].
      - right. exists e'. auto. }
    assert (Hmat : forall x, x <> [] -> matched L (map fst (l ++ (e, g) :: r)) x <-> matched L (map fst (l ++ r)) x).
    { intros x Hx. split; intros (e' & He & He').
      - destruct (Hout _ He) as [->|He2]; [|exists e'; auto]. destruct (Hs x Hx He') as (e2 & H1 & H2). exists e2.
        split; [|exact H2]. rewrite map_app, in_app_iff. auto.
      - exists e'. auto. }
    assert (Hspin : forall w, (exists e', In e' (map fst (l ++ (e, g) :: r)) /\ spinning e' w) <-> exists e', In e' (map fst (l ++ r)) /\ spinning e' w).
    { intros w. split; intros (e' & He & Hw); [destruct (Hout _ He) as [->|He']; eauto|eauto]. }
    assert (Hpick : forall x g', x <> [] -> picks (l ++ (e, g) :: r) x g' <-> picks (l ++ r) x g').
    { intros x g' Hx. split; intros (l1 & e1 & l2 & E & He & Hn).
      - destruct (Nat.lt_trichotomy (length l1) (length l)) as [Hlt|[Heq|Hgt]].
        + apply app_eq_app in E. destruct E as (z & [[E1 E2]|[E1 E2]]).
          * subst l. destruct z as [|p z]; [rewrite app_nil_r in Hlt; lia|]. cbn in E2. injection E2 as <- E2. subst l2.
            exists l1, e1, (z ++ r). rewrite <- app_assoc. auto.
          * subst l1. rewrite app_length in Hlt. lia.
        + exfalso. assert (l1 = l /\ (e, g) :: r = (e1, g') :: l2) as [-> E2].
          { clear - E Heq. revert l E Heq. induction l1 as [|p l1 IH]; intros [|q l] E Heq; try discriminate; [auto|].
            cbn in E. injection E as -> E. cbn in Heq. destruct (IH l E ltac:(lia)) as [-> ?]. auto. }
          injection E2 as <- <- <-. destruct (Hs x Hx He) as (e2 & H1 & H2). apply in_map_iff in H1. destruct H1 as ([e3 g3] & <- & H1).
          exact (Hn _ _ H1 H2).
        + assert (exists z, l1 = l ++ (e, g) :: z /\ r = z ++ (e1, g') :: l2) as (z & -> & ->).
          { apply app_eq_app in E. destruct E as (z & [[E1 E2]|[E1 E2]]); subst; [rewrite app_length in Hgt; lia|].
            destruct z as [|p z]; [rewrite app_nil_r in Hgt; lia|]. cbn in E2. injection E2 as <- E2. eauto. }
          exists (l ++ z), e1, l2. rewrite <- app_assoc. split; [reflexivity|]. split; [exact He|].
          intros e' g2 Hin'. apply (Hn e' g2). apply in_app_iff in Hin'. apply in_app_iff. cbn. tauto.
      - destruct (Nat.lt_ge_cases (length l1) (length l)) as [Hlt|Hge].
        + apply app_eq_app in E. destruct E as (z & [[E1 E2]|[E1 E2]]).
          * subst l. destruct z as [|p z]; [rewrite app_nil_r in Hlt; lia|]. cbn in E2. injection E2 as <- E2. subst l2.
            exists l1, e1, (z ++ (e, g) :: r). rewrite <- app_assoc. auto.
          * subst l1. rewrite app_length in Hlt. lia.
        + assert (exists z, l1 = l ++ z /\ r = z ++ (e1, g') :: l2) as (z & -> & ->).
          { apply app_eq_app in E. destruct E as (z & [[E1 E2]|[E1 E2]]); subst; [|eauto].
            rewrite app_length in Hge. destruct z; [|cbn in Hge; lia]. cbn in E2. subst. exists []. rewrite !app_nil_r. auto. }
          exists (l ++ (e, g) :: z), e1, l2. rewrite <- app_assoc. split; [reflexivity|]. split; [exact He|].
          intros e' g2 Hin'. apply in_app_iff in Hin'. destruct Hin' as [Hi|[[= <- <-]|Hi]].
          * apply (Hn e' g2). apply in_app_iff. auto.
          * intros X. destruct (Hs x Hx X) as (e2 & H1 & H2). apply in_map_iff in H1. destruct H1 as ([e3 g3] & <- & H1).
            apply (Hn e3 g3); [apply in_app_iff; auto|exact H2].
          * apply (Hn e' g2). apply in_app_iff. auto. }
    split; split; auto.
    - intros x i g' Hx Hf Hg. destruct (first_picks (l ++ r) x g') as (i' & Hf' & Hg').
      + apply Hpick; [exact Hx|]. eapply picks_first; eassumption.
      + exists i', g'. auto.
    - intros x. symmetry. apply Hfeed.
    - intros x Hx. symmetry. apply Hmat, Hx.
    - intros x i g' Hx Hf Hg. destruct (first_picks (l ++ (e, g) :: r) x g') as (i' & Hf' & Hg').
      + apply Hpick; [exact Hx|]. eapply picks_first; eassumption.
      + exists i', g'. auto.
    - intros w. symmetry. apply Hspin.
  Qed.

  Lemma shadowed_imitates (tl tr : list (list char * generator K)) pat g el e er input lx lx' :
    parsed tl el -> regex_parse pat = Val (ParseOk e) -> parsed tr er -> agreed L (el ++ e :: er) ->
    shadowed L el e -> redundant (el ++ er) e ->
    build_lexer (tl ++ (pat, g) :: tr) input = Val (inl lx) -> build_lexer (tl ++ tr) input = Val (inl lx') ->
    imitates (fun k => k) lx lx' /\ imitates (fun k => k) lx' lx.
  Proof.
    intros Hpl Hpe Hpr Ha Hs Hr Hb Hb'. pose proof (parsed_length _ _ Hpl) as El. pose proof (parsed_length _ _ Hpr) as Er.
    destruct (shadowed_chooses (combine el (map snd tl)) (combine er (map snd tr)) e g) as [H1 H2].
    - rewrite combine_fst by exact El. exact Hs.
    - rewrite map_app, !combine_fst by assumption. exact Hr.
    - rewrite !map_app in *. cbn [map fst snd] in *. rewrite !combine_fst, !combine_snd in * by assumption.
      assert (Hp1 : parsed (tl ++ (pat, g) :: tr) (el ++ e :: er)) by (apply Forall2_app; [exact Hpl|constructor; assumption]).
      assert (Hp2 : parsed (tl ++ tr) (el ++ er)) by (apply Forall2_app; assumption).
      assert (Ha2 : agreed L (el ++ er)).
      { apply (agreed_in (el ++ e :: er)); [|exact Ha]. intros x. rewrite !in_app_iff. cbn. tauto. }
      split.
      + eapply chooses_imitates; [exact Hp1|exact Hp2|exact Ha|exact Ha2| |exact Hb|exact Hb'].
        rewrite !map_app. cbn [map snd]. exact H1.
      + eapply chooses_imitates; [exact Hp2|exact Hp1|exact Ha2|exact Ha| |exact Hb'|exact Hb].
        rewrite !map_app. cbn [map snd]. exact H2.
  Qed.
End Reorder.

(** ** Other kinds *)
Section Kinds.
  Context {env : Env} {K K' : Type} (f : K -> K').

  Definition rekind (g : generator K) (g' : generator K') : Prop := forall y, f (gen_run g y) = gen_run g' y.

  Lemma rekind_imitates (ts : list (list char * generator K)) (ts' : list (list char * generator K')) es input lx lx' :
    parsed ts es -> Forall2 (fun t t' => fst t = fst t' /\ rekind (snd t) (snd t')) ts ts' ->
    build_lexer ts input = Val (inl lx) -> build_lexer ts' input = Val (inl lx') -> imitates f lx lx'.
  Proof.
    intros Hp H Hb Hb'.
    assert (Hp' : parsed ts' es).
    { clear - Hp H. revert es Hp. induction H as [|t t' ts ts' [E _] H IH]; intros es Hp.
      - inversion Hp. constructor.
      - inversion Hp as [|? e ? es' He Hes]; subst. constructor; [rewrite <- E; exact He|apply IH; exact Hes]. }
    eapply (chooses_imitates f impl_lang); [exact Hp|exact Hp'|left; reflexivity|left; reflexivity| |exact Hb|exact Hb'].
    split; try reflexivity.
    intros x i g _ Hf Hg. exists i. rewrite nth_error_map in Hg. destruct (nth_error ts i) as [t|] eqn:Et; [|discriminate]. injection Hg as <-.
    assert (exists t', nth_error ts' i = Some t' /\ rekind (snd t) (snd t')) as (t' & Et' & Hk).
    { clear - H Et. revert i Et. induction H as [|t0 t0' ts ts' [_ Hk] H IH]; intros [|i] Et; cbn in *; try discriminate; [injection Et as ->; eauto|eauto]. }
    exists (snd t'). split; [exact Hf|]. split; [rewrite nth_error_map, Et'; reflexivity|exact Hk].
  Qed.
End Kinds.
