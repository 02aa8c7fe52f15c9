(** Proofs about the grammars of finite automata (C96). *)
From Verif Require Import Base GrammarModel CfsmModel SlrModel SpecCfg SpecWrap GrammarProofs WrapProofs SlrMoves SpecRegular.

Section Machine.
  Context {Q T : Type} {dq : DecEq Q} {dt : DecEq T}.
  Variable teq : T -> T -> bool.
  Hypothesis Hteq : lawful teq.

  Lemma leads_cons (d : machine Q T) q a t p w p' : In (q, a, p) (d_edges d) -> teq a t = true -> leads teq d p w p' -> leads teq d q (t :: w) p'.
  Proof.
    intros Hi Ht H. induction H as [|w p1 a' t' p2 H IH Hi' Ht'].
    - apply (leads_more teq d q [] q a); auto. constructor.
    - apply (leads_more teq d q (t :: w) p1 a'); auto.
  Qed.

  Lemma entered_in (d : machine Q T) q : entered d q = true <-> exists p a, In (p, a, q) (d_edges d).
  Proof.
    unfold entered. rewrite existsb_exists. split.
    - intros ([[p a] q'] & Hi & E). cbn in E. apply eqb_eq in E. subst. eauto.
    - intros (p & a & Hi). exists (p, a, q). split; auto. cbn. apply eqb_refl.
  Qed.

  Lemma leads_entered (d : machine Q T) q w p : leads teq d q w p -> w <> [] -> entered d p = true.
  Proof. intros H N. destruct H; [congruence|]. apply entered_in. eauto. Qed.

  Lemma leads_entered2 (d : machine Q T) q w p : leads teq d q w p -> entered d q = true -> entered d p = true.
  Proof. intros H N. destruct H; [auto|]. apply entered_in. eauto. Qed.

  Section Left.
    Variable d : machine Q T.
    Hypothesis Hdet : deterministic teq d.
    Hypothesis Htrim : trim teq d.
    Hypothesis Hsome : d_edges d <> [].

    (** The rules of the left linear grammar. *)
    Inductive is_rule : place Q -> body (place Q) T -> Prop :=
    | is_first : forall a p, In (d_start d, a, p) (d_edges d) -> is_rule (At p) [Ter a]
    | is_more : forall q a p, In (q, a, p) (d_edges d) -> entered d q = true -> is_rule (At p) [Var (At q); Ter a]
    | is_whole : forall f, In f (d_final d) -> entered d f = true -> is_rule Whole [Var (At f)].

    Lemma added_left v bd : added (left_linear d) v bd <-> is_rule v bd.
    Proof.
      unfold added, left_linear. split.
      - intros (bd' & Hi & ->). apply in_app_iff in Hi. destruct Hi as [Hi|Hi].
        + apply in_flat_map in Hi. destruct Hi as ([[q a] p] & He & Hi). apply in_app_iff in Hi. destruct Hi as [Hi|Hi].
          * destruct (eqb q (d_start d)) eqn:E; [|destruct Hi]. apply eqb_eq in E. subst q.
            destruct Hi as [[= <- <-]|[]]. constructor. auto.
          * destruct (entered d q) eqn:E; [|destruct Hi]. destruct Hi as [[= <- <-]|[]]. constructor; auto.
        + apply in_app_iff in Hi. destruct Hi as [Hi|[Hi|[]]]; [|discriminate].
          apply in_flat_map in Hi. destruct Hi as (f & He & Hi).
          destruct (entered d f) eqn:E; [|destruct Hi]. destruct Hi as [[= <- <-]|[]]. constructor; auto.
      - intros H. exists bd. split; [|destruct H; reflexivity]. destruct H as [a p H|q a p H E|f H E].
        + apply in_app_iff. left. apply in_flat_map. exists (d_start d, a, p). split; auto. rewrite eqb_refl. left. reflexivity.
        + apply in_app_iff. left. apply in_flat_map. exists (q, a, p). split; auto. rewrite E. apply in_app_iff. right. left. reflexivity.
        + apply in_app_iff. right. apply in_app_iff. left. apply in_flat_map. exists f. split; auto. rewrite E. left. reflexivity.
    Qed.

    Lemma entered_first q : (exists w, leads teq d (d_start d) w q) -> q = d_start d \/ entered d q = true.
    Proof. intros (w & H). destruct H; auto. right. apply entered_in. eauto. Qed.

    Lemma final_whole : exists f, In f (d_final d) /\ entered d f = true.
    Proof.
      destruct (d_edges d) as [|[[q a] p] l] eqn:E; [congruence|].
      assert (Hi : In (q, a, p) (d_edges d)) by (rewrite E; left; reflexivity).
      destruct (Htrim _ _ _ Hi) as (_ & w & f & Hf & Hl). exists f. split; auto.
      apply (leads_entered2 _ _ _ _ Hl). apply entered_in. eauto.
    Qed.

    Lemma left_builds : exists g, build (do_calls (left_linear d)) = Val g.
    Proof.
      apply build_ok. exists Whole. split; [|split].
      - unfold left_linear. rewrite !last_start_app. reflexivity.
      - destruct final_whole as (f & Hf & E). exists [Var (At f)]. apply added_left. constructor; auto.
      - assert (Hent : forall q, entered d q = true -> has_rule (left_linear d) (At q)).
        { intros q E. apply entered_in in E. destruct E as (p & a & Hi). destruct (Htrim _ _ _ Hi) as (Hl & _).
          apply entered_first in Hl. destruct Hl as [->|E].
          - exists [Ter a]. apply added_left. constructor. auto.
          - exists [Var (At p); Ter a]. apply added_left. constructor; auto. }
        intros v bd x Ha Hi. apply added_left in Ha.
        destruct Ha as [a p H|q a p H E|f H E]; cbn in Hi.
        + destruct Hi as [Hi|[]]. discriminate.
        + destruct Hi as [Hi|[Hi|[]]]; [|discriminate]. injection Hi as <-. auto.
        + destruct Hi as [Hi|[]]. injection Hi as <-. auto.
    Qed.

    Variable g : grammar (place Q) T.
    Hypothesis Hg : build (do_calls (left_linear d)) = Val g.

    Lemma left_start : g_start g = Whole.
    Proof.
      destruct (build_rules _ _ Hg) as [H _]. unfold left_linear in H. rewrite !last_start_app in H. cbn in H. congruence.
    Qed.

    Lemma left_rule v bd : rule g v bd <-> is_rule v bd.
    Proof. destruct (build_rules _ _ Hg) as [_ H]. rewrite H. apply added_left. Qed.

    Lemma left_noeps v bd : rule g v bd -> ~ In Eps bd.
    Proof. intros H. apply left_rule in H. destruct H; cbn; intuition discriminate. Qed.

    (** The cursor determines what was read. *)
    Lemma left_items u h a b : lr0 g u (h, a, b) -> rule g h (a ++ b) /\ u = a.
    Proof.
      intros H. remember (h, a, b) as x eqn:Ex. revert h a b Ex.
      induction H as [bd a b Hr Hs|u h a v r bd a' b' Hl IH Hr Hs|u h a s r a' b' Hl IH Hs]; intros h0 a0 b0 Ex; injection Ex as <- <- <-.
      - apply skip_same in Hs; [|eapply left_noeps; eauto]. destruct Hs as [-> ->]. auto.
      - apply skip_same in Hs; [|eapply left_noeps; eauto]. destruct Hs as [-> ->]. split; auto.
        destruct (IH _ _ _ eq_refl) as [Hb ->]. apply left_rule in Hb.
        remember (a ++ Var v :: r) as x eqn:E. destruct Hb as [a1 p H|q a1 p H E1|f H E1].
        + destruct a as [|? [|]]; cbn in E; discriminate.
        + destruct a as [|? [|? [|]]]; cbn in E; try discriminate. reflexivity.
        + destruct a as [|? [|]]; cbn in E; try discriminate. reflexivity.
      - destruct (IH _ _ _ eq_refl) as [Hb ->]. assert (Hn : ~ In Eps r).
        { intros Hi. apply (left_noeps _ _ Hb). apply in_app_iff. right. right. auto. }
        apply skip_same in Hs; auto. destruct Hs as [-> ->]. rewrite <- app_assoc. split; auto.
    Qed.

    Lemma step_whole x y : step g x y -> ~ In (Var Whole) x -> ~ In (Var Whole) y.
    Proof.
      intros H N. destruct H as [l v bd r Hr|l r].
      - intros Hi. apply in_app_iff in Hi. destruct Hi as [Hi|Hi]; [apply N; apply in_app_iff; auto|].
        apply in_app_iff in Hi. destruct Hi as [Hi|Hi]; [|apply N; apply in_app_iff; right; right; auto].
        apply left_rule in Hr. destruct Hr; cbn in Hi; intuition discriminate.
      - intros Hi. apply N. apply in_app_iff in Hi. apply in_app_iff. destruct Hi; auto. right. right. auto.
    Qed.

    Lemma steps_whole v x : steps g [Var v] x -> x = [Var v] \/ ~ In (Var Whole) x.
    Proof.
      intros H. remember [Var v] as x0 eqn:E0. induction H as [x|x y z H IH Hs]; [auto|]. subst x.
      right. destruct (IH eq_refl) as [->|N]; [|eapply step_whole; eauto].
      inversion Hs as [l v' bd r Hr E E'|l r E E']; subst.
      - destruct l as [|? [|]]; cbn in E; try discriminate. injection E as -> ->. cbn. rewrite app_nil_r.
        apply left_rule in Hr. destruct Hr; cbn; intuition discriminate.
      - destruct l as [|? [|]]; cbn in E; discriminate.
    Qed.

    Lemma whole_last t : ~ followed_by g Whole t.
    Proof.
      intros (x & l & r & _ & H). destruct (steps_whole _ _ H) as [E|N].
      - destruct l as [|? [|]]; cbn in E; discriminate.
      - apply N. apply in_app_iff. right. left. reflexivity.
    Qed.

    Lemma step_labels x y t : step g x y -> In (Ter t) y -> In (Ter t) x \/ exists q p, In (q, t, p) (d_edges d).
    Proof.
      intros H Hi. destruct H as [l v bd r Hr|l r].
      - apply in_app_iff in Hi. destruct Hi as [Hi|Hi]; [left; apply in_app_iff; auto|].
        apply in_app_iff in Hi. destruct Hi as [Hi|Hi]; [|left; apply in_app_iff; right; right; auto].
        right. apply left_rule in Hr. destruct Hr; cbn in Hi;
          repeat (destruct Hi as [Hi|Hi]; [try discriminate; injection Hi as <-; eauto|]); destruct Hi.
      - left. apply in_app_iff in Hi. apply in_app_iff. destruct Hi; auto. right. right. auto.
    Qed.

    Lemma follow_labels v t : followed_by g v t -> exists q p, In (q, t, p) (d_edges d).
    Proof.
      intros (x & l & r & _ & H).
      assert (Hall : forall y, steps g [Var x] y -> In (Ter t) y -> exists q p, In (q, t, p) (d_edges d)).
      { intros y Hy. remember [Var x] as x0 eqn:E0. induction Hy as [y|y y1 y2 Hy IH Hs]; intros Hi; subst.
        - destruct Hi as [E|[]]. discriminate.
        - destruct (step_labels _ _ _ Hs Hi) as [Hi'|H']; auto. }
      apply (Hall _ H). apply in_app_iff. right. right. left. reflexivity.
    Qed.

    Lemma same_lookahead v k k' : lookahead g v k -> lookahead g v k' -> same_key teq k k' -> k = k'.
    Proof.
      intros H H' Hk. destruct k as [t|], k' as [t'|]; cbn in Hk; try contradiction; auto. f_equal.
      destruct (follow_labels _ _ H) as (q & p & Hi). destruct (follow_labels _ _ H') as (q' & p' & Hi').
      exact (proj1 (Hdet _ _ _ _ _ _ Hi Hi' Hk)).
    Qed.

    Lemma left_no_clash : ~ textbook_clash g teq.
    Proof.
      intros [(u & x & k & x' & k' & [Hl Ha] & [Hl' Ha'] & N & Hk)|(x & E & [Hl Ha])].
      - destruct x as [[h a] b], x' as [[h' a'] b'].
        destruct (left_items _ _ _ _ Hl) as [Hr ->]. destruct (left_items _ _ _ _ Hl') as [Hr' <-].
        apply left_rule in Hr, Hr'. clear Hl Hl'.
        remember (a ++ b) as bd eqn:Eb. remember (a ++ b') as bd' eqn:Eb'.
        assert (Hab : (exists t r, b = Ter t :: r /\ k = Some t) \/ b = [] /\ lookahead g h k).
        { destruct b as [|[t|v|] r]; auto; destruct k; try contradiction. subst. eauto. }
        assert (Hab' : (exists t r, b' = Ter t :: r /\ k' = Some t) \/ b' = [] /\ lookahead g h' k').
        { destruct b' as [|[t|v|] r]; auto; destruct k'; try contradiction. subst. eauto. }
        clear Ha Ha'. destruct Hr as [a1 p H|q a1 p H E1|f H E1].
        + destruct a as [|s a].
          * cbn in Eb. subst b. destruct Hab as [(t & r & [= <- <-] & ->)|[? _]]; [|discriminate].
            cbn in Eb'. subst bd'. destruct Hab' as [(t & r & -> & ->)|[-> _]]; [|inversion Hr'].
            inversion Hr' as [a2 p2 H2| |]; subst. cbn in Hk. destruct (Hdet _ _ _ _ _ _ H H2 Hk) as [-> Hp].
            rewrite (Hp eq_refl) in N. congruence.
          * cbn in Eb. injection Eb as <- Eb. destruct a; [|discriminate]. cbn in Eb. subst b.
            cbn in Eb'. subst bd'. destruct Hab as [(t & r & ? & _)|[_ Hk1]]; [discriminate|].
            inversion Hr' as [a2 p2 H2| |]; subst. destruct (Hdet _ _ _ _ _ _ H H2 (proj1 Hteq _)) as [_ Hp].
            specialize (Hp eq_refl). subst p2. destruct Hab' as [(t & r & ? & _)|[_ Hk2]]; [discriminate|].
            rewrite (same_lookahead _ _ _ Hk1 Hk2 Hk) in N. congruence.
        + destruct a as [|s a].
          * cbn in Eb. subst b. destruct Hab as [(t & r & ? & _)|[? _]]; discriminate.
          * cbn in Eb. injection Eb as <- Eb. destruct a as [|s a].
            -- cbn in Eb. subst b. destruct Hab as [(t & r & [= <- <-] & ->)|[? _]]; [|discriminate].
               cbn in Eb'. subst bd'. destruct Hab' as [(t & r & -> & ->)|[-> Hk2]].
               ++ inversion Hr' as [|q2 a2 p2 H2 E2|]; subst. cbn in Hk. destruct (Hdet _ _ _ _ _ _ H H2 Hk) as [-> Hp].
                  rewrite (Hp eq_refl) in N. congruence.
               ++ inversion Hr'; subst. destruct k'; [|contradiction]. exact (whole_last _ Hk2).
            -- cbn in Eb. injection Eb as <- Eb. destruct a; [|discriminate]. cbn in Eb. subst b.
               cbn in Eb'. subst bd'. destruct Hab as [(t & r & ? & _)|[_ Hk1]]; [discriminate|].
               inversion Hr' as [|q2 a2 p2 H2 E2|]; subst. destruct (Hdet _ _ _ _ _ _ H H2 (proj1 Hteq _)) as [_ Hp].
               specialize (Hp eq_refl). subst p2. destruct Hab' as [(t & r & ? & _)|[_ Hk2]]; [discriminate|].
               rewrite (same_lookahead _ _ _ Hk1 Hk2 Hk) in N. congruence.
        + destruct a as [|s a].
          * cbn in Eb. subst b. destruct Hab as [(t & r & ? & _)|[? _]]; discriminate.
          * cbn in Eb. injection Eb as <- Eb. destruct a; [|discriminate]. cbn in Eb. subst b.
            destruct Hab as [(t & r & ? & _)|[_ Hk1]]; [discriminate|].
            destruct k as [t|]; [destruct (whole_last _ Hk1)|]. destruct k'; [contradiction|].
            destruct Hab' as [(t & r & -> & ?)|[-> Hk2]]; [discriminate|]. cbn in Eb'. subst bd'. inversion Hr'; subst. congruence.
      - destruct x as [[h a] b]. cbn in E. subst b. destruct (left_items _ _ _ _ Hl) as [Hr <-].
        apply left_rule in Hr. rewrite left_start in Hr. cbn in Hr. inversion Hr.
    Qed.

    (** ** No useless variables *)

    Lemma steps_front v bd (r : list (symbol (place Q) T)) x : steps g x (Var v :: r) -> rule g v bd -> steps g x (bd ++ r).
    Proof. intros H Hr. eapply steps_next; [exact H|]. apply (step_rule g [] v bd r Hr). Qed.

    Lemma back q w p : leads teq d q w p -> entered d q = true ->
      (exists r, steps g [Var Whole] (Var (At p) :: r)) -> exists r, steps g [Var Whole] (Var (At q) :: r).
    Proof.
      intros H He. induction H as [|w p a t p' H IH Hi Ht]; [auto|]. intros (r & Hr). apply IH.
      exists (Ter a :: r). apply (steps_front (At p') [Var (At p); Ter a] r _ Hr). apply left_rule. constructor; auto.
      eapply leads_entered2; eauto.
    Qed.

    Lemma left_reachable : all_reachable g.
    Proof.
      intros v bd Hr. apply left_rule in Hr.
      assert (Hat : forall p, entered d p = true -> reachable g (At p)).
      { intros p E. pose proof E as E'. apply entered_in in E. destruct E as (q & a & Hi).
        destruct (Htrim _ _ _ Hi) as (_ & w & f & Hf & Hl).
        destruct (back _ _ _ Hl E') as (r & Hr').
        - exists []. apply (steps_front Whole [Var (At f)] []); [constructor|]. apply left_rule. constructor; auto.
          eapply leads_entered2; eauto.
        - exists [], r. rewrite left_start. exact Hr'. }
      destruct Hr as [a p H|q a p H E|f H E]; [apply Hat; apply entered_in; eauto..|].
      exists [], []. rewrite left_start. constructor.
    Qed.

    Lemma forth q w p : leads teq d q w p -> q = d_start d -> w <> [] -> productive g (At p).
    Proof.
      intros H. induction H as [|w p a t p' H IH Hi Ht]; [congruence|]. intros Eq _. destruct w as [|t0 w].
      - inversion H; subst; [|destruct w; discriminate]. exists [a]. apply steps_from. apply left_rule. constructor. auto.
      - destruct (IH Eq ltac:(discriminate)) as (u & Hu). exists (u ++ [a]).
        apply (steps_then g _ [Var (At p); Ter a]).
        + apply steps_from. apply left_rule. constructor; auto. eapply leads_entered; eauto. discriminate.
        + rewrite map_app. apply (steps_context g [] [Ter a] _ _ Hu).
    Qed.

    Lemma left_productive v bd : rule g v bd -> productive g v.
    Proof.
      assert (Hat : forall p, entered d p = true -> productive g (At p)).
      { intros p E. apply entered_in in E. destruct E as (q & a & Hi). destruct (Htrim _ _ _ Hi) as ((w & Hl) & _).
        apply (forth (d_start d) (w ++ [a]) p); auto; [|destruct w; discriminate].
        eapply leads_more; eauto. apply (proj1 Hteq). }
      intros Hr. pose proof Hr as Hr0. apply left_rule in Hr. destruct Hr as [a p H|q a p H E|f H E].
      - apply Hat. apply entered_in. eauto.
      - apply Hat. apply entered_in. eauto.
      - destruct (Hat f E) as (u & Hu). exists u. eapply steps_then; [apply steps_from; eauto|exact Hu].
    Qed.

    Lemma left_clean : clean g.
    Proof.
      split; [|split]; [|exact left_reachable|exact left_productive]. intros v bd _ Hr. eapply left_noeps; eauto.
    Qed.

    (** ** The words *)

    Lemma tree_leads x : forall p cs, derivation g teq x -> x = Branch (At p) cs -> leads teq d (d_start d) (leaves x) p /\ leaves x <> [].
    Proof.
      induction x as [t|v cs IH] using tree_ind2; [discriminate|]. intros p cs' Hd [= -> <-].
      inversion Hd as [|v' bd cs' Hr Hs Hc]; subst. apply left_rule in Hr. cbn [leaves].
      inversion Hr as [a p' H|q a p' H E|]; subst; cbn in Hs.
      - inversion Hs as [|? y ? ys H1 H2]; subst. inversion H2; subst. destruct y as [t|]; [|contradiction]. cbn in *.
        split; [|discriminate]. apply (leads_more teq d _ [] (d_start d) a t); auto. constructor.
      - inversion Hs as [|? y ? ys H1 H2]; subst. inversion H2 as [|? y' ? ys' H3 H4]; subst. inversion H4; subst.
        destruct y as [|v ys]; [contradiction|]. destruct y' as [t|]; [|contradiction]. cbn in H1, H3. subst v.
        inversion IH as [|? ? IH1 _]; subst. inversion Hc as [|? ? Hd1 _]; subst.
        destruct (IH1 q ys Hd1 eq_refl) as [Hl Hn]. cbn [flat_map leaves app]. split.
        + eapply leads_more; eauto.
        + intros E0. apply app_eq_nil in E0. destruct E0 as [_ E0]. discriminate.
    Qed.

    Lemma leads_tree q w p : leads teq d q w p -> q = d_start d -> w <> [] ->
      exists cs, derivation g teq (Branch (At p) cs) /\ leaves (Branch (At p) cs) = w.
    Proof.
      intros H. induction H as [|w p a t p' H IH Hi Ht]; [congruence|]. intros Eq _. destruct w as [|t0 w].
      - inversion H; subst; [|destruct w; discriminate]. exists [Leaf t]. split; [|reflexivity].
        apply (derivation_branch g teq (At p') [Ter a]); [apply left_rule; constructor; auto| |repeat constructor].
        cbn. repeat constructor. auto.
      - destruct (IH Eq ltac:(discriminate)) as (cs & Hd & El). exists [Branch (At p) cs; Leaf t]. split.
        + apply (derivation_branch g teq (At p') [Var (At p); Ter a]); [apply left_rule; constructor; auto| |repeat constructor; auto].
          * eapply leads_entered; eauto. discriminate.
          * cbn. repeat constructor. auto.
        + change (leaves (Branch (At p) cs) ++ [t] = (t0 :: w) ++ [t]). rewrite El. reflexivity.
    Qed.

    Lemma left_words w : (exists x, parses g teq w x) <-> w <> [] /\ takes teq d w.
    Proof.
      split.
      - intros (x & Hd & <- & (cs & ->)). rewrite left_start in *. inversion Hd as [|v bd cs' Hr Hs Hc]; subst.
        apply left_rule in Hr. inversion Hr as [| |f H E]; subst. cbn in Hs.
        inversion Hs as [|? y ? ys H1 H2]; subst. inversion H2; subst. destruct y as [|v ys]; [contradiction|]. cbn in H1. subst v.
        inversion Hc; subst. destruct (tree_leads _ f ys H3 eq_refl) as [Hl Hn].
        change (leaves (Branch Whole [Branch (At f) ys])) with (leaves (Branch (At f) ys) ++ []). rewrite app_nil_r. split; auto.
        exists f. auto.
      - intros (Hn & f & Hf & Hl). destruct (leads_tree _ _ _ Hl eq_refl Hn) as (cs & Hd & El).
        exists (Branch Whole [Branch (At f) cs]). split; [|split].
        + apply (derivation_branch g teq Whole [Var (At f)]).
          * apply left_rule. constructor; auto. eapply leads_entered; eauto.
          * cbn. repeat constructor.
          * repeat constructor. auto.
        + change (leaves (Branch Whole [Branch (At f) cs])) with (leaves (Branch (At f) cs) ++ []). rewrite app_nil_r. auto.
        + rewrite left_start. eauto.
    Qed.
  End Left.
End Machine.
