(** Runs of the parser on grammars without epsilon as moves on symbols and
    trees. *)
From Verif Require Import Base GrammarModel CfsmModel SlrModel SpecCfg GrammarProofs FirstProofs FollowProofs GrammarTotal
  ItemProofs CfsmProofs CfsmCorrect TableProofs SlrTable SlrNew.

(** ** The loop on the list of remaining tokens *)
Section Loop.
  Context {V T : Type} {dv : DecEq V} {dt : DecEq T}.
  Variable teq : T -> T -> bool.
  Variable tb : table V T.

  Definition top (stack : list (parse_node V T)) : nat := match stack with [] => 0 | (_, k) :: _ => k end.

  Fixpoint ploop (fuel : nat) (rem : list T) (stack : list (parse_node V T)) : res (option (node V T)) :=
    match fuel with
    | 0 => Diverge
    | S fuel' =>
        match rem with
        | [] => eof_loop teq fuel' tb stack (top stack)
        | t :: r =>
            let! o := handle_token teq tb (Some t) stack (top stack) in
            match o with
            | None => Val None
            | Some (tok2, stack', pn, accept) =>
                if accept : bool then Val (Some (fst pn))
                else ploop fuel' (match tok2 with Some _ => rem | None => r end) (pn :: stack')
            end
        end
    end.

  (** The token source delivers these tokens and then ends. *)
  Inductive delivers {L} (next : L -> res (option T * L)) : L -> list T -> Prop :=
  | delivers_end : forall l l', next l = Val (None, l') -> delivers next l []
  | delivers_tok : forall l t l' ts, next l = Val (Some t, l') -> delivers next l' ts -> delivers next l (t :: ts).

  Lemma handle_token_token tok stack cur o stack' pn acc :
    handle_token teq tb tok stack cur = Val (Some (o, stack', pn, acc)) -> o = None \/ o = tok.
  Proof.
    unfold handle_token. intros H. apply bind_val in H. destruct H as (row & _ & H).
    destruct (row_get teq tok row) as [[d|v n|v n]|]; [| | |discriminate].
    - apply bind_val in H. destruct H as (t & _ & H). injection H as <- _ _ _. auto.
    - apply bind_val in H. destruct H as ([popped rest] & _ & H). apply bind_val in H. destruct H as (tp & _ & H).
      apply bind_val in H. destruct H as (grow & _ & H). destruct (mget v grow); [|discriminate]. injection H as <- _ _ _. auto.
    - apply bind_val in H. destruct H as ([popped rest] & _ & H). injection H as <- _ _ _. auto.
  Qed.

  Lemma parse_loop_ploop {L} (next : L -> res (option T * L)) fuel : forall inp tok stack ts,
    delivers next inp ts ->
    parse_loop teq next fuel tb inp tok stack (top stack) =
    ploop fuel (match tok with Some t => t :: ts | None => ts end) stack.
  Proof.
    induction fuel as [|fuel IH]; intros inp tok stack ts Hd; [reflexivity|]. cbn [parse_loop ploop].
    assert (Hcase : forall t inp' ts', delivers next inp' ts' ->
      (let! o := handle_token teq tb (Some t) stack (top stack) in
       match o with
       | None => Val None
       | Some (tok2, stack', pn, accept) =>
         if accept : bool then Val (Some (fst pn)) else parse_loop teq next fuel tb inp' tok2 (pn :: stack') (snd pn)
       end) =
      (let! o := handle_token teq tb (Some t) stack (top stack) in
       match o with
       | None => Val None
       | Some (tok2, stack', pn, accept) =>
         if accept : bool then Val (Some (fst pn)) else ploop fuel (match tok2 with Some _ => t :: ts' | None => ts' end) (pn :: stack')
       end)).
    { intros t inp' ts' Hd'. destruct (handle_token teq tb (Some t) stack (top stack)) as [[[[[tok2 stack'] pn] acc]|]| |] eqn:E; auto.
      cbn [bind]. destruct acc; auto. destruct pn as [nd k]. apply handle_token_token in E.
      pose proof (IH inp' tok2 ((nd, k) :: stack') ts' Hd') as H. etransitivity; [exact H|].
      destruct E as [-> | ->]; auto. }
    destruct tok as [t|]; cbn [bind].
    - apply Hcase; auto.
    - destruct Hd as [l l' Hn|l t l' ts Hn Hd]; rewrite Hn; cbn [bind]; auto.
  Qed.

  Lemma delivers_list (ts : list T) : delivers next_of_list ts ts.
  Proof. induction ts; [eapply delivers_end; reflexivity|eapply delivers_tok; [reflexivity|auto]]. Qed.

  Definition stack0 : list (parse_node V T) := [(Node (Var (g_start (tb_grammar tb))) [], 0)].

  Lemma parse_from_ploop {L} (next : L -> res (option T * L)) fuel inp ts : delivers next inp ts ->
    parse_from teq next fuel tb inp = ploop fuel ts stack0.
  Proof. intros H. unfold parse_from. apply (parse_loop_ploop next fuel inp None stack0 ts H). Qed.

  Lemma parse_ploop fuel ts : parse teq fuel tb ts = ploop fuel ts stack0.
  Proof. apply parse_from_ploop. apply delivers_list. Qed.

  (** More fuel *)
  Lemma eof_loop_more n : forall j stack cur r, eof_loop teq n tb stack cur = r -> r <> Diverge ->
    eof_loop teq (n + j) tb stack cur = r.
  Proof.
    induction n as [|n IH]; intros j stack cur r H Hr; cbn [eof_loop Nat.add] in *; [congruence|].
    destruct (handle_token teq tb None stack cur) as [[[[[tok2 stack'] pn] acc]|]| |]; auto. cbn [bind] in *.
    destruct acc; auto.
  Qed.

  Lemma ploop_more n : forall j rem stack r, ploop n rem stack = r -> r <> Diverge -> ploop (n + j) rem stack = r.
  Proof.
    induction n as [|n IH]; intros j rem stack r H Hr; cbn [ploop Nat.add] in *; [congruence|].
    destruct rem as [|t rem]; [apply eof_loop_more; auto|].
    destruct (handle_token teq tb (Some t) stack (top stack)) as [[[[[tok2 stack'] pn] acc]|]| |]; auto. cbn [bind] in *.
    destruct acc; auto.
  Qed.

  Lemma parse_stable n ts r : parse teq n tb ts = r -> r <> Diverge -> forall fuel, n <= fuel -> parse teq fuel tb ts = r.
  Proof.
    intros H Hr fuel Hf. rewrite parse_ploop in *. replace fuel with (n + (fuel - n)) by lia. apply ploop_more; auto.
  Qed.
End Loop.

(** ** LR(0) items of grammars without epsilon *)
Section Items.
  Context {V T : Type} {dv : DecEq V} {dt : DecEq T}.
  Notation sym := (symbol V T).
  Variable g : grammar V T.

  Lemma skip_eps_app x y : skip_eps x y -> fst x ++ snd x = fst y ++ (snd y : list sym).
  Proof. induction 1 as [|a b x H IH]; cbn [fst snd] in *; auto. rewrite <- IH, <- app_assoc. reflexivity. Qed.

  Lemma lr0_rule w h a b : lr0 g w (h, a, b) -> rule g h (a ++ b).
  Proof.
    intros H. remember (h, a, b) as d eqn:E. revert h a b E.
    induction H as [bd a b H1 H2|w h a v r bd a' b' H IH H1 H2|w h a s r a' b' H IH H2]; intros h0 a0 b0 [= <- <- <-].
    - apply skip_eps_app in H2. cbn in H2. rewrite <- H2. auto.
    - apply skip_eps_app in H2. cbn in H2. rewrite <- H2. auto.
    - apply skip_eps_app in H2. cbn in H2. rewrite <- H2, <- app_assoc. apply IH. auto.
  Qed.

  Lemma lr0_reachable w h a b : lr0 g w (h, a, b) -> reachable g h.
  Proof.
    intros H. remember (h, a, b) as d eqn:E. revert h a b E.
    induction H as [bd a b H1 H2|w h a v r bd a' b' H IH H1 H2|w h a s r a' b' H IH H2]; intros h0 a0 b0 [= <- <- <-].
    - exists [], []. constructor.
    - destruct (IH _ _ _ eq_refl) as (l & r' & Hs). exists (l ++ a), (r ++ r').
      eapply steps_next; [exact Hs|]. pose proof (step_rule g l h (a ++ Var v :: r) r' (lr0_rule _ _ _ _ H)) as Hst.
      rewrite <- !app_assoc in *. exact Hst.
    - eapply IH; eauto.
  Qed.

  Hypothesis Heps : epsilon_free g.

  Lemma lr0_noeps w h a b : lr0 g w (h, a, b) -> ~ In Eps (a ++ b).
  Proof. intros H. apply (Heps h); [eapply lr0_reachable; eauto|eapply lr0_rule; eauto]. Qed.

  Lemma skip_eps_id (a b : list sym) x : ~ In Eps b -> skip_eps (a, b) x -> x = (a, b).
  Proof. intros H Hs. inversion Hs; subst; auto. destruct H. left; auto. Qed.

  Lemma skip_eps_self (a b : list sym) : ~ In Eps b -> skip_eps (a, b) (a, b).
  Proof. intros H. constructor. intros b' ->. apply H. left; auto. Qed.

  Lemma lr0_adv w h a s r : lr0 g w (h, a, s :: r) -> lr0 g (w ++ [s]) (h, a ++ [s], r).
  Proof.
    intros H. eapply lr0_goto; eauto. apply skip_eps_self. intros Hin. apply (lr0_noeps _ _ _ _ H).
    apply in_app_iff. right. right. auto.
  Qed.

  Lemma lr0_adv_all x : forall w h a r, lr0 g w (h, a, x ++ r) -> lr0 g (w ++ x) (h, a ++ x, r).
  Proof.
    induction x as [|s x IH]; intros w h a r H; [rewrite !app_nil_r; auto|].
    apply lr0_adv in H. apply IH in H. rewrite <- !app_assoc in H. exact H.
  Qed.

  Lemma rule_reach_noeps w h a v r bd : lr0 g w (h, a, Var v :: r) -> rule g v bd -> ~ In Eps bd.
  Proof.
    intros H Hr. apply (Heps v); auto. destruct (lr0_reachable _ _ _ _ H) as (l & r' & Hs). exists (l ++ a), (r ++ r').
    eapply steps_next; [exact Hs|]. pose proof (step_rule g l h (a ++ Var v :: r) r' (lr0_rule _ _ _ _ H)) as Hst.
    rewrite <- !app_assoc in *. exact Hst.
  Qed.

  Lemma lr0_clo w h a v r bd : lr0 g w (h, a, Var v :: r) -> rule g v bd -> lr0 g w (v, [], bd).
  Proof. intros H Hr. eapply lr0_close; eauto. apply skip_eps_self. eapply rule_reach_noeps; eauto. Qed.

  Lemma start_noeps bd : rule g (g_start g) bd -> ~ In Eps bd.
  Proof. intros H. apply (Heps (g_start g)); auto. exists [], []. constructor. Qed.

  Lemma lr0_begin bd : rule g (g_start g) bd -> lr0 g [] (g_start g, [], bd).
  Proof. intros H. eapply lr0_start; eauto. apply skip_eps_self. apply start_noeps; auto. Qed.

  (** The part before the cursor is what was read last. *)
  Lemma lr0_back w h a b : lr0 g w (h, a, b) -> exists w', w = w' ++ a /\ lr0 g w' (h, [], a ++ b).
  Proof.
    intros H. remember (h, a, b) as d eqn:E. revert h a b E.
    induction H as [bd a b H1 H2|w h a v r bd a' b' H IH H1 H2|w h a s r a' b' H IH H2]; intros h0 a0 b0 [= <- <- <-].
    - apply skip_eps_id in H2; [|apply start_noeps; auto]. injection H2 as -> ->. exists []. split; auto. apply lr0_begin; auto.
    - apply skip_eps_id in H2; [|eapply rule_reach_noeps; eauto]. injection H2 as -> ->. exists w.
      rewrite app_nil_r. split; auto. eapply lr0_clo; eauto.
    - apply skip_eps_id in H2.
      2:{ intros Hin. apply (lr0_noeps _ _ _ _ H). apply in_app_iff. right. right. auto. }
      injection H2 as -> ->. destruct (IH _ _ _ eq_refl) as (w' & -> & H3). exists w'. rewrite <- !app_assoc. auto.
  Qed.

  Lemma lr0_init w h b : lr0 g w (h, [], b) -> (h = g_start g /\ w = []) \/ exists h' a r, lr0 g w (h', a, Var h :: r).
  Proof.
    intros H. remember (h, [], b) as d eqn:E. 
    destruct H as [bd a b' H1 H2|w h' a v r bd a' b' H H1 H2|w h' a s r a' b' H H2].
    - injection E as <- _ _. auto.
    - injection E as <- _ _. eauto.
    - injection E as <- -> ->. apply skip_eps_app in H2 as H3. apply skip_eps_id in H2.
      2:{ intros Hin. apply (lr0_noeps _ _ _ _ H). apply in_app_iff. right. right. auto. }
      injection H2 as H2 _. destruct a; discriminate.
  Qed.

  (** A symbol read last stood after a cursor. *)
  Lemma lr0_last w s d : lr0 g (w ++ [s]) d -> exists h a r, lr0 g w (h, a, s :: r).
  Proof.
    intros H. remember (w ++ [s]) as z eqn:E.
    induction H as [bd a b H1 H2|z h a v r bd a' b' H IH H1 H2|z h a s' r a' b' H IH H2].
    - destruct w; discriminate.
    - apply IH; auto.
    - apply app_inj_tail in E. destruct E as [-> ->]. eauto.
  Qed.

  (** What can come after a variable read last is in its FOLLOW set. *)
  Lemma lr0_follow w u h a b t : lr0 g (w ++ [Var u]) (h, a, b) -> startb g b t -> followb g u t.
  Proof.
    intros H. remember (w ++ [Var u]) as z eqn:E. remember (h, a, b) as d eqn:Ed. revert h a b Ed E.
    induction H as [bd a b H1 H2|z h a v r bd a' b' H IH H1 H2|z h a s' r a' b' H IH H2]; intros h0 a0 b0 [= <- <- <-] E Hs.
    - destruct w; discriminate.
    - apply skip_eps_id in H2; [|eapply rule_reach_noeps; eauto]. injection H2 as -> ->.
      eapply (IH _ _ _ eq_refl); eauto. eapply start_in; eauto.
    - apply skip_eps_id in H2.
      2:{ intros Hin. apply (lr0_noeps _ _ _ _ H). apply in_app_iff. right. right. auto. }
      injection H2 as -> ->. apply app_inj_tail in E. destruct E as [-> ->].
      eapply follow_direct; [|exact Hs]. exact (lr0_rule _ _ _ _ H).
  Qed.

  (** Viable prefixes are prefixes of sentential forms. *)
  Lemma lr0_sentential w h a b : lr0 g w (h, a, b) ->
    exists w' r, w = w' ++ a /\ steps g [Var (g_start g)] (w' ++ Var h :: r).
  Proof.
    intros H. remember (h, a, b) as d eqn:Ed. revert h a b Ed.
    induction H as [bd a b H1 H2|w h a v r bd a' b' H IH H1 H2|w h a s' r a' b' H IH H2]; intros h0 a0 b0 [= <- <- <-].
    - apply skip_eps_id in H2; [|apply start_noeps; auto]. injection H2 as -> ->. exists [], []. split; auto. constructor.
    - apply skip_eps_id in H2; [|eapply rule_reach_noeps; eauto]. injection H2 as -> ->.
      destruct (IH _ _ _ eq_refl) as (w' & r' & -> & Hs). exists (w' ++ a), (r ++ r'). rewrite app_nil_r. split; auto.
      eapply steps_next; [exact Hs|]. pose proof (step_rule g w' h (a ++ Var v :: r) r' (lr0_rule _ _ _ _ H)) as Hst.
      rewrite <- !app_assoc in *. exact Hst.
    - apply skip_eps_id in H2.
      2:{ intros Hin. apply (lr0_noeps _ _ _ _ H). apply in_app_iff. right. right. auto. }
      injection H2 as -> ->. destruct (IH _ _ _ eq_refl) as (w' & r' & -> & Hs). exists w', r'. rewrite <- app_assoc. auto.
  Qed.

  Lemma filter_noeps (bd : list sym) : ~ In Eps bd -> filter not_eps bd = bd.
  Proof.
    induction bd as [|s bd IH]; cbn; intros H; auto. destruct s; cbn; try (f_equal; apply IH; tauto). tauto.
  Qed.

  Lemma rule_nonempty v bd : good g -> rule g v bd -> bd <> [].
  Proof. intros [[_ H] _ _] (bds & H1 & H2). apply H in H1. apply H1; auto. Qed.
End Items.
