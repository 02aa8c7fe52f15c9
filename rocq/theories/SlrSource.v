(** The parser reading from any source of tokens, as the machine on symbols. *)
From Verif Require Import Base GrammarModel CfsmModel SlrModel SpecCfg SpecMachine GrammarProofs GrammarTotal CfsmProofs FollowProofs
  CfsmCorrect TableProofs SlrNew SlrTable SlrRun SlrMachine.

Section Source.
  Context {V T : Type} {dv : DecEq V} {dt : DecEq T}.
  Notation sym := (symbol V T).
  Notation nd := (node V T).
  Variable teq : T -> T -> bool.
  Hypothesis Hteq : lawful teq.
  Variable g : grammar V T.
  Hypothesis Hgood : good g.
  Variable c : cfsm V T.
  Hypothesis Hc : cfsm_ok g c.
  Variable fs : list (V * list sym).
  Hypothesis Hf : exact_follow g fs.
  Variable tb : table V T.
  Hypothesis Htb : table_ok teq g c fs tb.

  Notation entry := (has_entry g fs).
  Notation mmove := (mmove teq g).
  Notation mmoves := (mmoves teq g).
  Notation maccepts := (maccepts g entry).
  Notation mstuck := (mstuck teq g entry).
  Notation held := (SlrMachine.held c tb).
  Notation stops := (SlrMachine.stops teq tb).

  Context {L : Type}.
  Variable next : L -> res (option T * L).

  Inductive gives : L -> list T -> L -> Prop :=
  | gives_nil l : gives l [] l
  | gives_cons l t l1 ks l2 : next l = Val (Some t, l1) -> gives l1 ks l2 -> gives l (t :: ks) l2.

  Lemma gives_delivers l ks l1 l2 : gives l ks l1 -> next l1 = Val (None, l2) -> delivers next l ks.
  Proof. induction 1 as [|l t l' ks l'' E H IH]; intros En; econstructor; eauto. Qed.

  Definition held_back (tok : option T) : list T := match tok with Some t => [t] | None => [] end.

  Lemma stops_handle t ts sm r : stops (t :: ts) sm r -> r = Val None \/ r = Panic ->
    (r = Val None /\ handle_token teq tb (Some t) sm (top sm) = Val None) \/ (r = Panic /\ handle_token teq tb (Some t) sm (top sm) = Panic).
  Proof.
    intros Hs Hr. specialize (Hs 0). cbn [ploop] in Hs.
    destruct (handle_token teq tb (Some t) sm (top sm)) as [[[[[tok2 stack'] pn] [|]]|]| |]; cbn [bind] in Hs; destruct Hr as [-> | ->]; try discriminate; auto.
  Qed.

  Lemma source_moves k lE : forall st rem sm m l tok ks, held st sm -> mmoves k (st, rem) m ->
    rem = held_back tok ++ ks -> gives l ks lE ->
    exists l2 tok2 ks2 sm', held (fst m) sm' /\ snd m = held_back tok2 ++ ks2 /\ gives l2 ks2 lE /\
      forall fuel, parse_loop teq next (k + fuel) tb l tok sm (top sm) = parse_loop teq next fuel tb l2 tok2 sm' (top sm').
  Proof.
    induction k as [|k IH]; intros st rem sm m l tok ks Hh Hm Er Hg; inversion Hm as [|? ? [st1 rem1] ? H1 H2]; subst.
    - exists l, tok, ks, sm. auto.
    - destruct (mmove_handle teq Hteq g c Hc fs Hf tb Htb _ _ _ _ _ Hh H1) as (t & ts & tok2 & stack' & pn & Er & E & Hh1 & Hr).
      assert (Hstep : exists l1, gives l1 ts lE /\
        (let! (tok', inp') := match tok with Some t => Val (Some t, l) | None => next l end in Val (tok', inp')) = Val (Some t, l1)).
      { destruct tok as [t0|]; cbn [held_back app] in Er.
        - injection Er as -> ->. exists l. split; [assumption|reflexivity].
        - subst ks. inversion Hg as [|? ? l1 ? ? En Hg']; subst. exists l1. split; [assumption|]. rewrite En. reflexivity. }
      destruct Hstep as (l1 & Hg1 & En).
      assert (Hr1 : rem1 = held_back tok2 ++ ts).
      { rewrite Er in Hr. destruct Hr as [(-> & ->)|(-> & ->)]; reflexivity. }
      destruct (IH _ _ _ _ l1 tok2 ts Hh1 H2 Hr1 Hg1) as (l2 & tok3 & ks2 & sm' & Hh' & Es & Hg2 & El).
      exists l2, tok3, ks2, sm'. split; [assumption|]. split; [assumption|]. split; [assumption|]. intros fuel. cbn [plus parse_loop].
      assert (En' : (match tok with Some t => Val (Some t, l) | None => next l end) = Val (Some t, l1)).
      { destruct tok; [exact En|]. destruct (next l) as [[o l0]| |]; cbn [bind] in En; try discriminate. exact En. }
      rewrite En'. cbn [bind]. rewrite E. cbn [bind]. apply El.
  Qed.

  (** A run that stops at a token. *)
  Lemma source_stops k l ks lE st t ts r : gives l ks lE -> mmoves k (initial ks) (st, t :: ts) -> r = Val None \/ r = Panic ->
    (forall sm, held st sm -> stops (t :: ts) sm r) -> forall fuel, 1 + k <= fuel -> parse_from teq next fuel tb l = r.
  Proof.
    intros Hg Hm Hr Hs fuel Hle.
    destruct (source_moves k lE [] ks (stack0 tb) _ l None ks (held_nil c tb) Hm eq_refl Hg) as (l2 & tok2 & ks2 & sm' & Hh & Es & Hg2 & El).
    cbn [fst snd] in *. unfold parse_from. replace fuel with (k + S (fuel - k - 1)) by lia.
    change (parse_loop teq next (k + S (fuel - k - 1)) tb l None (stack0 tb) (top (stack0 tb)) = r). rewrite El. cbn [parse_loop].
    assert (En : exists l3, match tok2 with Some t => Val (Some t, l2) | None => next l2 end = Val (Some t, l3)).
    { destruct tok2 as [t0|]; cbn [held_back app] in Es.
      - injection Es as <- _. eauto.
      - subst ks2. inversion Hg2; subst. eauto. }
    destruct En as (l3 & ->). cbn [bind].
    destruct (stops_handle t ts sm' r (Hs _ Hh) Hr) as [(-> & ->)|(-> & ->)]; reflexivity.
  Qed.

  (** ** Tokens that are not looked at *)

  Lemma mmove_frame st rem st' rem' x : mmove (st, rem) (st', rem') -> mmove (st, rem ++ x) (st', rem' ++ x).
  Proof.
    intros Hm. inversion Hm as [st0 t ts t' h a r H1 H2|popped st0 t ts t' h bd h' a r H1 H2 H3 H4 H5]; subst; cbn [app].
    - eapply mmove_shift; eassumption.
    - eapply mmove_reduce; eassumption.
  Qed.

  Lemma mmoves_frame k x : forall st rem st' rem', mmoves k (st, rem) (st', rem') -> mmoves k (st, rem ++ x) (st', rem' ++ x).
  Proof.
    induction k as [|k IH]; intros st rem st' rem' H; inversion H as [|? ? [st1 rem1] ? H1 H2]; subst; [constructor|].
    econstructor; [apply mmove_frame; eassumption|]. apply IH. assumption.
  Qed.

  Lemma mmove_any st t ts ts' m : mmove (st, t :: ts) m -> exists m', mmove (st, t :: ts') m'.
  Proof.
    intros Hm. inversion Hm as [st0 t0 ts0 t' h a r H1 H2|popped st0 t0 ts0 t' h bd h' a r H1 H2 H3 H4 H5]; subst.
    - eexists. eapply mmove_shift; eassumption.
    - eexists. eapply mmove_reduce; eassumption.
  Qed.

  Lemma mstuck_any st t ts ts' : mstuck (st, t :: ts) -> mstuck (st, t :: ts').
  Proof.
    intros [H1 H2]. split.
    - intros m Hm. destruct (mmove_any _ _ _ ts _ Hm) as (m' & Hm'). exact (H1 _ Hm').
    - intros n (E & _). discriminate.
  Qed.

  Lemma stuck_stops st rem sm : held st sm -> mstuck (st, rem) -> stops rem sm (Val None) \/ stops rem sm Panic.
  Proof.
    intros Hh Hs. destruct rem as [|t ts].
    - destruct (end_cases teq g c Hc fs Hf tb Htb st sm Hh) as [(n & Ha & _)|Hx]; [destruct Hs as [_ Hs]; destruct (Hs _ Ha)|exact Hx].
    - destruct (token_cases teq g Hgood c Hc fs Hf tb Htb st t ts sm Hh) as [(m' & Hx)|Hx]; [destruct Hs as [Hs _]; destruct (Hs _ Hx)|exact Hx].
  Qed.

  (** ** What a result says *)

  Variable inv : L -> Prop.
  Hypothesis inv_panic : forall l, inv l -> next l <> Panic.
  Hypothesis inv_next : forall l o l', inv l -> next l = Val (o, l') -> inv l'.

  Lemma source_run fuel : forall l tok st sm r, inv l -> held st sm -> parse_loop teq next fuel tb l tok sm (top sm) = r -> r <> Diverge ->
    exists ks lE k m, gives l ks lE /\ mmoves k (st, held_back tok ++ ks) m /\
      ((exists l', next lE = Val (None, l')) \/ snd m <> []) /\
      ((exists n, maccepts m n /\ r = Val (Some n)) \/ (mstuck m /\ (r = Val None \/ r = Panic))).
  Proof.
    induction fuel as [|fuel IH]; intros l tok st sm r Hi Hh Hr Hne; [cbn in Hr; congruence|]. cbn [parse_loop] in Hr.
    destruct (match tok with Some t => Val (Some t, l) | None => next l end) as [[[t|] l1]| |] eqn:En; cbn [bind] in Hr.
    - assert (Hi1 : inv l1) by (destruct tok; [injection En as _ <-; exact Hi|exact (inv_next _ _ _ Hi En)]).
      destruct (token_cases teq g Hgood c Hc fs Hf tb Htb st t [] sm Hh) as [([st1 rem1] & Hm)|Hs].
      + destruct (mmove_handle teq Hteq g c Hc fs Hf tb Htb _ _ _ _ _ Hh Hm) as (t' & ts & tok2 & stack' & pn & Er & E & Hh1 & Hx).
        injection Er as <- <-. rewrite E in Hr. cbn [bind] in Hr.
        destruct (IH l1 tok2 st1 (pn :: stack') r Hi1 Hh1) as (ks & lE & k & m & Hg & Hk & Hend & Hres); [destruct pn; exact Hr|assumption|].
        assert (Hrem : rem1 = held_back tok2) by (destruct Hx as [(-> & ->)|(-> & ->)]; reflexivity). subst rem1.
        pose proof (mmove_frame _ _ _ _ ks Hm) as Hm'. cbn [app] in Hm'.
        destruct tok as [t0|].
        * injection En as -> ->. exists ks, lE, (S k), m. split; [assumption|]. split; [econstructor; eassumption|]. auto.
        * exists (t :: ks), lE, (S k), m. split; [econstructor; eassumption|]. split; [econstructor; eassumption|]. auto.
      + assert (Hst : mstuck (st, [t])).
        { split; [|intros n (Ex & _); discriminate]. intros [st' rem'] Hm.
          destruct (mmove_sim teq Hteq g c Hc fs Hf tb Htb _ _ _ _ _ Hh Hm) as (sm' & Hh' & E).
          destruct Hs as [Hs|Hs]; pose proof (eq_trans (eq_sym (E 0)) (Hs 0)) as X; discriminate X. }
        assert (Hres : r = Val None \/ r = Panic).
        { destruct Hs as [Hs|Hs]; destruct (stops_handle _ _ _ _ Hs ltac:(auto)) as [(Ex & E)|(Ex & E)]; try discriminate Ex; rewrite E in Hr; auto. }
        destruct tok as [t0|].
        * injection En as -> ->. exists [], l1, 0, (st, [t]). split; [constructor|]. split; [constructor|]. split; [right; discriminate|]. auto.
        * exists [t], l1, 0, (st, [t]). split; [econstructor; [eassumption|constructor]|]. split; [constructor|]. split; [right; discriminate|]. auto.
    - destruct tok as [t0|]; [discriminate|]. exists [], l, 0, (st, []). split; [constructor|]. split; [constructor|]. split; [left; eauto|].
      destruct fuel as [|fuel]; [cbn in Hr; congruence|].
      assert (Hp : forall r', stops [] sm r' -> r = r') by (intros r' Hs; rewrite <- Hr; exact (Hs fuel)).
      destruct (end_cases teq g c Hc fs Hf tb Htb st sm Hh) as [(n & Ha & Hs)|Hs].
      + left. exists n. auto.
      + right. split; [|destruct Hs as [Hs|Hs]; auto]. split; [intros m' Hm; inversion Hm|]. intros n Ha.
        destruct (maccepts_stops teq Hteq g c Hc fs Hf tb Htb st [] sm n Hh Ha) as [_ E].
        destruct Hs as [Hs|Hs]; pose proof (eq_trans (eq_sym (E 0)) (Hs 0)) as X; discriminate X.
    - destruct tok as [t0|]; [discriminate|]. destruct (inv_panic _ Hi En).
    - congruence.
  Qed.
End Source.
