(** The parser on a text, for all patterns and grammars. *)
From Verif Require Import Base RegexModel SpecRegex NfaModel SpecNfa NfaCompileProofs NfaLangProofs NfaSimProofs NfaTermProofs NfaProofs NfaWitness NfaMachineProofs LexerModel SpecLexer LexerProofs LexerCallsProofs LexerWitness
  SpecCalls LexerRef SpecSpin SpecStuck LexerSpin GrammarModel CfsmModel SlrModel PangoModel SpecCfg SpecMachine SpecWhole
  GrammarProofs GrammarTotal CfsmProofs FollowProofs CfsmCorrect TableProofs SlrNew SlrTable SlrRun SlrFinal SlrMachine SlrSource.

Section Lexing.
  Context {env : Env} {K : Type}.
  Variables (m : nfa) (es : list expr) (gs : list (generator K)) (L : expr -> list char -> Prop).
  Hypothesis Hm : NfaMachineProofs.machine m 2 es.
  Hypothesis Ht : targets_ok m.
  Hypothesis Hgs : length gs = length es.
  Hypothesis HL : agreed L es.
  Hypothesis Hfeed : forall x, matched L es x -> feedable es x.

  Notation lexed := (lexed L es gs).
  Notation over := (over L es gs).
  Notation ours := (ours m es gs).

  Lemma next_kind_val {ho : HashOrder} fuel (lx : lexer K) o lx' : next_kind fuel lx = Val (o, lx') ->
    exists t, lex_next fuel lx = Val (t, lx') /\ o = match t with Some t => Some (lt_kind t) | None => None end.
  Proof. unfold next_kind. intros H. apply bind_val in H. destruct H as ([t l] & E & H). injection H as <- <-. eauto. Qed.

  (** What the lexer gives, in the specification. *)
  Lemma gives_lexed {ho : HashOrder} fuel (lx : lexer K) ks lx' : gives (next_kind fuel) lx ks lx' -> forall s, ours lx -> holds lx s ->
    exists s', lexed s ks s' /\ ours lx' /\ holds lx' s'.
  Proof.
    induction 1 as [lx|lx k lx1 ks lx2 En H IH]; intros s Ho Hh.
    - exists s. split; [constructor|auto].
    - apply next_kind_val in En. destruct En as ([t|] & En & Ek); [|discriminate]. injection Ek as ->.
      pose proof (next_val m es gs Hm Ht Hgs _ _ _ _ Ho En) as Hr. destruct (refine m es gs L Hm Hgs HL _ _ _ _ Hh Hr) as (s1 & Hc & Hh1).
      destruct (IH s1 (result_ours m es gs _ _ _ Hr Ho) Hh1) as (s' & Hl & Ho' & Hh'). exists s'. split; [|auto].
      econstructor; [|exact Hc|exact Hl]. intros Hst. rewrite (next_stuck m es gs Hm Ht Hgs ho fuel lx s Ho Hh Hst) in En. discriminate.
  Qed.

  Lemma end_over {ho : HashOrder} fuel (lx : lexer K) lx' s : ours lx -> holds lx s -> next_kind fuel lx = Val (None, lx') -> over s.
  Proof.
    intros Ho Hh En. apply next_kind_val in En. destruct En as ([t|] & En & Ek); [discriminate|]. split.
    - intros Hst. rewrite (next_stuck m es gs Hm Ht Hgs ho fuel lx s Ho Hh Hst) in En. discriminate.
    - pose proof (next_val m es gs Hm Ht Hgs _ _ _ _ Ho En) as Hr. destruct (refine m es gs L Hm Hgs HL _ _ _ _ Hh Hr) as (s1 & Hc & _). eauto.
  Qed.

  (** Back. *)
  Lemma lexed_gives s ks s' : lexed s ks s' -> forall lx, ours lx -> holds lx s ->
    exists N lx', ours lx' /\ holds lx' s' /\ forall (ho : HashOrder) fuel, N <= fuel -> gives (next_kind fuel) lx ks lx'.
  Proof.
    induction 1 as [s|s t s1 ks s2 Hns Hc H IH]; intros lx Ho Hh.
    - exists 0, lx. split; [assumption|]. split; [assumption|]. intros. constructor.
    - destruct (next_free m es gs Hm Ht Hgs lx s Ho Hh Hns) as (N1 & o & lx1 & Hr & HN1).
      destruct (refine m es gs L Hm Hgs HL _ _ _ _ Hh Hr) as (s1' & Hc' & Hh1).
      destruct (call_unique L es gs Hfeed _ _ _ _ _ Hc Hc') as [<- <-].
      destruct (IH lx1 (result_ours m es gs _ _ _ Hr Ho) Hh1) as (N2 & lx' & Ho' & Hh' & HN2).
      exists (Nat.max N1 N2), lx'. split; [assumption|]. split; [assumption|]. intros ho fuel Hf. econstructor; [|apply HN2; lia].
      unfold next_kind. rewrite HN1 by lia. reflexivity.
  Qed.

  Lemma over_end s lx : ours lx -> holds lx s -> over s ->
    exists N lx', forall (ho : HashOrder) fuel, N <= fuel -> next_kind fuel lx = Val (None, lx').
  Proof.
    intros Ho Hh (Hns & s' & Hc). destruct (next_free m es gs Hm Ht Hgs lx s Ho Hh Hns) as (N1 & o & lx1 & Hr & HN1).
    destruct (refine m es gs L Hm Hgs HL _ _ _ _ Hh Hr) as (s1' & Hc' & Hh1).
    destruct (call_unique L es gs Hfeed _ _ _ _ _ Hc Hc') as [<- _]. exists N1, lx1. intros ho fuel Hf. unfold next_kind. rewrite HN1 by lia. reflexivity.
  Qed.

  (** The calls of the specification have no choice. *)
  Lemma lexed_compare s ks s' : lexed s ks s' -> forall ks2 s2, lexed s ks2 s2 ->
    (exists x, ks2 = ks ++ x /\ lexed s' x s2) \/ (exists x, ks = ks2 ++ x /\ lexed s2 x s').
  Proof.
    induction 1 as [s|s t s1 ks s2 Hns Hc H IH]; intros ks2 s3 H2.
    - left. exists ks2. auto.
    - inversion H2 as [|s0 t' s1' ks' s2' Hns' Hc' H']; subst.
      + right. exists (lt_kind t :: ks). split; [reflexivity|]. econstructor; eassumption.
      + destruct (call_unique L es gs Hfeed _ _ _ _ _ Hc Hc') as [Et <-]. injection Et as <-.
        destruct (IH _ _ H') as [(x & -> & Hx)|(x & -> & Hx)]; [left|right]; exists x; split; auto.
  Qed.

  Lemma over_lexed s ks s' : over s -> lexed s ks s' -> ks = [] /\ s' = s.
  Proof.
    intros (_ & s1 & Hc) H. inversion H as [|s0 t s2 ks' s3 Hns Hc' H']; subst; [auto|].
    destruct (call_unique L es gs Hfeed _ _ _ _ _ Hc Hc') as [Et _]. discriminate.
  Qed.

  Lemma stuck_lexed s ks s' : stuck es s -> lexed s ks s' -> ks = [] /\ s' = s.
  Proof. intros Hs H. inversion H; subst; [auto|contradiction]. Qed.

  (** Each token uses up a character. *)
  Lemma call_shorter s t s' : SpecCalls.call L es gs s (Some t) s' -> length (ahead s') < length (ahead s).
  Proof.
    intros H. inversion H as [u v c r i g E Hu Hf Hn Hi Hg Hl| |i g Hne Hi Hg|]; subst.
    - rewrite E. unfold ahead at 1. cbn [h_back h_rest]. rewrite !app_length. cbn [length].
      assert (Er : length (rest_after s (length (u ++ v ++ [c]))) <= length r).
      { unfold rest_after. rewrite skipn_length. pose proof (f_equal (@length _) E) as El. unfold ahead in El. rewrite !app_length in El. cbn [length] in El.
        rewrite !app_length. cbn [length]. lia. }
      assert (0 < length u) by (destruct u; [congruence|cbn; lia]). rewrite !app_length in Er. cbn [length] in Er. lia.
    - unfold ahead at 1. cbn [h_back h_rest]. destruct (ahead s); [congruence|]. cbn. lia.
  Qed.

  (** If no call gets stuck, the tokens come to an end. *)
  Lemma lexed_ends n : forall s lx, length (ahead s) < n -> ours lx -> holds lx s -> (forall ks s', lexed s ks s' -> ~ stuck es s') ->
    exists ks s', lexed s ks s' /\ over s'.
  Proof.
    induction n as [|n IH]; intros s lx Hn Ho Hh Hns; [lia|].
    pose proof (Hns [] s (lexed_nil _ _ _ s)) as Hs. destruct (next_free m es gs Hm Ht Hgs lx s Ho Hh Hs) as (N1 & o & lx1 & Hr & HN1).
    destruct (refine m es gs L Hm Hgs HL _ _ _ _ Hh Hr) as (s1 & Hc & Hh1). destruct o as [t|].
    - destruct (IH s1 lx1) as (ks & s' & Hl & Hov).
      + apply call_shorter in Hc. lia.
      + exact (result_ours m es gs _ _ _ Hr Ho).
      + assumption.
      + intros ks s' Hl. eapply Hns. econstructor; eassumption.
      + exists (lt_kind t :: ks), s'. split; [econstructor; eassumption|assumption].
    - exists [], s. split; [constructor|]. split; [assumption|eauto].
  Qed.
End Lexing.

Section Whole.
  Context {env : Env} {V K : Type} {dv : DecEq V} {dt : DecEq K}.
  Variable teq : K -> K -> bool.
  Hypothesis Hteq : lawful teq.
  Variable g : grammar V K.
  Hypothesis Hgood : good g.
  Variable c : cfsm V K.
  Hypothesis Hc : cfsm_ok g c.
  Variable fs : list (V * list (symbol V K)).
  Hypothesis Hf : exact_follow g fs.
  Variable tb : table V K.
  Hypothesis Htb : table_ok teq g c fs tb.

  Variables (m : nfa) (es : list expr) (gs : list (generator K)) (L : expr -> list char -> Prop).
  Hypothesis Hm : NfaMachineProofs.machine m 2 es.
  Hypothesis Ht : targets_ok m.
  Hypothesis Hgs : length gs = length es.
  Hypothesis HL : agreed L es.
  Hypothesis Hfeed : forall x, matched L es x -> feedable es x.

  Notation entry := (has_entry g fs).
  Notation mmove := (mmove teq g).
  Notation mmoves := (mmoves teq g).
  Notation maccepts := (maccepts g entry).
  Notation mstuck := (mstuck teq g entry).
  Notation mshort := (mshort teq g entry).
  Notation mrefused := (mrefused teq g entry).
  Notation arrives := (arrives L es gs teq g).
  Notation starves := (starves L es gs teq g).
  Notation roams := (roams L es gs teq g).

  Variables (lx : lexer K) (s : SpecCalls.held).
  Hypothesis Ho : ours m es gs lx.
  Hypothesis Hh : holds lx s.

  (** Where the machine stops, the parser stops. *)
  Lemma arrives_stops st rem r : arrives s (st, rem) -> r <> Diverge -> (rem = [] \/ r = Val None \/ r = Panic) ->
    (forall sm, SlrMachine.held c tb st sm -> stops teq tb rem sm r) ->
    exists N, forall (ho : HashOrder) fuel, N <= fuel -> parse_lexer teq fuel tb lx = r.
  Proof.
    intros (ks & s' & k & Hl & Hk & Hend) Hne Hr Hs. cbn [snd] in Hend.
    destruct (lexed_gives m es gs L Hm Ht Hgs HL Hfeed _ _ _ Hl lx Ho Hh) as (N1 & lx' & Ho' & Hh' & HN1).
    destruct rem as [|t ts].
    - destruct Hend as [Hend|Hov]; [congruence|].
      destruct (over_end m es gs L Hm Ht Hgs HL Hfeed _ _ Ho' Hh' Hov) as (N2 & lx2 & HN2).
      exists (Nat.max (Nat.max N1 N2) (2 + k)). intros ho fuel Hfu. unfold parse_lexer.
      rewrite (parse_from_ploop teq tb (next_kind fuel) fuel lx ks).
      2:{ eapply gives_delivers; [apply HN1; lia|apply HN2; lia]. }
      rewrite <- parse_ploop. eapply (run_result teq Hteq g c Hc fs Hf tb Htb k); [exact Hk| |lia]. exact Hs.
    - exists (Nat.max N1 (1 + k)). intros ho fuel Hfu. unfold parse_lexer.
      eapply (source_stops teq Hteq g c Hc fs Hf tb Htb (next_kind fuel) k); [apply HN1; lia|exact Hk| |exact Hs|lia].
      destruct Hr as [Hr|Hr]; [discriminate|exact Hr].
  Qed.

  (** What the parser returns. *)
  Lemma result_arrives (ho : HashOrder) fuel r : parse_lexer teq fuel tb lx = r -> r <> Diverge ->
    exists m', arrives s m' /\ ((exists n, maccepts m' n /\ r = Val (Some n)) \/ (mstuck m' /\ failed r)).
  Proof.
    intros Hr Hne.
    destruct (source_run teq Hteq g Hgood c Hc fs Hf tb Htb (next_kind fuel) (ours m es gs)) with (fuel := fuel) (l := lx) (tok := @None K) (st := @nil (symbol V K * node V K)) (sm := stack0 tb) (r := r)
      as (ks & lE & k & m' & Hg & Hk & Hend & Hres).
    - intros l Hol En. unfold next_kind in En. destruct (lex_next fuel l) as [[o l']| |] eqn:E; cbn in En; try discriminate.
      exact (next_no_panic m es gs Hm Ht Hgs _ _ Hol E).
    - intros l o l' Hol En. apply next_kind_val in En. destruct En as (t & En & _).
      exact (result_ours m es gs _ _ _ (next_val m es gs Hm Ht Hgs _ _ _ _ Hol En) Hol).
    - exact Ho.
    - constructor.
    - exact Hr.
    - exact Hne.
    - destruct (gives_lexed m es gs L Hm Ht Hgs HL _ _ _ _ Hg s Ho Hh) as (s' & Hl & Ho' & Hh').
      exists m'. split; [|exact Hres]. exists ks, s', k. split; [assumption|]. split; [assumption|].
      destruct Hend as [(l' & En)|Hend]; [right; eapply end_over; eassumption|auto].
  Qed.

  (** ** Runs that never end *)

  Notation lexed := (lexed L es gs).

  Lemma mmoves_split ts j m1 : mmoves j (initial ts) m1 -> forall k m2, mmoves k (initial ts) m2 -> j <= k -> mmoves (k - j) m1 m2.
  Proof.
    intros H1. assert (Hst : exists sm, SlrMachine.held c tb (fst (@initial V K ts)) sm) by (exists (stack0 tb); constructor).
    induction H1 as [m1|j m1 m1' m2 Ha Hb IH]; intros k m3 H3 Hle; [rewrite Nat.sub_0_r; assumption|].
    inversion H3 as [|k' ? m' ? Ha' Hb']; subst; [lia|].
    pose proof (mmove_det teq Hteq g c Hc fs Hf tb Htb _ _ _ Hst Ha Ha') as <-. cbn. apply IH; [|assumption|lia].
    destruct Hst as (sm & Hsm). destruct m1 as [st rem], m1' as [st' rem']. cbn [fst] in *.
    destruct (mmove_sim teq Hteq g c Hc fs Hf tb Htb _ _ _ _ _ Hsm Ha) as (sm' & Hsm' & _). eauto.
  Qed.

  Lemma last_moves j k ts m1 m2 : mmoves j (initial ts) m1 -> mmoves k (initial ts) m2 -> (forall m', ~ mmove m1 m') -> k <= j /\ mmoves (j - k) m2 m1.
  Proof.
    intros H1 H2 Hn. assert (Hle : k <= j).
    { destruct (Nat.le_gt_cases k j) as [Hle|Hgt]; [exact Hle|]. pose proof (mmoves_split _ _ _ H1 _ _ H2 (Nat.lt_le_incl _ _ Hgt)) as Hx.
      destruct (k - j) eqn:E; [lia|]. inversion Hx; subst. exfalso. eapply Hn; eassumption. }
    split; [exact Hle|]. eapply mmoves_split; eassumption.
  Qed.

  (** The tokens may be continued as the lexer does. *)
  Lemma arrives_on m1 : arrives s m1 -> (forall m', ~ mmove m1 m') -> forall ks2 s2, lexed s ks2 s2 ->
    exists x k m', (forall m'', ~ mmove m' m'') /\ mmoves k (initial (ks2 ++ x)) m' /\ (x = [] -> (snd m' <> [] \/ over L es gs s2)) /\
      (x <> [] -> ~ stuck es s2).
  Proof.
    intros (ks & s' & k & Hl & Hk & Hend) Hn ks2 s2 Hl2.
    destruct (lexed_compare es gs L Hfeed _ _ _ Hl _ _ Hl2) as [(x & -> & Hx)|(x & -> & Hx)].
    - exists [], k. rewrite app_nil_r. destruct m1 as [st rem]. cbn [snd] in *. destruct Hend as [Hend|Hov].
      + destruct rem as [|t ts]; [congruence|]. exists (st, (t :: ts) ++ x). split; [|split; [|split; [intros _; left; discriminate|congruence]]].
        * intros m'' Hm''. destruct (mmove_any teq g _ _ _ ts _ Hm'') as (m3 & H3). exact (Hn _ H3).
        * apply mmoves_frame. exact Hk.
      + destruct (over_lexed es gs L Hfeed _ _ _ Hov Hx) as [-> ->]. exists (st, rem). rewrite app_nil_r. split; [exact Hn|]. split; [exact Hk|]. split; [auto|congruence].
    - exists x, k, m1. split; [exact Hn|]. split; [exact Hk|]. split.
      + intros ->. inversion Hx; subst. exact Hend.
      + intros Hne Hs. destruct (stuck_lexed es gs L _ _ _ Hs Hx). congruence.
  Qed.

  Lemma arrives_starves m1 : arrives s m1 -> (forall m', ~ mmove m1 m') -> ~ starves s.
  Proof.
    intros Ha Hn (ks & s' & k & m2 & Hl & Hk & Hrem & Hst).
    destruct (arrives_on m1 Ha Hn ks s' Hl) as (x & j & m' & Hn' & Hj & Hx1 & Hx2).
    destruct x as [|t x]; [|exact (Hx2 ltac:(discriminate) Hst)]. rewrite app_nil_r in Hj.
    destruct (last_moves _ _ _ _ _ Hj Hk Hn') as [_ Hmv].
    assert (m' = m2) as ->.
    { inversion Hmv as [|? ? [st1 rem1] ? Hmv1 _]; subst; [reflexivity|]. exfalso. destruct m2 as [st2 rem2]. cbn in Hrem. subst. inversion Hmv1. }
    destruct (Hx1 eq_refl) as [Hx|(Hx & _)]; [congruence|exact (Hx Hst)].
  Qed.

  Lemma arrives_roams m1 : arrives s m1 -> (forall m', ~ mmove m1 m') -> ~ roams s.
  Proof.
    intros Ha Hn (ks & s' & Hl & Hk). destruct (arrives_on m1 Ha Hn ks s' Hl) as (x & j & m' & Hn' & Hj & _).
    destruct (Hk (S j)) as ([st rem] & Hs). apply (mmoves_frame teq g (S j) x) in Hs.
    destruct (last_moves _ _ _ _ _ Hj Hs Hn') as [Hle _]. lia.
  Qed.

  Lemma whole_ok (ho : HashOrder) :
    (forall n, (exists fuel, parse_lexer teq fuel tb lx = Val (Some n)) <-> exists m, arrives s m /\ maccepts m n) /\
    ((exists fuel, failed (parse_lexer teq fuel tb lx)) <-> exists m, arrives s m /\ mstuck m) /\
    ((exists m, arrives s m /\ mshort m) -> exists fuel, parse_lexer teq fuel tb lx = Panic) /\
    ((exists m, arrives s m /\ mrefused m) -> exists fuel, parse_lexer teq fuel tb lx = Val None) /\
    (starves s \/ roams s -> forall fuel, parse_lexer teq fuel tb lx = Diverge) /\
    ((forall fuel, parse_lexer teq fuel tb lx = Diverge) -> (forall ks s', lexed s ks s' -> ~ stuck es s') -> roams s).
  Proof.
    assert (Hacc : forall m n, arrives s m -> maccepts m n -> exists N, forall fuel, N <= fuel -> parse_lexer teq fuel tb lx = Val (Some n)).
    { intros [st rem] n Ha Hx. destruct (arrives_stops st rem (Val (Some n)) Ha) as (N & HN); [discriminate|left; apply Hx| |eauto].
      intros sm Hsm. exact (proj2 (maccepts_stops teq Hteq g c Hc fs Hf tb Htb st rem sm n Hsm Hx)). }
    assert (Hfail : forall st rem r, arrives s (st, rem) -> failed r -> (forall sm, SlrMachine.held c tb st sm -> stops teq tb rem sm r) ->
      exists N, forall fuel, N <= fuel -> parse_lexer teq fuel tb lx = r).
    { intros st rem r Ha Hr Hs. destruct (arrives_stops st rem r Ha) as (N & HN); [destruct Hr; congruence|right; exact Hr|exact Hs|eauto]. }
    assert (Hone : forall st sm1 sm2, SlrMachine.held c tb st sm1 -> SlrMachine.held c tb st sm2 -> sm1 = sm2).
    { intros st sm1 sm2 H1. revert sm2. induction H1 as [|y n k st sm H1 IH Hp]; intros sm2 H2; inversion H2 as [|y' n' k' st' sm' H2' Hp']; subst; [reflexivity|].
      rewrite (IH _ H2'). f_equal. f_equal. eapply (path_fun g c Hc); eassumption. }
    split; [|split; [|split; [|split; [|split]]]].
    - intros n. split.
      + intros (fuel & E). destruct (result_arrives ho fuel _ E) as (m' & Ha & [(n' & Hx & En)|(_ & [En|En])]); try discriminate. injection En as ->. eauto.
      + intros (m' & Ha & Hx). destruct (Hacc _ _ Ha Hx) as (N & HN). exists N. apply HN. lia.
    - split.
      + intros (fuel & E). destruct (result_arrives ho fuel _ eq_refl) as (m' & Ha & [(n' & Hx & En)|(Hx & _)]); [destruct E; congruence| |eauto].
        destruct E; congruence.
      + intros ([st rem] & Ha & Hx). pose proof Ha as (ks & s' & k & _ & Hk & _).
        destruct (held_mmoves teq Hteq g c Hc fs Hf tb Htb k [] ks (stack0 tb) _ (held_nil c tb) Hk) as (sm & Hsm & _). cbn [fst] in Hsm.
        destruct (stuck_stops teq g Hgood c Hc fs Hf tb Htb _ _ _ Hsm Hx) as [Hs|Hs].
        * destruct (Hfail st rem (Val None) Ha) as (N & HN); [left; reflexivity|intros sm2 H2; rewrite (Hone _ _ _ H2 Hsm); exact Hs|].
          exists N. left. apply HN. lia.
        * destruct (Hfail st rem Panic Ha) as (N & HN); [right; reflexivity|intros sm2 H2; rewrite (Hone _ _ _ H2 Hsm); exact Hs|].
          exists N. right. apply HN. lia.
    - intros ([st rem] & Ha & Hx). destruct (Hfail st rem Panic Ha) as (N & HN); [right; reflexivity| |exists N; apply HN; lia].
      intros sm Hsm. eapply mshort_stops; eassumption.
    - intros ([st rem] & Ha & Hx). destruct (Hfail st rem (Val None) Ha) as (N & HN); [left; reflexivity| |exists N; apply HN; lia].
      intros sm Hsm. eapply mrefused_stops; eassumption.
    - intros Hd fuel. destruct (parse_lexer teq fuel tb lx) as [o| |] eqn:E; [| |reflexivity]; exfalso;
        (destruct (result_arrives ho fuel _ E) as (m' & Ha & Hx); [discriminate|];
         assert (Hn : forall m'', ~ mmove m' m'') by
           (destruct Hx as [(n & Hx & _)|(Hx & _)]; [destruct m' as [st rem]; destruct Hx as (-> & _); intros m'' Hm''; inversion Hm''|apply Hx]);
         destruct Hd as [Hd|Hd]; [exact (arrives_starves _ Ha Hn Hd)|exact (arrives_roams _ Ha Hn Hd)]).
    - intros Hd Hns. destruct (lexed_ends m es gs L Hm Ht Hgs HL (S (length (ahead s))) s lx (le_n _) Ho Hh Hns) as (ks & s' & Hl & Hov).
      exists ks, s'. split; [assumption|].
      destruct (lexed_gives m es gs L Hm Ht Hgs HL Hfeed _ _ _ Hl lx Ho Hh) as (N1 & lx' & Ho' & Hh' & HN1).
      destruct (over_end m es gs L Hm Ht Hgs HL Hfeed _ _ Ho' Hh' Hov) as (N2 & lx2 & HN2).
      apply (machine_ok teq Hteq g Hgood c Hc fs Hf tb Htb ks). intros fuel.
      destruct (parse teq fuel tb ks) as [o| |] eqn:E; [| |reflexivity]; exfalso;
        (pose proof (parse_stable teq tb _ _ _ E ltac:(discriminate) (Nat.max fuel (Nat.max N1 N2)) ltac:(lia)) as E';
         specialize (Hd (Nat.max fuel (Nat.max N1 N2))); unfold parse_lexer in Hd;
         rewrite (parse_from_ploop teq tb (next_kind _) _ lx ks), <- parse_ploop in Hd; [congruence|];
         eapply gives_delivers; [apply HN1; lia|apply HN2; lia]).
  Qed.
End Whole.

Section Final.
  Context {env : Env} {ho : HashOrder} {V K : Type} {dv : DecEq V} {dt : DecEq K}.
  Variable teq : K -> K -> bool.
  Hypothesis Hteq : lawful teq.

  Lemma whole_run (g : grammar V K) fuel p tb (ts : list (list char * generator K)) input lx es L :
    built g -> slr_new teq fuel p g = Val tb -> build_lexer ts input = Val (inl lx) -> parsed ts es -> agreed L es ->
    exists e : Prop, (entry_sure g (g_start g) -> e) /\ (e -> entry_possible g (g_start g)) /\
      (forall n, (exists fuel', parse_lexer teq fuel' tb lx = Val (Some n)) <->
        exists m, arrives L es (map snd ts) teq g (starting input) m /\ maccepts g e m n) /\
      ((exists fuel', failed (parse_lexer teq fuel' tb lx)) <->
        exists m, arrives L es (map snd ts) teq g (starting input) m /\ mstuck teq g e m) /\
      ((exists m, arrives L es (map snd ts) teq g (starting input) m /\ mshort teq g e m) -> exists fuel', parse_lexer teq fuel' tb lx = Panic) /\
      ((exists m, arrives L es (map snd ts) teq g (starting input) m /\ mrefused teq g e m) -> exists fuel', parse_lexer teq fuel' tb lx = Val None) /\
      (starves L es (map snd ts) teq g (starting input) \/ roams L es (map snd ts) teq g (starting input) ->
        forall fuel', parse_lexer teq fuel' tb lx = Diverge) /\
      ((forall fuel', parse_lexer teq fuel' tb lx = Diverge) ->
        (forall ks s, lexed L es (map snd ts) (starting input) ks s -> ~ stuck es s) -> roams L es (map snd ts) teq g (starting input)).
  Proof.
    intros Hb H Hlx Hp Ha. destruct (slr_new_parts teq Hteq g Hb _ _ _ H) as (c & fs & _ & Hc & Hf & Htb). exists (has_entry g fs).
    pose proof (built_good g Hb) as Hgood. pose proof (fun x => matched_feedable L ts input lx es x Hlx Hp Ha) as Hfeed.
    destruct (build_state_es ts input lx es Hlx Hp) as [_ Hm Ht Hl Ho Hi].
    split; [intros He; eapply entry_sure_has; eauto|]. split; [intros He; eapply has_entry_possible; eauto|].
    eapply whole_ok; try eassumption. left. rewrite Hi. repeat split.
  Qed.
End Final.
