(** How many characters a lexer reads. *)
From Verif Require Import Base RegexModel SpecRegex NfaModel SpecNfa NfaCompileProofs NfaLangProofs NfaSimProofs
  NfaMachineProofs NfaTermProofs LexerModel NfaProofs NfaWitness SpecLexer LexerProofs LexerCallsProofs LexerWitness
  SpecCalls LexerRef CountModel SpecReads.
From Verif Require LexerMunch.

(** ** The counter changes nothing *)
Section Forget.
  Context {env : Env} {ho : HashOrder} {K : Type}.

  Lemma loop_forget fuel : forall steps (lx : lexer K) i runs kind,
    (let! (r, k) := count_loop fuel steps lx i runs kind in Val r) = lex_loop fuel steps lx i runs kind.
  Proof.
    induction steps as [|steps IH]; intros lx i runs kind; cbn [count_loop lex_loop]; destruct (iter_next i) as [[ch|] i1]; try reflexivity.
    - destruct (sim_accepting (lx_nfa lx) runs) as [[|]| |]; reflexivity.
    - destruct (sim_can_feed (lx_nfa lx) runs ch) as [[|]| |]; try reflexivity. cbn [bind negb].
      destruct (sim_feed fuel (lx_nfa lx) runs ch) as [[runs' [|]]| |]; try reflexivity; cbn [bind].
      + destruct (hd_error (sim_final_states (lx_nfa lx) runs')) as [f|]; [|reflexivity]. cbn [of_option bind].
        destruct (find_token f (lx_tokens lx)) as [g|]; [|reflexivity]. cbn [of_option bind]. rewrite <- IH.
        destruct (count_loop fuel steps lx (accept_suffix i1) runs' _) as [[r k]| |]; reflexivity.
      + rewrite <- IH. destruct (count_loop fuel steps lx i1 runs' kind) as [[r k]| |]; reflexivity.
    - destruct (sim_accepting (lx_nfa lx) runs) as [[|]| |]; reflexivity.
  Qed.

  Lemma next_forget fuel (lx : lexer K) : (let! (r, k) := count_next fuel lx in Val r) = lex_next fuel lx.
  Proof. unfold count_next, lex_next. destruct (sim_new fuel (lx_nfa lx)) as [runs| |]; try reflexivity. apply loop_forget. Qed.

  Lemma calls_forget fuel n : forall lx : lexer K, (let! (q, ks) := count_calls fuel n lx in Val q) = lex_calls fuel n lx.
  Proof.
    induction n as [|n IH]; intros lx; [reflexivity|]. cbn [count_calls lex_calls]. rewrite <- next_forget.
    destruct (count_next fuel lx) as [[[o l] k]| |]; try reflexivity. cbn [bind snd fst]. rewrite <- IH.
    destruct (count_calls fuel n l) as [[[os l'] ks]| |]; reflexivity.
  Qed.
End Forget.

(** ** The counts *)
Lemma next_items i : match iter_next i with
  | (None, _) => items i = []
  | (Some ch, i1) => exists p, items i = (p, ch) :: items i1
  end.
Proof.
  unfold iter_next, items. destruct (ii_prev i) as [|[p c] r]; cbn [app].
  - destruct (ii_rest i) as [|c r]; [reflexivity|]. exists (ii_count i). cbn [ii_prev ii_rest ii_count app]. rewrite num_cons. reflexivity.
  - cbn. exists p. reflexivity.
Qed.

Section Loop.
  Context {env : Env} {K : Type}.
  Variables (m : nfa) (es : list expr) (gs : list (generator K)).
  Hypothesis Hm : machine m 2 es.
  Hypothesis Ht : targets_ok m.
  Hypothesis Hgs : length gs = length es.
  Let Hwf : wf_nfa m := proj2 (machine_wf _ _ _ Hm).

  Definition stops (x : list char) (its : list (nat * char)) (k : nat) : Prop :=
    (exists v c r, its = v ++ c :: r /\ live m (x ++ letters v) /\ ~ live m (x ++ letters (v ++ [c])) /\ k = S (length v)) \/
    (live m (x ++ letters its) /\ k = length its).

  Lemma stops_cons x p ch its k : stops (x ++ [ch]) its k -> stops x ((p, ch) :: its) (S k).
  Proof.
    intros [(v & c & r & -> & H1 & H2 & ->)|[H ->]].
    - left. exists ((p, ch) :: v), c, r. rewrite <- app_assoc in H1, H2. repeat split; assumption.
    - right. rewrite <- app_assoc in H. split; [exact H|reflexivity].
  Qed.

  Lemma count_stops {ho : HashOrder} fuel : forall steps (lx : lexer K) i runs kind x r k, lx_nfa lx = m ->
    sim_text fuel m x = Val runs -> live m x -> count_loop fuel steps lx i runs kind = Val (r, k) -> stops x (items i) k.
  Proof.
    induction steps as [|steps IH]; intros lx i runs kind x r k Hn Hs Hl; cbn [count_loop]; pose proof (next_items i) as Hi;
      destruct (iter_next i) as [[ch|] i1]; try discriminate; rewrite Hn.
    1,3: destruct (sim_accepting m runs) as [[|]| |]; try discriminate; intros [= <- <-]; rewrite Hi; right;
      unfold letters; cbn; rewrite app_nil_r; auto.
    destruct Hi as (p & Ei). destruct (sim_text_spec m fuel _ _ Hwf Hs) as [Hr Hin].
    destruct (can_feed_step m runs ch Hwf Ht Hr) as (can & -> & Hcan). cbn [bind].
    assert (Hlive : can = true <-> live m (x ++ [ch])).
    { rewrite Hcan. unfold live. split.
      - intros (r0 & r' & Hr1 & Hc). exists r'. rewrite after_app. cbn [after]. exists r0, r'.
        split; [apply Hin; assumption|]. split; [assumption|constructor].
      - intros (r0 & H). rewrite after_app in H. cbn [after] in H. destruct H as (r1 & r2 & H1 & H2 & _).
        exists r1, r2. split; [apply Hin; assumption|assumption]. }
    destruct can; cbn [negb].
    2:{ intros [= <- <-]. rewrite Ei. left. exists [], (p, ch), (items i1). repeat split.
        - unfold letters. cbn. rewrite app_nil_r. exact Hl.
        - intros X. apply Hlive in X. discriminate. }
    destruct (sim_feed fuel m runs ch) as [[runs' b]| |] eqn:Ef; try discriminate. cbn [bind].
    pose proof (sim_text_snoc m fuel ch _ runs runs' b Hs Ef) as Hs'. rewrite Ei. destruct b.
    - destruct (hd_error (sim_final_states m runs')) as [f|]; [|discriminate]. cbn [of_option bind].
      destruct (find_token f (lx_tokens lx)) as [g|]; [|discriminate]. cbn [of_option bind].
      destruct (count_loop fuel steps lx (accept_suffix i1) runs' _) as [[r' k']| |] eqn:E; try discriminate. intros [= <- <-].
      apply stops_cons. apply (IH _ _ _ _ _ _ _ Hn Hs') in E; [exact E|]. apply Hlive. reflexivity.
    - destruct (count_loop fuel steps lx i1 runs' kind) as [[r' k']| |] eqn:E; try discriminate. intros [= <- <-].
      apply stops_cons. apply (IH _ _ _ _ _ _ _ Hn Hs') in E; [exact E|]. apply Hlive. reflexivity.
  Qed.

  Lemma count_reads {ho : HashOrder} fuel lx s r k : ours m es gs lx -> holds lx s -> count_next fuel lx = Val (r, k) -> reads es s k.
  Proof.
    intros [Hn _] Hh. unfold count_next. rewrite Hn. destruct (sim_new fuel m) as [runs| |] eqn:E; try discriminate. cbn [bind]. intros H.
    assert (Hs : sim_text fuel m [] = Val runs) by (unfold sim_text; rewrite E; reflexivity).
    pose proof (count_stops fuel _ _ _ _ _ _ _ _ Hn Hs (live_nil m) H) as Hk. rewrite (holds_ahead _ _ Hh) in Hk.
    destruct Hk as [(v & c & q & Ea & H1 & H2 & ->)|[H1 ->]].
    - apply (reads_stop es s v c q Ea); [apply (feedable_live m es Hm); exact H1|]. intros X. apply H2. apply (feedable_live m es Hm). exact X.
    - apply reads_all_left. apply (feedable_live m es Hm). exact H1.
  Qed.

  Lemma count_refine {ho : HashOrder} L (HL : agreed L es) fuel n : forall lx s os lx' ks, ours m es gs lx -> holds lx s ->
    count_calls fuel n lx = Val (os, lx', ks) -> read_calls L es gs s os ks.
  Proof.
    induction n as [|n IH]; intros lx s os lx' ks Ho Hh; cbn [count_calls]; [intros [= <- <- <-]; constructor|].
    destruct (count_next fuel lx) as [[[o l] k]| |] eqn:E; try discriminate. cbn [bind fst snd].
    destruct (count_calls fuel n l) as [[[os' l'] ks']| |] eqn:E'; try discriminate. cbn [bind fst snd]. intros [= <- <- <-].
    pose proof (count_reads _ _ _ _ _ Ho Hh E) as Hk. pose proof (next_forget fuel lx) as Ef. rewrite E in Ef. cbn [bind] in Ef. symmetry in Ef.
    pose proof (next_val m es gs Hm Ht Hgs _ _ _ _ Ho Ef) as Hr. pose proof (result_ours m es gs _ _ _ Hr Ho) as Ho'.
    destruct o as [t|].
    - destruct (refine_some m es gs L Hm Hgs HL _ _ _ _ Hh Hr) as (s' & Hc & Hh'). econstructor; eauto.
    - destruct (refine_none m es gs L Hm Hgs HL _ _ _ Hh Hr) as (s' & Hc & Hh'). econstructor; eauto.
  Qed.
End Loop.

(** ** Bounds *)
Section Bounds.
  Context {env : Env} {K : Type}.
  Context (L : expr -> list char -> Prop) (es : list expr) (gens : list (generator K)).

  Lemma rest_after_length s n : n <= length (ahead s) -> length (rest_after s n) <= length (ahead s) - n.
  Proof. unfold rest_after, ahead. rewrite app_length, skipn_length. lia. Qed.
  Lemma all_after_length s n : n <= length (ahead s) -> length (back_after s n ++ rest_after s n) = length (ahead s) - n.
  Proof. unfold rest_after, back_after, ahead. rewrite !app_length, !skipn_length. lia. Qed.

  Lemma reads_le s k : reads es s k -> k <= length (ahead s).
  Proof. intros [v c r E _ _|_]; [|lia]. rewrite E, app_length. cbn. lia. Qed.

  Lemma call_less s o s' : call L es gens s o s' -> length (ahead s') <= length (ahead s) - 1.
  Proof.
    intros [u v c r i g E Hu Hf Hn Hi Hg Hl|v c r E Hf Hn Hl|i g Hne Hi Hg|Hf Ho]; unfold ahead at 1; cbn [h_back h_rest]; try (cbn; lia).
    - assert (El : length (u ++ v ++ [c]) <= length (ahead s)) by (rewrite E, !app_length; cbn; lia).
      pose proof (rest_after_length _ _ El). rewrite !app_length in *. cbn [length] in *. destruct u; [congruence|]. cbn [length] in *. lia.
    - assert (El : length (v ++ [c]) <= length (ahead s)) by (rewrite E, !app_length; cbn; lia).
      rewrite (all_after_length _ _ El). rewrite app_length. cbn [length]. lia.
  Qed.

  Lemma reads_quadratic s os ks : read_calls L es gens s os ks -> 2 * list_sum ks <= length (ahead s) * (length (ahead s) + 1).
  Proof.
    induction 1 as [s|s o s' k os ks Hc Hk H IH]; [cbn; lia|]. cbn [list_sum fold_right]. fold (list_sum ks).
    pose proof (reads_le _ _ Hk). pose proof (call_less _ _ _ Hc). destruct (length (ahead s)) as [|a]; nia.
  Qed.

  Context (Hfeed : forall x, matched L es x -> feedable es x).

  Lemma reads_stopped s v c r k : ahead s = v ++ c :: r -> feedable es (letters v) -> ~ feedable es (letters (v ++ [c])) ->
    reads es s k -> k = S (length v).
  Proof.
    intros E Hf Hn [v' c' r' E' Hf' Hn'|Hf'].
    - rewrite E' in E. destruct (stop_unique es _ _ _ _ _ _ E Hf' Hn' Hf Hn) as (-> & _). reflexivity.
    - exfalso. exact (whole_stop es _ _ _ _ E Hf' Hn).
  Qed.

  Lemma reads_over s k : feedable es (letters (ahead s)) -> reads es s k -> k = length (ahead s).
  Proof. intros H [v c r E Hf Hn|Hf]; [|reflexivity]. exfalso. exact (whole_stop es _ _ _ _ E H Hn). Qed.

  Context (Hsteady : forall u c, u <> [] -> matched L es u -> feedable es (u ++ [c]) -> matched L es (u ++ [c])).

  Lemma steady_cost s o s' k : call L es gens s o s' -> reads es s k -> k + (2 * length (ahead s') - 1) <= 2 * length (ahead s) - 1.
  Proof.
    intros [u v c r i g E Hu Hf Hn Hi Hg Hl|v c r E Hf Hn Hl|i g Hne Hi Hg|Hf Ho] Hk; unfold ahead at 1; cbn [h_back h_rest].
    - assert (v = []) as ->.
      { destruct v as [|x v]; [reflexivity|]. exfalso. apply (Hl [x] v eq_refl); [discriminate|].
        unfold letters. rewrite map_app. apply Hsteady.
        - intros X. apply map_eq_nil in X. contradiction.
        - exact (LexerMunch.first_match_matched _ _ _ _ Hi).
        - unfold letters in Hf. rewrite map_app in Hf. change (x :: v) with ([x] ++ v) in Hf. rewrite map_app, app_assoc in Hf.
          exact (feedable_app _ _ _ Hf). }
      cbn [app] in *. rewrite app_nil_r in Hf. pose proof (reads_stopped _ _ _ _ _ E Hf Hn Hk) as ->.
      assert (El : length (u ++ [c]) <= length (ahead s)) by (rewrite E, !app_length; cbn; lia).
      pose proof (rest_after_length _ _ El) as Hr. rewrite app_length in *. cbn [length] in *. destruct u; [congruence|]. cbn [length] in *. lia.
    - pose proof (reads_stopped _ _ _ _ _ E Hf Hn Hk) as ->.
      assert (El : length (v ++ [c]) <= length (ahead s)) by (rewrite E, !app_length; cbn; lia).
      rewrite (all_after_length _ _ El). rewrite app_length in *. cbn [length] in *. lia.
    - pose proof (reads_le _ _ Hk). assert (0 < length (ahead s)) by (destruct (ahead s); [congruence|cbn; lia]). cbn. lia.
    - pose proof (reads_le _ _ Hk). cbn. lia.
  Qed.

  Lemma reads_linear s os ks : read_calls L es gens s os ks -> list_sum ks <= 2 * length (ahead s) - 1.
  Proof.
    induction 1 as [s|s o s' k os ks Hc Hk H IH]; [cbn; lia|]. cbn [list_sum fold_right]. fold (list_sum ks).
    pose proof (steady_cost _ _ _ _ Hc Hk). lia.
  Qed.
End Bounds.

(** ** Built lexers *)
Section Built.
  Context {env : Env} {K : Type}.

  Lemma ahead_starting input : length (ahead (starting input)) = length input.
  Proof. cbn. unfold places. rewrite combine_length, seq_length. lia. Qed.

  Lemma built_reads (ts : list (list char * generator K)) input lx es (ho : HashOrder) fuel n os lx' ks L :
    build_lexer ts input = Val (inl lx) -> parsed ts es -> agreed L es -> count_calls fuel n lx = Val (os, lx', ks) ->
    read_calls L es (map snd ts) (starting input) os ks.
  Proof.
    intros Hb Hp Ha H. destruct (build_state_es ts input lx es Hb Hp) as [_ Hm Ht Hl Ho Hi].
    apply (count_refine (lx_nfa lx) es (map snd ts) Hm Ht Hl L Ha fuel n lx _ os lx' ks Ho); [|exact H].
    left. rewrite Hi. repeat split.
  Qed.

  Lemma count_same (ho : HashOrder) fuel n (lx : lexer K) os lx' :
    lex_calls fuel n lx = Val (os, lx') <-> exists ks, count_calls fuel n lx = Val (os, lx', ks).
  Proof.
    pose proof (calls_forget fuel n lx) as E. destruct (count_calls fuel n lx) as [[[os' l] ks]| |]; cbn [bind] in E; rewrite <- E; split.
    - intros [= -> ->]. eauto.
    - intros (ks' & [= -> -> ->]). reflexivity.
    - discriminate.
    - intros (ks' & H). discriminate.
    - discriminate.
    - intros (ks' & H). discriminate.
  Qed.

  Lemma built_parsed (ts : list (list char * generator K)) input lx : build_lexer ts input = Val (inl lx) -> exists es, parsed ts es.
  Proof. intros H. destruct (build_state ts input lx H) as (es & [Hp _ _ _ _ _]). eauto. Qed.

  Lemma built_quadratic (ts : list (list char * generator K)) input lx (ho : HashOrder) fuel n os lx' ks :
    build_lexer ts input = Val (inl lx) -> count_calls fuel n lx = Val (os, lx', ks) ->
    2 * list_sum ks <= length input * (length input + 1).
  Proof.
    intros Hb H. destruct (built_parsed _ _ _ Hb) as (es & Hp).
    pose proof (built_reads ts input lx es ho fuel n os lx' ks impl_lang Hb Hp (or_introl eq_refl) H) as Hr.
    apply reads_quadratic in Hr. rewrite ahead_starting in Hr. exact Hr.
  Qed.

  Lemma built_linear (ts : list (list char * generator K)) input lx es (ho : HashOrder) fuel n os lx' ks :
    build_lexer ts input = Val (inl lx) -> parsed ts es -> steady es -> count_calls fuel n lx = Val (os, lx', ks) ->
    list_sum ks <= 2 * length input - 1.
  Proof.
    intros Hb Hp Hs H. pose proof (built_reads ts input lx es ho fuel n os lx' ks impl_lang Hb Hp (or_introl eq_refl) H) as Hr.
    apply reads_linear in Hr; [rewrite ahead_starting in Hr; exact Hr|exact Hs].
  Qed.
End Built.

(** ** Patterns for which the lexer is slow *)
Definition slow_tokens : list (list char * generator nat) :=
  [(str "a"%string, GenUnit (fun _ => 0)); (str "a*b"%string, GenUnit (fun _ => 1))].
Definition slow_es : list expr :=
  [ELit (LMatch ($"a")) None; EConcat [ELit (LMatch ($"a")) (Some QAsterisk); ELit (LMatch ($"b")) None]].
Definition slow_text (n : nat) : list char := repeat ($"a") n ++ [$"c"].

Section Slow.
  Context {env : Env}.
  Notation a := (97%N).

  Lemma slow_parsed : parsed slow_tokens slow_es.
  Proof. repeat constructor. Qed.
  Lemma slow_agreed : agreed lang slow_es.
  Proof. right. split; [reflexivity|]. intros e [<-|[<-|[]]]; reflexivity. Qed.
  Lemma slow_loops e : In e slow_es -> loops_ok e = true.
  Proof. intros [<-|[<-|[]]]; reflexivity. Qed.

  Lemma pow_as n : forall x, lang_pow (fun w => exists c, w = [c] /\ lit_set (LMatch a) c) n x <-> x = repeat a n.
  Proof.
    induction n as [|n IH]; intros x; cbn [lang_pow repeat]; [reflexivity|]. split.
    - intros (u & v & -> & (c & -> & Hc) & Hv). cbn in Hc. subst c. apply IH in Hv. subst v. reflexivity.
    - intros ->. exists [a], (repeat a n). split; [reflexivity|]. split; [exists a; split; reflexivity|]. apply IH. reflexivity.
  Qed.

  Lemma slow_feeds n : feedable slow_es (repeat a n).
  Proof.
    right. exists (nth 1 slow_es EEmpty). split; [right; left; reflexivity|]. apply lead_begun; [reflexivity|].
    apply begun_seq. left. exists n. apply pow_as. reflexivity.
  Qed.
  Lemma slow_stops n : ~ feedable slow_es (repeat a n ++ [99%N]).
  Proof.
    intros [E|(e & He & H)]; [destruct n; discriminate|]. destruct He as [<-|[<-|[]]]; apply lead_begun in H; try reflexivity.
    - destruct H as [E|(c & E & Hc)]; [destruct n; discriminate|]. cbn in Hc. subst c. destruct n as [|[|n]]; discriminate.
    - apply begun_seq in H. assert (Hin : In 99%N (repeat a n ++ [99%N])) by (apply in_app_iff; right; left; reflexivity).
      destruct H as [(k & H)|(u & v & E & (k & _ & Hu) & Hv)].
      + apply pow_as in H. rewrite H in Hin. apply repeat_spec in Hin. discriminate.
      + apply pow_as in Hu. rewrite E in Hin. apply (proj1 (begun_single _ _)) in Hv. apply in_app_iff in Hin. destruct Hin as [Hin|Hin].
        * rewrite Hu in Hin. apply repeat_spec in Hin. discriminate.
        * destruct Hv as [->|(c & -> & Hc)]; [destruct Hin|]. cbn in Hc. subst c. destruct Hin as [Hin|[]]. discriminate.
  Qed.
  Lemma slow_matches n : matched lang slow_es (repeat a n) <-> n = 1.
  Proof.
    split.
    - intros (e & He & H). destruct He as [<-|[<-|[]]].
      + destruct H as (c & E & _). destruct n as [|[|n]]; [discriminate|reflexivity|discriminate].
      + apply lang_seq in H. destruct H as (u & v & E & _ & Hv). apply (proj1 (lang_single _ _)) in Hv. destruct Hv as (c & -> & Hc).
        cbn in Hc. subst c. assert (Hin : In 98%N (repeat a n)) by (rewrite E; apply in_app_iff; right; left; reflexivity).
        apply repeat_spec in Hin. discriminate.
    - intros ->. exists (ELit (LMatch ($"a")) None). split; [left; reflexivity|]. exists a. split; reflexivity.
  Qed.
  Lemma slow_feedable x : matched lang slow_es x -> feedable slow_es x.
  Proof.
    intros (e & He & H). right. exists e. split; [assumption|]. destruct He as [<-|[<-|[]]]; apply lead_begun; try reflexivity; apply lang_begun; exact H.
  Qed.

  Lemma letters_repeat n v : letters v = repeat a n -> length v = n.
  Proof. intros E. apply (f_equal (@length _)) in E. unfold letters in E. rewrite map_length, repeat_length in E. exact E. Qed.

  Lemma slow_reads n : forall s v p os ks, ahead s = v ++ [(p, 99%N)] -> letters v = repeat a n -> length os = n ->
    read_calls lang slow_es (map snd slow_tokens) s os ks -> 2 * list_sum ks = n * (n + 3).
  Proof.
    induction n as [|n IH]; intros s v p os ks Ea Ev Eo H.
    - destruct os; [|discriminate]. inversion H; subst. reflexivity.
    - destruct os as [|o os]; [discriminate|]. inversion H as [|? ? s' k ? ks' Hc Hk Hr]; subst.
      destruct v as [|[q x] v]; [discriminate|]. cbn in Ev. injection Ev as -> Ev. change (letters v = repeat a n) in Ev.
      assert (Hf : feedable slow_es (letters ((q, a) :: v))).
      { change (feedable slow_es (a :: letters v)). rewrite Ev. exact (slow_feeds (S n)). }
      assert (Hn : ~ feedable slow_es (letters (((q, a) :: v) ++ [(p, 99%N)]))).
      { unfold letters. rewrite map_app. cbn [map snd]. change (map snd v) with (letters v). rewrite Ev. exact (slow_stops (S n)). }
      pose proof (reads_stopped _ _ _ _ _ _ Ea Hf Hn Hk) as ->.
      assert (Hcall : call lang slow_es (map snd slow_tokens) s (Some (token_of s [(q, a)] (GenUnit (fun _ => 0))))
        {| h_from := end_of [(q, a)]; h_junk := []; h_back := v ++ [(p, 99%N)]; h_rest := rest_after s (length ([(q, a)] ++ v ++ [(p, 99%N)])) |}).
      { apply (call_token lang slow_es (map snd slow_tokens) s [(q, a)] v (p, 99%N) [] 0); try exact Hf; try exact Hn; try reflexivity.
        - exact Ea.
        - discriminate.
        - split; [exists (ELit (LMatch ($"a")) None); split; [reflexivity|exists a; split; reflexivity]|]. intros j e Hj. lia.
        - intros v1 v2 E Hv1 Hmt. assert (El : letters ([(q, a)] ++ v1) = repeat a (S (length v1))).
          { rewrite E in Ev. unfold letters in Ev. rewrite map_app in Ev. cbn. f_equal. change (letters v1 = repeat a (length v1)).
            assert (Hall : forall y, In y (letters v1) -> y = a).
            { intros y Hy. assert (In y (repeat a n)) by (rewrite <- Ev; apply in_app_iff; left; exact Hy). eapply repeat_spec; eassumption. }
            clear -Hall. induction v1 as [|x v1 IH]; [reflexivity|]. cbn. f_equal; [apply Hall; left; reflexivity|]. apply IH.
            intros y Hy. apply Hall. right. exact Hy. }
          rewrite El in Hmt. apply slow_matches in Hmt. destruct v1; [congruence|discriminate]. }
      destruct (call_unique lang slow_es (map snd slow_tokens) slow_feedable _ _ _ _ _ Hc Hcall) as [-> ->].
      assert (Es : ahead {| h_from := end_of [(q, a)]; h_junk := []; h_back := v ++ [(p, 99%N)]; h_rest := rest_after s (length ([(q, a)] ++ v ++ [(p, 99%N)])) |} = v ++ [(p, 99%N)]).
      { unfold ahead at 1. cbn [h_back h_rest]. assert (Hr0 : length (rest_after s (length ([(q, a)] ++ v ++ [(p, 99%N)]))) <= 0).
        { rewrite rest_after_length; rewrite Ea; cbn; rewrite ?app_length; cbn; lia. }
        destruct (rest_after s _); [apply app_nil_r|cbn in Hr0; lia]. }
      specialize (IH _ v p os ks' Es Ev (eq_add_S _ _ Eo) Hr). pose proof (letters_repeat _ _ Ev) as Elen.
      change (list_sum (S (length ((q, a) :: v)) :: ks')) with (S (length ((q, a) :: v)) + list_sum ks'). cbn [length]. nia.
  Qed.

  Lemma places_app u v : places (u ++ v) = places u ++ combine (seq (length u) (length v)) v.
  Proof. exact (num_app u v 0). Qed.

  Lemma slow_run n : exists lx N, build_lexer slow_tokens (slow_text n) = Val (inl lx) /\
    forall (ho : HashOrder) fuel, N <= fuel -> exists os lx' ks, count_calls fuel n lx = Val (os, lx', ks) /\ 2 * list_sum ks = n * (n + 3).
  Proof.
    assert (Hb : exists lx, build_lexer slow_tokens (slow_text n) = Val (inl lx)) by (eexists; vm_compute; reflexivity).
    destruct Hb as (lx & Hb). destruct (lexer_terminates slow_tokens _ lx slow_es n Hb slow_parsed slow_loops) as (N & os & lx' & H).
    exists lx, N. split; [exact Hb|]. intros ho fuel Hf. specialize (H ho fuel Hf). pose proof H as H0. apply count_same in H0. destruct H0 as (ks & Hks).
    exists os, lx', ks. split; [exact Hks|].
    pose proof (built_reads _ _ _ _ _ _ _ _ _ _ _ Hb slow_parsed slow_agreed Hks) as Hr.
    apply (slow_reads n (starting (slow_text n)) (places (repeat a n)) n os ks); [| |eapply LexerMunch.calls_length; exact H|exact Hr].
    - unfold ahead, starting, slow_text. cbn [h_back h_rest app]. rewrite places_app, repeat_length. reflexivity.
    - unfold places. rewrite repeat_length. exact (eq_trans (f_equal (fun k => map snd (combine (seq 0 k) (repeat a n))) (eq_sym (repeat_length a n))) (num_snd (repeat a n) 0)).
  Qed.

  Lemma slow_unbounded : exists ts : list (list char * generator nat), forall c, exists input lx N n,
    build_lexer ts input = Val (inl lx) /\
    forall (ho : HashOrder) fuel, N <= fuel -> exists os lx' ks, count_calls fuel n lx = Val (os, lx', ks) /\ c * length input < list_sum ks.
  Proof.
    exists slow_tokens. intros c. destruct (slow_run (2 * c + 1)) as (lx & N & Hb & H). exists (slow_text (2 * c + 1)), lx, N, (2 * c + 1).
    split; [exact Hb|]. intros ho fuel Hf. destruct (H ho fuel Hf) as (os & lx' & ks & Hk & Hs). exists os, lx', ks. split; [exact Hk|].
    unfold slow_text. rewrite app_length, repeat_length. cbn [length]. nia.
  Qed.
End Slow.
