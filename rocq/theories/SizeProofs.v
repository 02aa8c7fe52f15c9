(** How large the stack and the tree of the parser get. *)
From Verif Require Import Base GrammarModel CfsmModel SlrModel SpecCfg SpecMachine SpecCircle SpecSize.
From Verif Require Import GrammarProofs CfsmProofs TableProofs SlrTable SlrMoves SlrRun SlrFinal SlrMachine SlrLinear SlrWitness SizeModel.

Section Stack.
  Context {V T : Type} {dv : DecEq V} {dt : DecEq T} {ho : HashOrder}.
  Variable teq : T -> T -> bool.
  Variable g : grammar V T.
  Hypothesis Hb : built g.

  (** ** The stack *)

  Lemma reduce_pos fuel p tb cur row k v n : lawful teq -> slr_new teq fuel p g = Val tb ->
    nth_error (tb_action tb) cur = Some row -> row_get teq k row = Some (Reduce v n) -> 0 < n.
  Proof.
    intros Hteq Hn Hr Hg. destruct (slr_new_parts teq Hteq g Hb _ _ _ Hn) as (c & fs & _ & Hc & Hf & Ht).
    assert (Hlt : cur < length (tb_action tb)) by (apply nth_error_Some; congruence).
    apply (to_len _ _ _ _ _ Ht) in Hlt. destruct Hlt as (st & Hin & Hle & _).
    assert (Hs : exists st', In st' (cf_states c) /\ cs_id st' = cur).
    { apply (in_map cs_id) in Hin. rewrite (ok_ids _ _ Hc) in Hin. apply in_seq in Hin.
      assert (Hcur : In cur (map cs_id (cf_states c))) by (rewrite (ok_ids _ _ Hc); apply in_seq; lia).
      apply in_map_iff in Hcur. destruct Hcur as (st' & E & H'). eauto. }
    destruct Hs as (st' & Hin' & E). destruct (ok_reach _ _ Hc st' Hin') as (w & Hp). rewrite E in Hp.
    apply row_get_in in Hg. destruct Hg as (k' & _ & Hg). rewrite <- (nth_error_nth _ _ [] Hr) in Hg.
    apply (row_action teq g c Hc fs Hf tb Ht w cur k' _ Hp) in Hg. destruct k' as [t|]; [|destruct Hg].
    destruct Hg as (x & Hl & <- & _). pose proof (body_nonempty g (built_good g Hb) _ _ _ Hl) as Hne. destruct x; [congruence|cbn; lia].
  Qed.

  Lemma handle_stack fuel p tb tok stack cur tok2 stack' pn : lawful teq -> slr_new teq fuel p g = Val tb ->
    handle_token teq tb tok stack cur = Val (Some (tok2, stack', pn, false)) ->
    (tok <> None /\ tok2 = None /\ stack' = stack) \/ (tok2 = tok /\ length stack' < length stack).
  Proof.
    intros Hteq Hn. unfold handle_token. destruct (nth_error (tb_action tb) cur) as [row|] eqn:Er; [|discriminate]. cbn [of_option bind].
    destruct (row_get teq tok row) as [[d|v n|v n]|] eqn:Eg; try discriminate.
    - destruct tok as [t|]; [|discriminate]. cbn [of_option bind]. intros [= <- <- _]. left. split; [discriminate|]. auto.
    - pose proof (reduce_pos fuel p tb cur row tok v n Hteq Hn Er Eg) as Hpos. unfold drain.
      destruct (Nat.leb_spec n (length stack)) as [Hle|]; [|discriminate]. cbn [bind].
      destruct (hd_error (skipn n stack)) as [top|]; [|discriminate]. cbn [of_option bind].
      destruct (nth_error (tb_goto tb) (snd top)) as [grow|]; [|discriminate]. cbn [of_option bind].
      destruct (mget v grow); [|discriminate]. intros [= <- <- _]. right. split; [reflexivity|]. rewrite skipn_length. lia.
    - unfold drain. destruct (Nat.leb n (length stack)); discriminate.
  Qed.

  Lemma s_eof_loop_ok fuel p tb d : lawful teq -> slr_new teq fuel p g = Val tb -> forall f stack cur, length stack <= d ->
    s_eof_loop teq d f tb stack cur = Some (eof_loop teq f tb stack cur).
  Proof.
    intros Hteq Hn. induction f as [|f IH]; intros stack cur H; [reflexivity|]. cbn [s_eof_loop eof_loop].
    destruct (handle_token teq tb None stack cur) as [[[[[tok2 stack'] pn] []]|]| |] eqn:E; try reflexivity. cbn [bind].
    destruct (handle_stack fuel p tb _ _ _ _ _ _ Hteq Hn E) as [(H1 & _)|(_ & H1)]; [congruence|].
    destruct (Nat.ltb_spec (length stack') d); [|lia]. apply IH. cbn [length]. lia.
  Qed.

  Lemma s_parse_loop_ok fuel p tb d : lawful teq -> slr_new teq fuel p g = Val tb -> forall f inp (tok : option T) stack cur,
    length stack + length inp + (if tok then 1 else 0) <= d ->
    s_parse_loop teq d f tb inp tok stack cur = Some (parse_loop teq next_of_list f tb inp tok stack cur).
  Proof.
    intros Hteq Hn. induction f as [|f IH]; intros inp tok stack cur H; [reflexivity|]. cbn [s_parse_loop parse_loop].
    assert (Hgo : forall t inp', length stack + length inp' + 1 <= d ->
      match handle_token teq tb (Some t) stack cur with
      | Val None => Some (Val None)
      | Val (Some (tok2, stack', pn, accept)) =>
          if accept : bool then Some (Val (Some (fst pn)))
          else if length stack' <? d then s_parse_loop teq d f tb inp' tok2 (pn :: stack') (snd pn) else None
      | Panic => Some Panic
      | Diverge => Some Diverge
      end = Some (let! o := handle_token teq tb (Some t) stack cur in
        match o with
        | None => Val None
        | Some (tok2, stack', pn, accept) =>
            if accept : bool then Val (Some (fst pn)) else parse_loop teq next_of_list f tb inp' tok2 (pn :: stack') (snd pn)
        end)).
    { intros t inp' Hd. destruct (handle_token teq tb (Some t) stack cur) as [[[[[tok2 stack'] pn] []]|]| |] eqn:E; try reflexivity. cbn [bind].
      destruct (handle_stack fuel p tb _ _ _ _ _ _ Hteq Hn E) as [(_ & -> & ->)|(-> & H1)].
      - destruct (Nat.ltb_spec (length stack) d); [|lia]. apply IH. cbn [length]. lia.
      - destruct (Nat.ltb_spec (length stack') d); [|lia]. apply IH. cbn [length]. lia. }
    destruct tok as [t|]; [apply Hgo; lia|]. destruct inp as [|t inp]; cbn [next_of_list bind length] in *.
    - apply (s_eof_loop_ok fuel p tb d Hteq Hn). lia.
    - apply Hgo. lia.
  Qed.

  Lemma s_parse_ok fuel p tb ts d f : lawful teq -> slr_new teq fuel p g = Val tb -> length ts < d ->
    s_parse teq d f tb ts = Some (parse teq f tb ts).
  Proof.
    intros Hteq Hn H. unfold s_parse. destruct (Nat.ltb_spec 0 d); [|lia]. apply (s_parse_loop_ok fuel p tb d Hteq Hn). cbn [length]. lia.
  Qed.

  (** ** The tree *)

  Notation held st := (list_sum (map (fun x => nodes (snd x)) st)).

  Lemma mmoves_nodes k : forall st ts st' ts', mmoves teq g k (st, ts) (st', ts') -> held st' = held st + k.
  Proof.
    induction k as [|k IH]; intros st ts st' ts' H; inversion H as [|? ? [st1 ts1] ? H1 H2]; subst; [lia|]. apply IH in H2.
    enough (held st1 = held st + 1) by lia.
    inversion H1 as [st0 t ts0 t' h a r Hl Ht|popped st0 t ts0 t' h bd h' a r Hl Hf Ht Hlen Hl']; subst; cbn [map list_sum fold_right snd nodes]; [unfold list_sum; lia|].
    rewrite map_app, list_sum_app, map_map. unfold list_sum. lia.
  Qed.

  Lemma sum_firstn k l : list_sum (firstn k l) <= list_sum l.
  Proof. rewrite <- (firstn_skipn k l) at 2. rewrite list_sum_app. lia. Qed.

  Lemma parse_nodes fuel p tb fuel' ts n : lawful teq -> slr_new teq fuel p g = Val tb -> parse teq fuel' tb ts = Val (Some n) ->
    nodes n <= (2 * length ts + 1) * (length (g_rules g) + 1) + 1.
  Proof.
    intros Hteq Hn Hp. destruct (parser_machine teq Hteq g Hb fuel p tb Hn) as (e & _ & _ & Hm). destruct (Hm ts) as (H1 & _).
    destruct (proj1 (H1 n) (ex_intro _ fuel' Hp)) as (k & [st rem] & Hk & Ha).
    assert (Hlt : k < (2 * length ts + 1) * (length (g_rules g) + 1)).
    { destruct (Nat.le_gt_cases ((2 * length ts + 1) * (length (g_rules g) + 1)) k) as [Hle|]; [exfalso|assumption].
      pose proof (proj2 (parse_circle teq Hteq g Hb fuel p tb ts Hn) (long_initial teq g Hb ts k _ Hk Hle) fuel'). congruence. }
    apply mmoves_nodes in Hk. destruct Ha as (_ & _ & bd & _ & _ & ->). cbn [nodes]. rewrite <- firstn_map, map_app, map_map.
    pose proof (sum_firstn (length bd) (map (fun x => nodes (snd x)) st ++ map nodes [bottom g])) as Hs. rewrite list_sum_app in Hs.
    change (list_sum (map nodes [bottom g])) with 1 in Hs. change (held []) with 0 in Hk. rewrite <- map_map in Hk. rewrite <- (map_map snd nodes) in Hs |- *. lia.
  Qed.
End Stack.

Lemma height_nodes {V T} : forall n : node V T, height n <= nodes n.
Proof.
  fix IH 1. intros [s cs]. cbn [height nodes]. apply le_n_S. induction cs as [|c cs IHcs]; cbn [map fold_right list_sum]; [lia|].
  pose proof (IH c). unfold list_sum in IHcs. lia.
Qed.

(** ** Letters *)

Lemma comb_height n : height (comb n) = n + 2.
Proof. induction n as [|n IH]; [reflexivity|]. cbn [comb height map fold_right] in *. rewrite IH. lia. Qed.

Lemma letters_moves n : forall ts, exists k, mmoves Nat.eqb letters k (initial (repeat 0 (S n) ++ 0 :: ts)) ([(var 0, comb n)], 0 :: ts).
Proof.
  assert (L0 : lr0 letters [] (0, [], [var 0; ter 0])) by (apply (lr0_start letters [var 0; ter 0]); [a_rule|constructor; discriminate]).
  assert (L1 : lr0 letters [] (0, [], [ter 0])) by (apply (lr0_start letters [ter 0]); [a_rule|constructor; discriminate]).
  assert (L2 : lr0 letters [ter 0] (0, [ter 0], [])) by (apply (lr0_goto _ _ _ _ _ _ _ _ L1); constructor; discriminate).
  assert (L3 : lr0 letters [var 0] (0, [var 0], [ter 0])) by (apply (lr0_goto _ _ _ _ _ _ _ _ L0); constructor; discriminate).
  assert (L4 : lr0 letters [var 0; ter 0] (0, [var 0; ter 0], [])) by (apply (lr0_goto _ _ _ _ _ _ _ _ L3); constructor; discriminate).
  assert (F : followed_by letters 0 0).
  { exists 0, [], []. split; [eexists; a_rule|]. apply (step_at letters [var 0] [] 0 [var 0; ter 0] []); [constructor|a_rule]. }
  induction n as [|n IH]; intros ts.
  - exists 2. econstructor; [apply (mmove_shift _ _ [] 0 (0 :: ts) 0 _ _ _ L1); reflexivity|]. econstructor; [|constructor].
    apply (mmove_reduce _ _ [(ter 0, Node (ter 0) [])] [] 0 ts 0 0 [ter 0] 0 [] [ter 0] L2 F eq_refl eq_refl L0).
  - destruct (IH (0 :: ts)) as (k & Hk). exists (k + 2). eapply mmoves_app.
    { replace (repeat 0 (S (S n)) ++ 0 :: ts) with (repeat 0 (S n) ++ 0 :: 0 :: ts); [exact Hk|].
      change (0 :: 0 :: ts) with ([0] ++ 0 :: ts). rewrite app_assoc. f_equal. symmetry. exact (repeat_cons (S n) 0). }
    econstructor; [apply (mmove_shift _ _ [(var 0, _)] 0 (0 :: ts) 0 _ _ _ L3); reflexivity|]. econstructor; [|constructor].
    apply (mmove_reduce _ _ [(ter 0, Node (ter 0) []); (var 0, comb n)] [] 0 ts 0 0 [var 0; ter 0] 0 [] [ter 0] L4 F eq_refl eq_refl L0).
Qed.

Lemma letters_comb {ho : HashOrder} fuel p tb n : slr_new Nat.eqb fuel p letters = Val tb ->
  exists fuel', parse Nat.eqb fuel' tb (repeat 0 (S n)) = Val (Some (comb n)).
Proof.
  intros H. destruct (parser_machine Nat.eqb eq_lawful letters letters_built fuel p tb H) as (e & He & _ & Hm).
  assert (L0 : lr0 letters [] (0, [], [var 0; ter 0])) by (apply (lr0_start letters [var 0; ter 0]); [a_rule|constructor; discriminate]).
  assert (L1 : lr0 letters [] (0, [], [ter 0])) by (apply (lr0_start letters [ter 0]); [a_rule|constructor; discriminate]).
  assert (L2 : lr0 letters [ter 0] (0, [ter 0], [])) by (apply (lr0_goto _ _ _ _ _ _ _ _ L1); constructor; discriminate).
  assert (L3 : lr0 letters [var 0] (0, [var 0], [ter 0])) by (apply (lr0_goto _ _ _ _ _ _ _ _ L0); constructor; discriminate).
  assert (L4 : lr0 letters [var 0; ter 0] (0, [var 0; ter 0], [])) by (apply (lr0_goto _ _ _ _ _ _ _ _ L3); constructor; discriminate).
  assert (E : e).
  { apply He. left. exists 0, [], [ter 0]. split; [a_rule|discriminate]. }
  apply (proj1 (Hm (repeat 0 (S n)))). destruct n as [|n].
  - exists 1, ([(ter 0, Node (ter 0) [])], []). split.
    + econstructor; [apply (mmove_shift _ _ [] 0 [] 0 _ _ _ L1); reflexivity|constructor].
    + split; [reflexivity|]. split; [exact E|]. exists [ter 0]. split; [exact L2|]. split; [cbn; lia|reflexivity].
  - destruct (letters_moves n []) as (k & Hk). exists (k + 1), ([(ter 0, Node (ter 0) []); (var 0, comb n)], []). split.
    + eapply mmoves_app.
      * replace (repeat 0 (S (S n))) with (repeat 0 (S n) ++ [0]); [exact Hk|]. symmetry. exact (repeat_cons (S n) 0).
      * econstructor; [apply (mmove_shift _ _ [(var 0, _)] 0 [] 0 _ _ _ L3); reflexivity|constructor].
    + split; [reflexivity|]. split; [exact E|]. exists [var 0; ter 0]. split; [exact L4|]. split; [cbn; lia|reflexivity].
Qed.
