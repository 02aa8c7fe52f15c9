(** What one call of [next] does, and the consequences for all the calls. *)
From Verif Require Import Base RegexModel SpecRegex NfaModel SpecNfa NfaCompileProofs NfaLangProofs NfaSimProofs
  NfaMachineProofs NfaTermProofs LexerModel NfaProofs NfaWitness SpecLexer.

(** ** Reading items *)

Definition num (p : nat) (l : list char) : list (nat * char) := combine (seq p (length l)) l.

Lemma num_cons p c l : num p (c :: l) = (p, c) :: num (S p) l.
Proof. reflexivity. Qed.
Lemma num_length p l : length (num p l) = length l.
Proof. unfold num. rewrite combine_length, seq_length. lia. Qed.
Lemma num_snd l : forall p, map snd (num p l) = l.
Proof. induction l as [|c l IH]; intros p; [reflexivity|]. rewrite num_cons. cbn. rewrite IH. reflexivity. Qed.
Lemma num_app l l' : forall p, num p (l ++ l') = num p l ++ num (p + length l) l'.
Proof.
  induction l as [|c l IH]; intros p; cbn [app length]; [rewrite Nat.add_0_r; reflexivity|].
  rewrite !num_cons, IH. cbn. rewrite Nat.add_succ_r. reflexivity.
Qed.
Lemma num_skipn n : forall p l, skipn n (num p l) = num (p + n) (skipn n l).
Proof.
  induction n as [|n IH]; intros p l; [cbn; rewrite Nat.add_0_r; reflexivity|]. destruct l as [|c l]; [reflexivity|].
  rewrite num_cons. cbn [skipn]. rewrite IH. f_equal. lia.
Qed.
Lemma num_firstn n : forall p l, firstn n (num p l) = num p (firstn n l).
Proof.
  induction n as [|n IH]; intros p l; [reflexivity|]. destruct l as [|c l]; [reflexivity|].
  rewrite num_cons. cbn [firstn]. rewrite num_cons, IH. reflexivity.
Qed.

(** The characters the iterator will deliver. *)
Definition items (i : iter) : list (nat * char) := ii_prev i ++ num (ii_count i) (ii_rest i).

(** The iterator after delivering [n] of them. *)
Definition advance (n : nat) (i : iter) (tok : itoken) (suf : list (nat * char)) : iter :=
  {| ii_rest := skipn (n - length (ii_prev i)) (ii_rest i);
     ii_count := ii_count i + (n - length (ii_prev i));
     ii_token := tok; ii_suffix := suf; ii_prev := skipn n (ii_prev i) |}.

Lemma advance_zero i : advance 0 i (ii_token i) (ii_suffix i) = i.
Proof. destruct i. unfold advance. cbn. rewrite Nat.add_0_r. reflexivity. Qed.

Lemma skipn_nth {A} n : forall (l : list A) x, nth_error l n = Some x -> skipn n l = x :: skipn (S n) l.
Proof. induction n as [|n IH]; intros [|a l] x H; try discriminate; [injection H as ->; reflexivity|]. apply IH in H. exact H. Qed.

Lemma firstn_snoc {A} n : forall (l : list A) x, nth_error l n = Some x -> firstn (S n) l = firstn n l ++ [x].
Proof.
  induction n as [|n IH]; intros [|a l] x H; try discriminate; [injection H as ->; reflexivity|].
  cbn in H. change (a :: firstn (S n) l = a :: firstn n l ++ [x]). f_equal. apply IH. assumption.
Qed.

Lemma next_advance n i tok suf :
  match nth_error (items i) n with
  | Some x => iter_next (advance n i tok suf) = (Some (snd x), advance (S n) i tok (suf ++ [x]))
  | None => iter_next (advance n i tok suf) = (None, advance n i tok suf)
  end.
Proof.
  unfold items. destruct (Nat.lt_ge_cases n (length (ii_prev i))) as [Hn|Hn].
  - rewrite nth_error_app1 by assumption. destruct (nth_error (ii_prev i) n) as [[p c]|] eqn:E;
      [|apply nth_error_None in E; lia].
    unfold iter_next, advance. cbn [ii_prev ii_rest ii_count ii_token ii_suffix]. rewrite (skipn_nth _ _ _ E).
    cbn [snd]. replace (n - length (ii_prev i)) with 0 by lia. replace (S n - length (ii_prev i)) with 0 by lia. reflexivity.
  - rewrite nth_error_app2 by assumption. set (d := n - length (ii_prev i)).
    unfold iter_next, advance. cbn [ii_prev ii_rest ii_count ii_token ii_suffix].
    rewrite (skipn_all2 (ii_prev i)) by assumption. fold d.
    assert (Hs : skipn (S n) (ii_prev i) = []) by (apply skipn_all2; lia).
    replace (S n - length (ii_prev i)) with (S d) by lia.
    destruct (nth_error (num (ii_count i) (ii_rest i)) d) as [[p c]|] eqn:E.
    + assert (E' : skipn d (num (ii_count i) (ii_rest i)) = (p, c) :: skipn (S d) (num (ii_count i) (ii_rest i)))
        by (apply skipn_nth; assumption).
      rewrite num_skipn in E'. destruct (skipn d (ii_rest i)) as [|c' r] eqn:Er; [discriminate|].
      rewrite num_cons in E'. injection E' as <- <- _. cbn [snd]. rewrite Hs.
      assert (Er' : skipn (S d) (ii_rest i) = r).
      { clear -Er. revert Er. generalize (ii_rest i). induction d as [|d IH]; intros [|a l] H; try discriminate; [injection H as _ <-; reflexivity|].
        apply IH in H. exact H. }
      rewrite Er'. f_equal. f_equal. lia.
    + apply nth_error_None in E. rewrite num_length in E. rewrite (skipn_all2 (ii_rest i)) by lia. reflexivity.
Qed.

Lemma items_length i : length (items i) = iter_left i.
Proof. unfold items, iter_left. rewrite app_length, num_length. reflexivity. Qed.


Lemma after_nonempty {env : Env} m y : forall (R : run -> Prop) r, after m R y r -> exists r', R r'.
Proof.
  induction y as [|c y IH]; intros R r H; cbn [after] in H; [eauto|]. destruct (IH _ _ H) as (r1 & r0 & _ & H0 & _). eauto.
Qed.

Lemma feed_each_snoc {env : Env} {ho : HashOrder} m fuel c w : forall rs l l' a, feed_each fuel m rs w = Val l -> sim_feed fuel m l c = Val (l', a) ->
  feed_each fuel m rs (w ++ [c]) = Val l'.
Proof.
  induction w as [|d w IH]; intros rs l l' a H H'; cbn [feed_each app] in *.
  - injection H as ->. rewrite H'. reflexivity.
  - destruct (sim_feed fuel m rs d) as [[rs' b]| |]; try discriminate. cbn [bind] in *. eauto.
Qed.
Lemma sim_text_snoc {env : Env} {ho : HashOrder} m fuel c w l l' a : sim_text fuel m w = Val l -> sim_feed fuel m l c = Val (l', a) ->
  sim_text fuel m (w ++ [c]) = Val l'.
Proof. unfold sim_text. destruct (sim_new fuel m); try discriminate. cbn [bind]. apply feed_each_snoc. Qed.

Section Lex.
  Context {env : Env} {K : Type}.
  Variables (m : nfa) (es : list expr) (gs : list (generator K)).
  Hypothesis Hm : machine m 2 es.
  Hypothesis Ht : targets_ok m.
  Hypothesis Hgs : length gs = length es.

  Notation toks := (combine (map snd (placement 2 es)) gs).
  Notation mat := (matched impl_lang es).

  Let Hwf : wf_nfa m := proj2 (machine_wf _ _ _ Hm).

  Definition live (x : list char) : Prop := exists r, after m (init m) x r.

  Lemma live_nil : live [].
  Proof. exists {| r_state := nfa_start m; r_cnt := [] |}. split; [reflexivity|constructor]. Qed.
  Lemma live_app x y : live (x ++ y) -> live x.
  Proof. intros (r & H). rewrite after_app in H. exact (after_nonempty m y _ _ H). Qed.

  Lemma feedable_live x : feedable es x <-> live x.
  Proof. symmetry. exact (machine_begun m 2 es x Hm). Qed.

  (** The simulator was fed all of [x]. *)
  Definition simulated (x : list char) : Prop := exists (ho : HashOrder) fuel rs, sim_text fuel m x = Val rs /\ rs <> [].
  Lemma simulated_live x : simulated x -> live x.
  Proof.
    intros (ho & fuel & rs & H & Hne). destruct rs as [|r rs]; [congruence|]. exists r. apply (sim_text_spec m fuel x _ Hwf H). left. reflexivity.
  Qed.

  Lemma placed_in e : In e es -> exists n f, In (e, n, f) (placement 2 es).
  Proof.
    intros H. apply In_nth_error in H. destruct H as (j & H). destruct (placement_nth es 2 j e H) as (n & f & H').
    apply nth_error_In in H'. eauto.
  Qed.

  Lemma mat_live x : mat x -> live x.
  Proof.
    intros (e & He & Hx). destruct (placed_in e He) as (n & f & Hp).
    apply (machine_lang m 2 es e n f x Hm Hp) in Hx. destruct Hx as (r & Hr & _). exists r. assumption.
  Qed.

  (** The simulator accepts exactly the matched texts. *)
  Lemma accepting_mat x rs : runs_ok m rs -> (forall r, In r rs <-> after m (init m) x r) ->
    exists b, sim_accepting m rs = Val b /\ (b = true <-> mat x).
  Proof.
    intros Hr Hin. destruct (sim_accepting_spec m rs Hr) as (b & Hb & Hb'). exists b. split; [assumption|]. rewrite Hb'. split.
    - intros (r & Hrs & Hf). apply Hin in Hrs. unfold final in Hf. apply (mc_fin _ _ _ Hm) in Hf.
      destruct Hf as [Hf|(e & n & Hp)].
      + destruct (machine_isolated m 2 es x r Hm Hrs); lia.
      + exists e. split; [apply placement_in in Hp; tauto|]. apply (machine_lang m 2 es e n (r_state r) x Hm Hp). eauto.
    - intros (e & He & Hx). destruct (placed_in e He) as (n & f & Hp).
      apply (machine_lang m 2 es e n f x Hm Hp) in Hx. destruct Hx as (r & Hr' & Hf). exists r.
      split; [apply Hin; assumption|]. unfold final. rewrite Hf. apply (mc_fin _ _ _ Hm). eauto.
  Qed.

  Lemma fin_ids j : In j (map st_id (filter st_fin (nfa_states m))) <-> fin_of m j = Some true.
  Proof.
    unfold fin_of. split.
    - intros H. apply in_map_iff in H. destruct H as (st & <- & H). apply filter_In in H. destruct H as [H1 H2].
      rewrite (get_state_unique m st); [cbn; congruence|apply Hm|assumption].
    - destruct (get_state m j) as [st|] eqn:E; [|discriminate]. cbn. intros [= Hf]. apply get_state_id in E. destruct E as [<- Hin].
      apply in_map. apply filter_In. auto.
  Qed.

  (** The lowest final state belongs to the first matching pattern. *)
  Lemma first_final x rs : (forall r, In r rs <-> after m (init m) x r) -> mat x ->
    exists i g f, first_match impl_lang es x i /\ nth_error gs i = Some g /\
      hd_error (sim_final_states m rs) = Some f /\ find_token f toks = Some g.
  Proof.
    intros Hin Hmat. destruct (sim_final_states_spec m rs) as [Hs Hf].
    assert (Hf' : forall f, In f (sim_final_states m rs) <-> exists e n, In (e, n, f) (placement 2 es) /\ impl_lang e x).
    { intros f. rewrite Hf, fin_ids, (mc_fin _ _ _ Hm). split.
      - intros [[H|(e & n & Hp)] (r & Hr & Hrf)].
        + apply Hin in Hr. destruct (machine_isolated m 2 es x r Hm Hr); lia.
        + exists e, n. split; [assumption|]. apply (machine_lang m 2 es e n f x Hm Hp). exists r. split; [apply Hin|]; assumption.
      - intros (e & n & Hp & Hx). split; [eauto|]. apply (machine_lang m 2 es e n f x Hm Hp) in Hx.
        destruct Hx as (r & Hr & Hrf). exists r. split; [apply Hin|]; assumption. }
    destruct (sim_final_states m rs) as [|f r] eqn:E.
    { destruct Hmat as (e & He & Hx). destruct (placed_in e He) as (n & f & Hp).
      assert (X : In f []) by (apply Hf'; eauto). destruct X. }
    destruct (proj1 (Hf' f) (or_introl eq_refl)) as (e & n & Hp & Hx).
    apply In_nth_error in Hp. destruct Hp as (i & Hi).
    assert (Hlt : i < length es).
    { rewrite <- (placement_length es 2). apply nth_error_Some. congruence. }
    assert (He : nth_error es i = Some e).
    { destruct (nth_error es i) as [e'|] eqn:Ee; [|apply nth_error_None in Ee; lia].
      destruct (placement_nth es 2 i e' Ee) as (n' & f' & Hp'). congruence. }
    destruct (nth_error gs i) as [g|] eqn:Eg; [|apply nth_error_None in Eg; lia].
    exists i, g, f. split; [|split; [assumption|split; [reflexivity|]]].
    - split; [eauto|]. intros j e' Hj He' Hx'. destruct (placement_nth es 2 j e' He') as (n' & f' & Hp').
      pose proof (placement_order es 2 j i _ _ _ _ _ _ Hp' Hi Hj) as Hff.
      assert (Hin' : In f' (f :: r)) by (apply Hf'; exists e', n'; split; [eapply nth_error_In; eassumption|assumption]).
      destruct Hin' as [->|Hin']; [lia|]. cbn in Hs. destruct Hs as [_ Hs]. apply (sorted_ids_lower _ _ _ Hs) in Hin'. lia.
    - clear -Hi Eg. revert i Hi gs Eg. generalize 2 as k. induction es as [|e0 l IH]; intros k i Hi gs Eg; [destruct i; discriminate|].
      cbn [placement map] in *. destruct gs as [|g0 gs']; [destruct i; discriminate|]. cbn [combine snd find_token].
      destruct i as [|i]; cbn in Hi, Eg.
      + injection Hi as _ _ <-. injection Eg as ->. rewrite Nat.eqb_refl. reflexivity.
      + destruct (Nat.eqb_spec f k) as [->|].
        * apply nth_error_In, placement_in in Hi. lia.
        * eapply IH; eassumption.
  Qed.

  (** ** One call *)

  Section Call.
    Variable lx : lexer K.
    Hypothesis Hnfa : lx_nfa lx = m.
    Hypothesis Htok : lx_tokens lx = toks.
    Notation i0 := (lx_iter lx).
    Notation its := (items (lx_iter lx)).

    Definition txt (n : nat) : list char := map snd (firstn n its).

    Lemma txt_S n x : nth_error its n = Some x -> txt (S n) = txt n ++ [snd x].
    Proof. intros H. unfold txt. rewrite (firstn_snoc n _ _ H), map_app. reflexivity. Qed.
    Lemma txt_length n : n <= length its -> length (txt n) = n.
    Proof. intros H. unfold txt. rewrite map_length, firstn_length. clear -H. lia. Qed.

    Definition last_match (a b : nat) : Prop :=
      a <= b /\ (a = 0 \/ mat (txt a)) /\ forall n, a < n <= b -> ~ mat (txt n).

    Definition tok_at (a : nat) : itoken :=
      match a with
      | 0 => ii_token i0
      | S a' => {| it_source := it_source (ii_token i0) ++ map snd (ii_suffix i0) ++ txt a;
                   it_pos := (fst (it_pos (ii_token i0)), fst (nth a' its (0, 0%N)) + 1) |}
      end.
    Definition suf_at (a n : nat) : list (nat * char) :=
      match a with 0 => ii_suffix i0 ++ firstn n its | S _ => skipn a (firstn n its) end.

    Definition kind_at (a : nat) (k : option K) : Prop :=
      match a with
      | 0 => k = None
      | S _ => exists i g, first_match impl_lang es (txt a) i /\ nth_error gs i = Some g /\
                 k = Some (gen_run g (it_source (tok_at a)))
      end.

    Lemma suf_S a n x : a <= n -> nth_error its n = Some x -> suf_at a n ++ [x] = suf_at a (S n).
    Proof.
      intros Ha H. pose proof (firstn_snoc n _ _ H) as E. assert (Hn : n < length its) by (apply nth_error_Some; congruence).
      destruct a as [|a]; cbn [suf_at]; rewrite E; [rewrite app_assoc; reflexivity|].
      rewrite skipn_app. f_equal. rewrite firstn_length. replace (S a - Nat.min n (length its)) with 0 by lia. reflexivity.
    Qed.

    Lemma accept_at a n x : a <= n -> nth_error its n = Some x ->
      accept_suffix (advance (S n) i0 (tok_at a) (suf_at a (S n))) = advance (S n) i0 (tok_at (S n)) (suf_at (S n) (S n)).
    Proof.
      intros Ha H. assert (Hn : n < length its) by (apply nth_error_Some; congruence).
      unfold accept_suffix, advance. cbn [ii_rest ii_count ii_token ii_suffix ii_prev]. f_equal.
      - rewrite <- (suf_S a n x Ha H). rewrite !map_app. change (map fst [x]) with [fst x]. rewrite last_last. change (map snd [x]) with [snd x]. unfold tok_at at 3.
        assert (Hx : nth n its (0, 0%N) = x) by (apply nth_error_nth; assumption). rewrite Hx.
        assert (Hp : fst (it_pos (tok_at a)) = fst (it_pos (ii_token i0))) by (destruct a; reflexivity). rewrite Hp.
        f_equal. rewrite (txt_S n x H).
        destruct a as [|a]; cbn [tok_at suf_at it_source].
        + rewrite map_app. fold (txt n). rewrite !app_assoc. reflexivity.
        + assert (E : txt n = txt (S a) ++ map snd (skipn (S a) (firstn n its))).
          { unfold txt. rewrite <- map_app. f_equal. rewrite <- (firstn_skipn (S a) (firstn n its)) at 1. f_equal.
            rewrite firstn_firstn. f_equal. lia. }
          rewrite E. rewrite <- !app_assoc. reflexivity.
      - cbn [suf_at]. symmetry. apply skipn_all2. rewrite firstn_length. lia.
    Qed.

    (** Result of a call that read the live text [txt b], with the last match
        [txt a]. *)
    Definition call_result (o : option (ltoken K)) (lx' : lexer K) : Prop :=
      exists b a, b <= length its /\ simulated (txt b) /\ last_match a b /\
        ((b < length its /\ ~ live (txt (S b)) /\
          exists k, kind_at a k /\ emit lx (advance (S b) i0 (tok_at a) (suf_at a (S b))) k = (o, lx')) \/
         (b = length its /\ a = b /\
          exists k, kind_at a k /\ emit lx (advance b i0 (tok_at a) (suf_at a b)) k = (o, lx')) \/
         (b = length its /\ a < b /\ ~ mat (txt b) /\ o = None /\
          lx' = lx_with_iter lx (advance b i0 (tok_at a) (suf_at a b)))).

    Section Order.
      Context {ho : HashOrder}.

      Lemma loop_spec fuel : forall steps n a runs kind,
        n + steps = length its -> sim_text fuel m (txt n) = Val runs ->
        live (txt n) -> last_match a n -> kind_at a kind ->
        lex_loop fuel steps lx (advance n i0 (tok_at a) (suf_at a n)) runs kind = Diverge \/
        exists o lx', lex_loop fuel steps lx (advance n i0 (tok_at a) (suf_at a n)) runs kind = Val (o, lx') /\ call_result o lx'.
      Proof.
        induction steps as [|steps IH]; intros n a runs kind Hn Hsim Hlive Hlast Hkind.
        all: destruct (sim_text_spec m fuel _ _ Hwf Hsim) as [Hr Hin].
        all: assert (Hfeed : simulated (txt n)) by
          (exists ho, fuel, runs; split; [assumption|]; destruct Hlive as (r & Hl); apply Hin in Hl; intros ->; destruct Hl).
        - pose proof (next_advance n i0 (tok_at a) (suf_at a n)) as Hnext.
          destruct (nth_error its n) as [x|] eqn:Ex; [assert (n < length its) by (apply nth_error_Some; congruence); lia|].
          cbn [lex_loop]. rewrite Hnext, Hnfa. destruct (accepting_mat (txt n) runs Hr Hin) as (b & -> & Hb). cbn [bind].
          right. destruct b.
          + assert (Hmat : mat (txt n)) by (apply Hb; reflexivity).
            destruct (emit lx (advance n i0 (tok_at a) (suf_at a n)) kind) as [o lx'] eqn:Ee. exists o, lx'. split; [reflexivity|].
            exists n, a. split; [lia|]. split; [assumption|]. split; [assumption|]. right. left. split; [lia|]. split; [|eauto].
            destruct Hlast as (H1 & H2 & H3). destruct (Nat.eq_dec a n); [assumption|]. exfalso. apply (H3 n); [lia|assumption].
          + assert (Hmat : ~ mat (txt n)) by (intros H; apply Hb in H; discriminate).
            do 2 eexists. split; [reflexivity|]. exists n, a. split; [lia|]. split; [assumption|]. split; [assumption|].
            pose proof Hlast as (H1 & H2 & H3). destruct (Nat.eq_dec a n) as [->|].
            * destruct H2 as [->|H2]; [|contradiction]. right. left. split; [lia|]. split; [reflexivity|]. exists None. split; reflexivity.
            * right. right. split; [lia|]. split; [lia|]. auto.
        - destruct (nth_error its n) as [x|] eqn:Ex; [|apply nth_error_None in Ex; lia].
          pose proof (next_advance n i0 (tok_at a) (suf_at a n)) as Hnext. rewrite Ex in Hnext.
          pose proof Hlast as (Han & Hma & Hno). rewrite (suf_S a n x Han Ex) in Hnext.
          cbn [lex_loop]. rewrite Hnext, Hnfa.
          destruct (can_feed_step m runs (snd x) Hwf Ht Hr) as (can & -> & Hcan). cbn [bind].
          assert (Hlive' : can = true <-> live (txt (S n))).
          { rewrite Hcan, (txt_S n x Ex). unfold live. split.
            - intros (r & r' & Hr1 & Hc). exists r'. rewrite after_app. cbn [after]. exists r, r'.
              split; [apply Hin; assumption|]. split; [assumption|constructor].
            - intros (r & H). rewrite after_app in H. cbn [after] in H. destruct H as (r1 & r2 & H1 & H2 & _).
              exists r1, r2. split; [apply Hin; assumption|assumption]. }
          destruct can; cbn [negb].
          2:{ right. destruct (emit lx (advance (S n) i0 (tok_at a) (suf_at a (S n))) kind) as [o lx'] eqn:Ee.
              exists o, lx'. split; [reflexivity|]. exists n, a. split; [lia|]. split; [assumption|]. split; [assumption|].
              left. split; [lia|]. split; [|eauto]. intros H. apply Hlive' in H. discriminate. }
          assert (HliveS : live (txt (S n))) by (apply Hlive'; reflexivity).
          unfold sim_feed. pose proof (feed_runs_no_panic m fuel runs (snd x) Hwf Hr) as Hnp.
          destruct (feed_runs fuel m runs (snd x)) as [runs'| |] eqn:Ef; cbn [bind]; [|congruence|left; reflexivity].
          pose proof (feed_runs_ok m fuel runs (snd x) runs' Hwf Hr Ef) as Hr'.
          assert (Hsim' : sim_text fuel m (txt (S n)) = Val runs').
          { rewrite (txt_S n x Ex). destruct (sim_accepting_spec m runs' Hr') as (b & Hb & _).
            eapply (sim_text_snoc m fuel (snd x) _ runs runs' b); [eassumption|]. unfold sim_feed. rewrite Ef. cbn [bind]. rewrite Hb. reflexivity. }
          destruct (sim_text_spec m fuel _ _ Hwf Hsim') as [_ Hin'].
          destruct (accepting_mat (txt (S n)) runs' Hr' Hin') as (b & -> & Hb). cbn [bind]. destruct b.
          + rewrite (accept_at a n x Han Ex).
            assert (Hmat : mat (txt (S n))) by (apply Hb; reflexivity).
            destruct (first_final (txt (S n)) runs' Hin' Hmat) as (i & g & f & Hi & Hg & Hf & Hfind).
            rewrite Hf. cbn [of_option bind]. rewrite Htok, Hfind. cbn [of_option bind].
            apply (IH (S n) (S n) runs'); try assumption; [lia| |].
            * split; [lia|]. split; [right; assumption|]. intros j Hj. lia.
            * exists i, g. split; [assumption|]. split; [assumption|]. reflexivity.
          + apply (IH (S n) a runs'); try assumption; [lia|].
            split; [lia|]. split; [assumption|]. intros j Hj. destruct (Nat.eq_dec j (S n)) as [->|]; [|apply Hno; lia].
            intros H. apply Hb in H. discriminate.
      Qed.

      Lemma next_spec fuel : lex_next fuel lx = Diverge \/
        exists o lx', lex_next fuel lx = Val (o, lx') /\ call_result o lx'.
      Proof.
        unfold lex_next. rewrite Hnfa. pose proof (sim_new_no_panic m fuel Hwf) as Hnp.
        destruct (sim_new fuel m) as [runs| |] eqn:E; cbn [bind]; [|congruence|left; reflexivity].
        pose proof (loop_spec fuel (iter_left i0) 0 0 runs None) as H. rewrite <- items_length in H.
        unfold tok_at, suf_at in H. cbn [firstn] in H. rewrite app_nil_r, advance_zero in H.
        rewrite <- items_length. apply H; try assumption; try reflexivity.
        - unfold sim_text. rewrite E. reflexivity.
        - exact live_nil.
        - split; [lia|]. split; [left; reflexivity|]. intros n Hn. lia.
      Qed.

      Lemma loop_total fuel : (forall n, exists U, (forall r, after m (init m) (txt n) r -> In r U) /\ length U <= fuel) ->
        forall steps n i runs kind, iter_left i <= steps -> runs_ok m runs -> (forall r, In r runs <-> after m (init m) (txt n) r) ->
        (forall j, nth_error (items i) j = nth_error its (n + j)) ->
        lex_loop fuel steps lx i runs kind <> Diverge.
      Proof.
        intros HU. induction steps as [|steps IH]; intros n i runs kind Hn Hr Hin Hj.
        - pose proof (next_advance 0 i (ii_token i) (ii_suffix i)) as Hnext. rewrite advance_zero in Hnext.
          destruct (nth_error (items i) 0) as [x|] eqn:Ex.
          + assert (0 < length (items i)) by (apply nth_error_Some; congruence). rewrite items_length in *. lia.
          + cbn [lex_loop]. rewrite Hnext. rewrite Hnfa. destruct (sim_accepting_spec m runs Hr) as (b & -> & _). cbn [bind].
            destruct b; [destruct (emit _ _ _)|]; discriminate.
        - pose proof (next_advance 0 i (ii_token i) (ii_suffix i)) as Hnext. rewrite advance_zero in Hnext.
          cbn [lex_loop]. destruct (nth_error (items i) 0) as [x|] eqn:Ex; rewrite Hnext, Hnfa.
          2:{ destruct (sim_accepting_spec m runs Hr) as (b & -> & _). cbn [bind].
              destruct b; [destruct (emit _ _ _)|]; discriminate. }
          destruct (sim_can_feed_spec m runs (snd x) Hr) as (can & -> & _). cbn [bind].
          destruct can; cbn [negb]; [|discriminate].
          assert (Ex' : nth_error its n = Some x) by (rewrite <- Ex, Hj, Nat.add_0_r; reflexivity).
          destruct (HU (S n)) as (U & HU1 & HU2). rewrite (txt_S n x Ex') in HU1.
          destruct (feed_runs_total m U fuel runs (snd x) Hwf Hr) as (runs' & Ef); [|assumption|].
          { intros r Hf. apply HU1. rewrite after_app. cbn [after]. eapply fed_ext; [|exact Hf]. intros y. symmetry. apply Hin. }
          unfold sim_feed. rewrite Ef. cbn [bind]. pose proof (feed_runs_ok m fuel runs (snd x) runs' Hwf Hr Ef) as Hr'.
          assert (Hin' : forall r, In r runs' <-> after m (init m) (txt (S n)) r).
          { intros r. rewrite (feed_runs_spec m fuel runs (snd x) runs' Hwf Hr Ef), (txt_S n x Ex'), after_app. cbn [after].
            apply fed_ext. exact Hin. }
          destruct (sim_accepting_spec m runs' Hr') as (b & -> & _). cbn [bind].
          assert (Hj' : forall tok suf j, nth_error (items (advance 1 i tok suf)) j = nth_error its (S n + j)).
          { intros tok suf j. replace (S n + j) with (n + S j) by lia. rewrite <- Hj.
            unfold items, advance. cbn [ii_prev ii_rest ii_count].
            destruct (ii_prev i) as [|y r]; cbn [length skipn app].
            - rewrite Nat.sub_0_r. destruct (ii_rest i) as [|c r]; [destruct j; reflexivity|].
              rewrite num_cons. cbn [skipn nth_error]. rewrite Nat.add_1_r. reflexivity.
            - rewrite Nat.sub_succ, Nat.sub_0_l, Nat.add_0_r. cbn [skipn]. reflexivity. }
          assert (Hl : forall tok suf, iter_left (advance 1 i tok suf) <= steps).
          { intros tok suf. rewrite <- items_length in *. clear -Hn Ex. unfold items, advance in *. cbn [ii_prev ii_rest ii_count].
            destruct (ii_prev i) as [|y r]; cbn [length skipn app] in *.
            - rewrite Nat.sub_0_r. rewrite num_length in *. rewrite skipn_length. lia.
            - rewrite Nat.sub_succ, Nat.sub_0_l, Nat.add_0_r. cbn [skipn]. lia. }
          destruct b.
          + destruct (hd_error (sim_final_states m runs')); cbn [of_option bind]; [|discriminate].
            destruct (find_token n0 (lx_tokens lx)); cbn [of_option bind]; [|discriminate].
            apply (IH (S n)); try assumption.
            * apply (Hl (ii_token (accept_suffix (advance 1 i (ii_token i) (ii_suffix i ++ [x])))) []).
            * intros j. apply (Hj' (ii_token (accept_suffix (advance 1 i (ii_token i) (ii_suffix i ++ [x])))) [] j).
          + apply (IH (S n)); [apply Hl|assumption|assumption|apply Hj'].
      Qed.

      Lemma next_total fuel : length (nfa_states m) <= fuel ->
        (forall n, exists U, (forall r, after m (init m) (txt n) r -> In r U) /\ length U <= fuel) ->
        lex_next fuel lx <> Diverge.
      Proof.
        intros Hf HU. unfold lex_next. rewrite Hnfa. destruct (static_closure_total m fuel Hwf Hf) as (ps & Hps).
        assert (E : sim_new fuel m = Val (map (fun i => {| r_state := i; r_cnt := [] |}) ps)) by (unfold sim_new; rewrite Hps; reflexivity).
        rewrite E. cbn [bind]. destruct (sim_new_spec m fuel _ Hwf E) as [Hr Hin].
        apply (loop_total fuel HU _ 0); try assumption; [lia|]. intros j. reflexivity.
      Qed.
    End Order.
  End Call.
End Lex.
