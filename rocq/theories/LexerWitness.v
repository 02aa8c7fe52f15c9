(** From the builder to the properties of the lexer; witnesses. *)
From Verif Require Import Base RegexModel SpecRegex NfaModel SpecNfa NfaCompileProofs NfaLangProofs NfaSimProofs
  NfaMachineProofs NfaTermProofs LexerModel NfaProofs NfaWitness SpecLexer LexerProofs LexerCallsProofs.

Lemma parsed_unique {env : Env} {B} (ts : list (list char * B)) es es' : parsed ts es -> parsed ts es' -> es = es'.
Proof.
  intros H. revert es'. induction H as [|t e ts es He _ IH]; intros es' H'; inversion H' as [|? e' ? es'' He' H'']; subst; [reflexivity|].
  f_equal; [congruence|auto].
Qed.

Section Built.
  Context {env : Env} {K : Type}.

  Record lexer_state (ts : list (list char * generator K)) (input : list char) (lx : lexer K) (es : list expr) : Prop := {
    ls_parsed : parsed ts es;
    ls_machine : machine (lx_nfa lx) 2 es;
    ls_targets : targets_ok (lx_nfa lx);
    ls_length : length (map snd ts) = length es;
    ls_ours : ours (lx_nfa lx) es (map snd ts) lx;
    ls_iter : lx_iter lx = iter_new input
  }.

  Lemma build_state ts input lx : build_lexer ts input = Val (inl lx) -> exists es, lexer_state ts input lx es.
  Proof.
    unfold build_lexer. intros H. destruct (@lexgen_new K) as [lg0| |] eqn:E0; try discriminate. cbn [bind] in H.
    destruct (add_tokens lg0 ts) as [[lg|errs]| |] eqn:Ea; try discriminate. cbn [bind] in H.
    destruct (tokens_state lg0 lg ts E0 Ea) as (es & Hes & (Hm & Htok & Hlen) & Hb). unfold tokenize in H.
    destruct (machine_wf _ _ _ Hm) as [Hc _]. unfold compiler_compile in H. rewrite Hc in H. cbn [bind] in H. injection H as <-.
    exists es. split; cbn [lx_nfa lx_tokens lx_iter]; try assumption; try reflexivity.
    - apply built_targets. assumption.
    - split; [reflexivity|assumption].
  Qed.

  Lemma build_state_es ts input lx es : build_lexer ts input = Val (inl lx) -> parsed ts es -> lexer_state ts input lx es.
  Proof.
    intros H Hp. destruct (build_state ts input lx H) as (es' & Hs). rewrite (parsed_unique _ _ _ Hp (ls_parsed _ _ _ _ Hs)). exact Hs.
  Qed.

  Lemma agreed_iff (L : expr -> list char -> Prop) es e x : agreed L es -> In e es -> (L e x <-> impl_lang e x).
  Proof. intros [->|[-> Hl]] Hin; [reflexivity|]. symmetry. apply impl_lang_lead. auto. Qed.
  Lemma agreed_matched L es x : agreed L es -> (matched L es x <-> matched impl_lang es x).
  Proof. intros Ha. split; intros (e & He & Hx); exists e; (split; [assumption|]); apply (agreed_iff L es e x Ha He); assumption. Qed.
  Lemma agreed_first L es x i : agreed L es -> first_match impl_lang es x i -> first_match L es x i.
  Proof.
    intros Ha [(e & He & Hx) H]. split.
    - exists e. split; [assumption|]. apply (agreed_iff L es e x Ha); [eapply nth_error_In; eassumption|assumption].
    - intros j e' Hj He' Hx'. apply (H j e' Hj He'). apply (agreed_iff L es e' x Ha); [eapply nth_error_In; eassumption|assumption].
  Qed.

  Lemma feedable_app es x y : feedable es (x ++ y) -> feedable es x.
  Proof.
    intros [H|(e & He & H)]; [apply app_eq_nil in H; left; apply H|]. right. exists e. split; [assumption|].
    eapply impl_begun_app. exact H.
  Qed.
  Lemma steady_resumable es : steady es -> resumable es.
  Proof.
    intros Hst u s Hu Hmat Hno Hf. destruct s as [|c s]; [left; reflexivity|].
    exfalso. apply (Hno [c] s eq_refl); [discriminate|]. apply Hst; try assumption.
    assert (E : u ++ c :: s = (u ++ [c]) ++ s) by (rewrite <- app_assoc; reflexivity). rewrite E in Hf. exact (feedable_app _ _ _ Hf).
  Qed.

  Section On.
    Variables (ts : list (list char * generator K)) (input : list char) (lx : lexer K) (es : list expr).
    Hypothesis Hbuild : build_lexer ts input = Val (inl lx).
    Hypothesis Hparsed : parsed ts es.
    Let Hs : lexer_state ts input lx es := build_state_es _ _ _ _ Hbuild Hparsed.
    Notation m := (lx_nfa lx).
    Notation gs := (map snd ts).

    Lemma start_fresh : fresh lx.
    Proof. unfold fresh. rewrite (ls_iter _ _ _ _ Hs). split; reflexivity. Qed.

    Lemma start_ready : ready m input lx 0.
    Proof.
      unfold ready. split; [exact start_fresh|]. rewrite (ls_iter _ _ _ _ Hs). cbn.
      repeat split; try reflexivity; [lia|]. apply live_nil.
    Qed.

    Lemma lexer_kinds (ho : HashOrder) fuel n os lx' t L : agreed L es -> lex_calls fuel n lx = Val (os, lx') ->
      In t (before_none os) ->
      exists i g, first_match L es (lt_source t) i /\ nth_error gs i = Some g /\ lt_kind t = gen_run g (lt_source t).
    Proof.
      intros Ha H Hin. destruct Hs as [_ Hm Ht Hl Ho _].
      destruct (calls_first m es gs Hm Ht Hl fuel os n lx lx' t Ho start_fresh H Hin) as (i & g & Hi & Hg).
      exists i, g. split; [apply agreed_first; assumption|assumption].
    Qed.

    Lemma lexer_all_kinds (ho : HashOrder) fuel n os lx' t L : agreed L es -> lex_calls fuel n lx = Val (os, lx') ->
      In (Some t) os ->
      exists junk x i g, lt_source t = junk ++ x /\ x <> [] /\ first_match L es x i /\ nth_error gs i = Some g /\
        lt_kind t = gen_run g (lt_source t).
    Proof.
      intros Ha H Hin. destruct Hs as [_ Hm Ht Hl Ho _].
      destruct (calls_kind m es gs Hm Ht Hl fuel os n lx lx' t Ho H Hin) as (junk & x & i & g & H1 & H2 & H3 & H4).
      exists junk, x, i, g. split; [assumption|]. split; [assumption|]. split; [apply agreed_first; assumption|assumption].
    Qed.

    Lemma lexer_tiles (ho : HashOrder) fuel n os lx' : resumable es -> lex_calls fuel n lx = Val (os, lx') ->
      tiles input 0 (before_none os).
    Proof.
      intros Hr H. destruct Hs as [_ Hm Ht Hl Ho _].
      exact (calls_tile m es gs Hm Ht Hl input Hr fuel os n lx lx' 0 Ho start_ready H).
    Qed.

    Lemma lexer_longest (ho : HashOrder) fuel n os lx' t L : agreed L es -> resumable es -> lex_calls fuel n lx = Val (os, lx') ->
      In t (before_none os) -> forall x y, skipn (fst (lt_pos t)) input = x ++ y -> length (lt_source t) < length x -> ~ matched L es x.
    Proof.
      intros Ha Hr H Hin x y E Hlt. rewrite (agreed_matched L es x Ha). destruct Hs as [_ Hm Ht Hl Ho _].
      exact (calls_longest m es gs Hm Ht Hl input Hr fuel os n lx lx' 0 t Ho start_ready H Hin x y E Hlt).
    Qed.

    Lemma lexer_first_none (ho : HashOrder) fuel n tks rest lx' L : agreed L es -> resumable es ->
      lex_calls fuel n lx = Val (map Some tks ++ None :: rest, lx') ->
      let left := skipn (consumed tks) input in
      (feedable es left /\ ~ (left <> [] /\ matched L es left) /\ Forall (fun o => o = None) rest) \/
      (forall x y, left = x ++ y -> x <> [] -> ~ matched L es x).
    Proof.
      intros Ha Hr H. destruct Hs as [_ Hm Ht Hl Ho _]. cbn zeta.
      destruct (calls_split m es gs Hm Ht Hl input Hr fuel tks None rest n lx lx' 0 Ho start_ready H) as (n' & l & l' & H1 & H2 & H3 & H4 & H5).
      destruct (ready_none m es gs Hm Hl input l _ l' H2 H3) as [(E & Hf & Hno)|[_ Hno]].
      - left. cbn in Hf, Hno. split; [apply (feedable_live _ _ Hm); assumption|]. split; [|exact (calls_end m es gs Hm Ht Hl fuel rest n' l' lx' H4 E H5)].
        intros [Hne Hx]. apply (agreed_matched L es _ Ha) in Hx. exact (Hno Hne Hx).
      - right. cbn in Hno. intros x y E Hx. rewrite (agreed_matched L es x Ha). eapply Hno; eassumption.
    Qed.

    Lemma lexer_none_feedable (ho : HashOrder) fuel n tks rest lx' : resumable es ->
      lex_calls fuel n lx = Val (map Some tks ++ None :: rest, lx') ->
      feedable es (skipn (consumed tks) input) -> Forall (fun o => o = None) rest.
    Proof.
      intros Hr H Hf. destruct Hs as [_ Hm Ht Hl Ho _].
      destruct (calls_split m es gs Hm Ht Hl input Hr fuel tks None rest n lx lx' 0 Ho start_ready H) as (n' & l & l' & H1 & H2 & H3 & H4 & H5).
      destruct (ready_none m es gs Hm Hl input l _ l' H2 H3) as [(E & _ & _)|[Hno _]].
      - exact (calls_end m es gs Hm Ht Hl fuel rest n' l' lx' H4 E H5).
      - destruct Hno. apply (feedable_live m es Hm). exact Hf.
    Qed.

    Lemma lexer_steady_none (ho : HashOrder) fuel n tks rest lx' L : agreed L es -> steady es ->
      lex_calls fuel n lx = Val (map Some tks ++ None :: rest, lx') ->
      forall x y, skipn (consumed tks) input = x ++ y -> x <> [] -> ~ matched L es x.
    Proof.
      intros Ha Hst H x y E Hx. destruct (lexer_first_none ho fuel n tks rest lx' L Ha (steady_resumable es Hst) H) as [(Hf & Hno & _)|Hno];
        cbn zeta in *; [|eapply Hno; eassumption].
      intros Hmat. apply Hno. rewrite E. split; [destruct x; [congruence|discriminate]|]. rewrite (agreed_matched L es (x ++ y) Ha). rewrite (agreed_matched L es x Ha) in Hmat.
      rewrite E in Hf. clear Hno E. revert Hmat Hf. clear -Hst Hx. revert y. intros y. rewrite <- (rev_involutive y). induction (rev y) as [|c z IH]; cbn [rev]; intros Hmat Hf.
      - rewrite app_nil_r. assumption.
      - rewrite app_assoc in *. apply Hst; [destruct x; [congruence|discriminate]| |assumption]. apply IH; [assumption|]. exact (feedable_app _ _ _ Hf).
    Qed.
  End On.

  Lemma lexer_progress (ts : list (list char * generator K)) input (lx : lexer K) (ho : HashOrder) fuel n os lx' : build_lexer ts input = Val (inl lx) ->
    lex_calls fuel n lx = Val (os, lx') ->
    consumed (somes os) <= length input /\ length (somes os) <= length input /\ forall t, In (Some t) os -> lt_source t <> [].
  Proof.
    intros Hb H. destruct (build_state ts input lx Hb) as (es & [_ Hm Ht Hl Ho Hi]).
    destruct (calls_weight _ _ _ Hm Ht Hl fuel os n lx lx' Ho H) as [H1 H2].
    assert (E : weight lx = length input) by (unfold weight, iter_left; rewrite Hi; cbn; lia). rewrite E in H1.
    assert (H3 : consumed (somes os) <= length input) by exact H1.
    split; [assumption|]. split; [|assumption].
    assert (Hle : length (somes os) <= consumed (somes os)); [|lia].
    clear -H2. induction os as [|[t|] os IH]; cbn [somes length]; [cbn; lia| |apply IH; intros t H; apply H2; right; assumption].
    assert (Ht : lt_source t <> []) by (apply H2; left; reflexivity).
    assert (IH' : length (somes os) <= consumed (somes os)) by (apply IH; intros t' H; apply H2; right; assumption).
    unfold consumed, list_sum in *. cbn [map fold_right]. destruct (lt_source t); [congruence|]. cbn [length]. lia.
  Qed.

  Lemma lexer_no_panic (ts : list (list char * generator K)) input (lx : lexer K) (ho : HashOrder) fuel n : build_lexer ts input = Val (inl lx) -> lex_calls fuel n lx <> Panic.
  Proof.
    intros Hb. destruct (build_state ts input lx Hb) as (es & [_ Hm Ht Hl Ho Hi]). exact (calls_no_panic _ _ _ Hm Ht Hl fuel n lx Ho).
  Qed.

  Lemma lexer_generators (ts : list (list char * generator K)) input (lx : lexer K) (ho : HashOrder) fuel n os lx' t : build_lexer ts input = Val (inl lx) ->
    lex_calls fuel n lx = Val (os, lx') -> In (Some t) os ->
    exists p g, In (p, g) ts /\ lt_kind t = gen_run g (lt_source t).
  Proof.
    intros Hb H Hin. destruct (build_state ts input lx Hb) as (es & [_ Hm Ht Hl Ho Hi]).
    destruct (calls_kind _ _ _ Hm Ht Hl fuel os n lx lx' t Ho H Hin) as (_ & _ & i & g & _ & _ & _ & Hg & Hk).
    apply nth_error_In, in_map_iff in Hg. destruct Hg as ([p g'] & E & Hpg). cbn in E. subst g'. eauto.
  Qed.

  Lemma lexer_orders (ts : list (list char * generator K)) input (lx : lexer K) (ho1 ho2 : HashOrder) fuel n os lx' : build_lexer ts input = Val (inl lx) ->
    @lex_calls env ho1 K fuel n lx = Val (os, lx') ->
    exists N, forall fuel', N <= fuel' -> @lex_calls env ho2 K fuel' n lx = Val (os, lx').
  Proof.
    intros Hb H. destruct (build_state ts input lx Hb) as (es & [_ Hm Ht Hl Ho Hi]).
    exact (calls_order _ _ _ Hm Ht Hl ho1 ho2 fuel n lx os lx' Ho H).
  Qed.

  Lemma lexer_terminates (ts : list (list char * generator K)) input (lx : lexer K) es n : build_lexer ts input = Val (inl lx) -> parsed ts es ->
    (forall e, In e es -> loops_ok e = true) ->
    exists N os lx', forall (ho : HashOrder) fuel, N <= fuel -> lex_calls fuel n lx = Val (os, lx').
  Proof.
    intros Hb Hp Hloop. destruct (build_state_es ts input lx es Hb Hp) as [_ Hm Ht Hl Ho Hi].
    exact (calls_total _ _ _ Hm Ht Hl n Hloop lx Ho).
  Qed.

  (** A result computed for one hash order holds for all. *)
  Lemma lexer_order_free (ts : list (list char * generator K)) input (lx : lexer K) n os : build_lexer ts input = Val (inl lx) ->
    (exists fuel lx', @lex_calls env id_order K fuel n lx = Val (os, lx')) ->
    forall ho : HashOrder, exists N, forall fuel, N <= fuel -> exists lx', lex_calls fuel n lx = Val (os, lx').
  Proof.
    intros Hb (fuel & lx' & H) ho. destruct (lexer_orders ts input lx id_order ho fuel n os lx' Hb H) as (N & HN). exists N. eauto.
  Qed.

  (** The runs of the simulator. *)
  Lemma lexer_feedable (ts : list (list char * generator K)) input (lx : lexer K) es (ho : HashOrder) fuel x rs :
    build_lexer ts input = Val (inl lx) -> parsed ts es -> sim_text fuel (lx_nfa lx) x = Val rs -> rs <> [] <-> feedable es x.
  Proof.
    intros Hb Hp E. destruct (build_state_es ts input lx es Hb Hp) as [_ Hm _ _ _ _]. destruct (machine_wf _ _ _ Hm) as [_ Hwf].
    rewrite (feedable_live _ _ Hm). destruct (sim_text_spec _ fuel x rs Hwf E) as [_ Hin]. unfold live. split.
    - intros Hne. destruct rs as [|r rs]; [congruence|]. exists r. apply Hin. left. reflexivity.
    - intros (r & Hr) ->. apply Hin in Hr. destruct Hr.
  Qed.
End Built.

(** ** Witnesses *)

Section Witness.
  Context {env : Env}.

  Definition num_tokens : list (list char * generator nat) :=
    [(str "1"%string, GenUnit (fun _ => 1)); (str "1\.1"%string, GenMap (@length char)); (str "\."%string, GenUnit (fun _ => 2))].
  Definition num_es : list expr :=
    [ELit (LMatch ($"1")) None; EConcat [ELit (LMatch ($"1")) None; ELit (LMatch ($".")) None; ELit (LMatch ($"1")) None];
     ELit (LMatch ($".")) None].

  Lemma num_parsed : parsed num_tokens num_es.
  Proof. repeat constructor. Qed.

  Lemma num_build input : exists lx, build_lexer num_tokens input = Val (inl lx).
  Proof. eexists. vm_compute. reflexivity. Qed.

  (** Analyses how a text was begun. *)
  Ltac begun_cases := repeat match goal with
    | H : _ \/ _ |- _ => destruct H as [H|H]
    | H : ex _ |- _ => destruct H as [? H]
    | H : _ /\ _ |- _ => let H' := fresh in destruct H as [H' H]
    | H : False |- _ => destruct H
    end; subst.

  Lemma num_feedable x : feedable num_es x ->
    In x [[]; str "1"%string; str "1."%string; str "1.1"%string; str "."%string].
  Proof.
    intros [->|(e & He & H)]; [cbn; tauto|]. destruct He as [<-|[<-|[<-|[]]]]; apply lead_begun in H; try reflexivity;
      cbn in H; unfold lang_cat in H; begun_cases; cbn in *; begun_cases; cbn; tauto.
  Qed.

  Lemma num_agreed : agreed lang num_es.
  Proof. right. split; [reflexivity|]. intros e [<-|[<-|[<-|[]]]]; reflexivity. Qed.

  (** Whether [s] can be read again after [u]. *)
  Lemma num_resumable : resumable num_es.
  Proof.
    intros u s Hu Hmat Hno Hf. apply num_feedable in Hf.
    assert (H11 : s = str ".1"%string -> u <> str "1"%string).
    { intros -> ->. apply (Hno (str ".1"%string) []); [rewrite app_nil_r; reflexivity|discriminate|].
      apply (agreed_matched lang num_es _ num_agreed). eexists. split; [right; left; reflexivity|].
      exists [$"1"], [$"."; $"1"]. split; [reflexivity|]. split; [eexists; split; reflexivity|].
      exists [$"."], [$"1"]. split; [reflexivity|]. split; [eexists; split; reflexivity|].
      exists [$"1"], []. split; [reflexivity|]. split; [eexists; split; reflexivity|reflexivity]. }
    assert (Hs : In s [[]; str "1"%string; str "."%string; str ".1"%string] /\ (s = str ".1"%string -> u = str "1"%string)).
    { assert (Hsp : exists l, In l [[]; str "1"%string; str "1."%string; str "1.1"%string; str "."%string] /\
        In (u, s) (map (fun n => (firstn n l, skipn n l)) (seq 0 (S (length l))))).
      { eexists. split; [exact Hf|]. apply in_map_iff. exists (length u). split.
        - rewrite firstn_app, skipn_app, Nat.sub_diag, firstn_all, skipn_all. cbn. rewrite app_nil_r. reflexivity.
        - apply in_seq. rewrite app_length. lia. }
      destruct Hsp as (l & Hl & Hsp). clear -Hu Hl Hsp.
      cbn in Hl. repeat match type of Hl with _ \/ _ => destruct Hl as [Hl|Hl] | False => destruct Hl end; subst l; cbn in Hsp;
        repeat match type of Hsp with _ \/ _ => destruct Hsp as [Hsp|Hsp] | False => destruct Hsp end;
        injection Hsp as <- <-; cbn; try congruence; (split; [tauto|congruence]). }
    destruct Hs as [Hin Hs]. destruct Hin as [<-|[<-|[<-|[<-|[]]]]].
    - left. reflexivity.
    - right. exists (ELit (LMatch ($"1")) None). split; [left; reflexivity|]. right. exists ($"1"). split; reflexivity.
    - right. exists (ELit (LMatch ($".")) None). split; [cbn; auto|]. right. exists ($"."). split; reflexivity.
    - exfalso. apply H11; auto.
  Qed.

  (** Tokens that grow while they can be fed. *)
  Definition run_tokens : list (list char * generator nat) :=
    [(str "b+"%string, GenMap (@length char)); (str "a"%string, GenUnit (fun _ => 0))].
  Definition run_es : list expr := [ELit (LMatch ($"b")) (Some QPlus); ELit (LMatch ($"a")) None].
  Lemma run_parsed : parsed run_tokens run_es.
  Proof. repeat constructor. Qed.

  Lemma run_build input : exists lx, build_lexer run_tokens input = Val (inl lx).
  Proof. eexists. vm_compute. reflexivity. Qed.

  Lemma run_feedable x : feedable run_es x -> x = [$"a"] \/ x = repeat ($"b") (length x).
  Proof.
    intros [->|(e & He & H)]; [auto|]. destruct He as [<-|[<-|[]]].
    - right. destruct H as (n & H). revert x H. induction n as [|n IH]; intros x H; [cbn in H; subst; reflexivity|].
      destruct H as (u & v & -> & (c & -> & ->) & Hv). cbn. f_equal. apply IH. exact Hv.
    - destruct H as [->|(c & -> & ->)]; auto.
  Qed.

  Lemma run_agreed : agreed lang run_es.
  Proof. right. split; [reflexivity|]. intros e [<-|[<-|[]]]; reflexivity. Qed.

  Lemma run_steady : steady run_es.
  Proof.
    intros u c Hu _ Hf. apply (agreed_matched lang run_es _ run_agreed). apply run_feedable in Hf. destruct Hf as [Hf|Hf].
    - exfalso. destruct u as [|d [|e u]]; [congruence| |]; discriminate.
    - exists (ELit (LMatch ($"b")) (Some QPlus)). split; [left; reflexivity|]. exists (length (u ++ [c])).
      split; [rewrite app_length; cbn; lia|]. rewrite Hf at 2. clear. induction (length (u ++ [c])) as [|n IH]; [reflexivity|].
      exists [$"b"], (repeat ($"b") n). split; [reflexivity|]. split; [eexists; split; reflexivity|exact IH].
  Qed.
End Witness.
