(** Properties C03, C08, C10-C15 and C46: patterns, automata, simulator. *)
From Verif Require Import Base RegexModel SpecRegex RegexProofs NfaModel SpecNfa LexerModel NfaCountProofs NfaProofs NfaSimProofs
  NfaMachineProofs NfaWitness.

(** C03 fails: a pattern with an empty alternative panics in every build, and
    a bound just above 2^32 panics with overflow checks. *)
Theorem C03_add_token_no_panic_refuted (K : Type) (g : generator K) :
  exists lg, lexgen_new = Val lg /\
    (forall env : Env, add_token lg (str ")"%string) g = Panic) /\
    (forall env : Env, add_token lg (str "a||b"%string) g = Panic) /\
    (let _ := ascii_env true in add_token lg (str "a{4294967296}"%string) g = Panic).
Proof. eexists. split; [reflexivity|]. repeat split; intros; vm_compute; reflexivity. Qed.
Print Assumptions C03_add_token_no_panic_refuted.

(** C03, what holds: after any successfully added patterns, adding a pattern
    returns unless the pattern has an empty alternative, or overflow is checked
    and the pattern has a number in the window above 2^32. *)
Theorem C03_add_token_no_panic_partial {env : Env} (K : Type) (lg0 lg : lexgen K) ts p g :
  lexgen_new = Val lg0 -> add_tokens lg0 ts = Val (inl lg) ->
  (exists x, add_token lg p g = Val x) \/
  (add_token lg p g = Panic /\
   ((overflow_checks = true /\ window_number p) \/
    exists ks, stream_kinds (tokens_of p) = Some ks /\ empty_alternative ks)).
Proof. exact (add_token_total lg0 lg ts p g). Qed.
Print Assumptions C03_add_token_no_panic_partial.
Example C03_sample : let _ := ascii_env true in
  exists lg0 lg, lexgen_new = Val lg0 /\
    add_tokens lg0 [(str "[a-z]+"%string, GenUnit (fun _ => 1)); (str "0|1"%string, GenUnit (fun _ => 2))] = Val (inl lg) /\
    (exists lg', add_token lg (str "x{2,}"%string) (GenUnit (fun _ => 3)) = Val (inl lg')) /\
    (exists errs, add_token lg (str "x{2"%string) (GenUnit (fun _ => 3)) = Val (inr errs)).
Proof.
  eexists. eexists. split; [reflexivity|]. split; [vm_compute; reflexivity|]. split; eexists; vm_compute; reflexivity.
Qed.

(** C08 *)
Theorem C08_escaped_text {env : Env} (w : list char) :
  exists e m, regex_parse (escape_text w) = Val (ParseOk e) /\ nfa_from e = Val m /\
    forall v, exists N, forall (ho : HashOrder) fuel, N <= fuel ->
      exists b, simulate fuel m v = Val b /\ (b = true <-> v = w).
Proof. exact (escaped_matches w). Qed.
Print Assumptions C08_escaped_text.
Example C08_sample : escape_text (str "(a*)"%string) = str "\(a\*\)"%string.
Proof. reflexivity. Qed.

(** C10: transitions lead to existing states, the start state is not entered
    again, accepting states have no transitions, and the number of states is
    linear in the length of the patterns. *)
Theorem C10_automata_well_formed {env : Env} (K : Type) (lg0 lg : lexgen K) ts :
  lexgen_new = Val lg0 -> add_tokens lg0 ts = Val (inl lg) ->
  exists m, compiler_compile (lg_compiler lg) = Val m /\ closed_nfa m /\ start_not_entered m /\ finals_dead m /\
    length (nfa_states m) <= 2 + list_sum (map (fun t => S (length (fst t))) ts).
Proof. exact (compiled_ok lg0 lg ts). Qed.
Print Assumptions C10_automata_well_formed.
Example C10_sample : let _ := ascii_env true in
  exists lg0 lg m, lexgen_new = Val lg0 /\
    add_tokens lg0 [(str "(ab*|c){3}"%string, GenUnit (fun _ => 1)); (str "0|1"%string, GenUnit (fun _ => 2))] = Val (inl lg) /\
    compiler_compile (lg_compiler lg) = Val m /\ length (nfa_states m) = 7.
Proof.
  eexists. eexists. eexists. split; [reflexivity|]. split; [vm_compute; reflexivity|]. split; [vm_compute; reflexivity|]. reflexivity.
Qed.

(** C11 fails in both directions: [(a*b)+] rejects [b], and [(a*b){2}] accepts
    [bbb]. *)
Theorem C11_regular_language_refuted {env : Env} :
  (exists e m w, regex_parse (str "(a*b)+"%string) = Val (ParseOk e) /\ nfa_from e = Val m /\ lang e w /\
     forall ho : HashOrder, exists N, forall fuel, N <= fuel -> simulate fuel m w = Val false) /\
  (exists e m w, regex_parse (str "(a*b){2}"%string) = Val (ParseOk e) /\ nfa_from e = Val m /\ ~ lang e w /\
     forall ho : HashOrder, exists N, forall fuel, N <= fuel -> simulate fuel m w = Val true).
Proof.
  split.
  - exists (ab_group QPlus). eexists. exists (str "b"%string). split; [vm_compute; reflexivity|]. split; [vm_compute; reflexivity|].
    split; [exact ab_plus_b|]. apply order_free; [|exists 30; vm_compute; reflexivity].
    apply (machine_wf _ 1 [ab_group QPlus]). apply nfa_from_ok. vm_compute. reflexivity.
  - exists (ab_group (QMax 2)). eexists. exists (str "bbb"%string). split; [vm_compute; reflexivity|]. split; [vm_compute; reflexivity|].
    split; [exact ab_two_bbb|]. apply order_free; [|exists 30; vm_compute; reflexivity].
    apply (machine_wf _ 1 [ab_group (QMax 2)]). apply nfa_from_ok. vm_compute. reflexivity.
Qed.
Print Assumptions C11_regular_language_refuted.

(** C11, what the automaton of every regex accepts, for every text: the
    language [impl_lang], in which the first round of a leading repeated group
    is counted only if it begins with an unquantified literal. *)
Theorem C11_implemented_language {env : Env} (ho : HashOrder) e m fuel w b :
  nfa_from e = Val m -> simulate fuel m w = Val b -> (b = true <-> impl_lang e w).
Proof. exact (simulate_impl ho e m fuel w b). Qed.
Print Assumptions C11_implemented_language.

(** C11, for the regexes where each leading repeated group may be repeated any
    number of times or begins with an unquantified literal ([lead_ok]). *)
Theorem C11_regular_language_partial {env : Env} (ho : HashOrder) e m fuel w b :
  nfa_from e = Val m -> lead_ok e = true -> simulate fuel m w = Val b -> (b = true <-> lang e w).
Proof. exact (regex_lead ho e m fuel w b). Qed.
Print Assumptions C11_regular_language_partial.
Example C11_sample : let _ := ascii_env true in let _ := id_order in
  exists e m, regex_parse (str "x(a*b)+|(ab{2,3}){2}"%string) = Val (ParseOk e) /\ nfa_from e = Val m /\ lead_ok e = true /\
    simulate 50 m (str "abbabbb"%string) = Val true /\ simulate 50 m (str "ab"%string) = Val false /\
    simulate 50 m (str "xbaab"%string) = Val true.
Proof.
  eexists. eexists. split; [vm_compute; reflexivity|]. split; [vm_compute; reflexivity|]. repeat split; vm_compute; reflexivity.
Qed.

(** C12 fails for a repeated star: see the pattern below, on [a]. *)
Theorem C12_matching_terminates_refuted {env : Env} :
  exists e m w, regex_parse (str "(a*)*"%string) = Val (ParseOk e) /\ nfa_from e = Val m /\
    forall (ho : HashOrder) fuel, simulate fuel m w = Diverge.
Proof.
  exists star_star', ss_nfa, (str "a"%string). split; [vm_compute; reflexivity|]. split; [exact ss_from|].
  exact ss_diverges.
Qed.
Print Assumptions C12_matching_terminates_refuted.

(** C12, what holds: no repeated group matches the empty text. *)
Theorem C12_matching_terminates_partial {env : Env} e m w :
  nfa_from e = Val m -> loops_ok e = true ->
  exists N, forall (ho : HashOrder) fuel, N <= fuel -> exists b, simulate fuel m w = Val b.
Proof. exact (regex_terminates e m w). Qed.
Print Assumptions C12_matching_terminates_partial.
Example C12_sample : let _ := ascii_env true in
  exists e m, regex_parse (str "((a|b*c)+d?){2,}"%string) = Val (ParseOk e) /\ nfa_from e = Val m /\ loops_ok e = true.
Proof. eexists. eexists. split; [vm_compute; reflexivity|]. split; [vm_compute; reflexivity|]. reflexivity. Qed.

(** C13 for the simulator: whenever the simulator finishes under one hash
    order, it finishes under every other one with the same answers. *)
Theorem C13_simulator_order_independent {env : Env} m m' w (ho1 ho2 : HashOrder) fuel l1 :
  nfa_build m' = Val m -> @sim_text env ho1 fuel m w = Val l1 ->
  exists N, forall fuel', N <= fuel' -> exists l2, @sim_text env ho2 fuel' m w = Val l2 /\
    sim_accepting m l2 = sim_accepting m l1 /\ (forall c, sim_can_feed m l2 c = sim_can_feed m l1 c) /\
    sim_final_states m l2 = sim_final_states m l1 /\ @simulate env ho2 fuel' m w = @simulate env ho1 fuel m w.
Proof. exact (orders_agree m m' w ho1 ho2 fuel l1). Qed.
Print Assumptions C13_simulator_order_independent.
Example C13_sample : let _ := ascii_env true in
  exists e m l1, regex_parse (str "(a|b|ab)*"%string) = Val (ParseOk e) /\ nfa_from e = Val m /\ nfa_build m = Val m /\
    @sim_text _ id_order 50 m (str "ab"%string) = Val l1 /\ @sim_text _ rev_order 50 m (str "ab"%string) <> Val l1.
Proof.
  eexists. eexists. eexists. split; [vm_compute; reflexivity|]. split; [vm_compute; reflexivity|]. split; [vm_compute; reflexivity|].
  split; [vm_compute; reflexivity|]. vm_compute. discriminate.
Qed.

(** C14 fails: the runs of [(a|[a])*] double with every [a]. *)
Theorem C14_runs_bounded_refuted {env : Env} :
  exists e m, regex_parse (str "(a|[a])*"%string) = Val (ParseOk e) /\ nfa_from e = Val m /\
    forall (ho : HashOrder) fuel n, 3 <= fuel ->
      exists rs, sim_text fuel m (repeat ($"a") n) = Val rs /\ 2 ^ n <= length rs.
Proof.
  exists twice_a, twice_nfa. split; [vm_compute; reflexivity|]. split; [exact twice_from|].
  intros ho fuel n. exact (double_runs fuel n).
Qed.
Print Assumptions C14_runs_bounded_refuted.

(** C14, what holds: the number of different runs is polynomial in the length
    of the text, for every regex and every text that can be fed.  Missing: the
    simulator also keeps the duplicates. *)
Theorem C14_runs_bounded_partial {env : Env} e m :
  nfa_from e = Val m ->
  exists a d, forall (ho : HashOrder) fuel w rs, sim_text fuel m w = Val rs ->
    length (nodup run_eq_dec rs) <= (a * S (length w)) ^ d.
Proof. exact (fun H => distinct_runs m 1 [e] (proj2 (nfa_from_ok e m H))). Qed.
Print Assumptions C14_runs_bounded_partial.
Example C14_sample : let _ := ascii_env true in let _ := id_order in
  exists rs, sim_text 50 twice_nfa (str "aaa"%string) = Val rs /\ length rs = 16 /\ length (nodup run_eq_dec rs) = 2.
Proof. eexists. split; [vm_compute; reflexivity|]. split; vm_compute; reflexivity. Qed.

(** C15: for every automaton made with the builder and every fed text. *)
Theorem C15_can_feed_exact {env : Env} (ho : HashOrder) m m' fuel v rs c :
  built m' -> nfa_build m' = Val m -> sim_text fuel m v = Val rs ->
  exists b, sim_can_feed m rs c = Val b /\
  (forall fuel' l a, sim_feed fuel' m rs c = Val (l, a) -> (b = false <-> l = [])) /\
  (b = false -> forall fuel', sim_feed fuel' m rs c = Val ([], false)) /\
  (b = false -> forall (ho' : HashOrder) fuel' u, simulate fuel' m (v ++ c :: u) <> Val true).
Proof. exact (can_feed_built ho m m' fuel v rs c). Qed.
Print Assumptions C15_can_feed_exact.
(** The automata of regexes are made with the builder. *)
Theorem C15_regex_automata_built e m : nfa_from e = Val m -> built m.
Proof. exact (nfa_from_built e m). Qed.
Print Assumptions C15_regex_automata_built.
Example C15_sample : let _ := ascii_env true in let _ := id_order in
  exists e m rs, regex_parse (str "ab*"%string) = Val (ParseOk e) /\ nfa_from e = Val m /\ sim_text 20 m (str "ab"%string) = Val rs /\
    sim_can_feed m rs ($"b") = Val true /\ sim_can_feed m rs ($"a") = Val false.
Proof.
  eexists. eexists. eexists. split; [vm_compute; reflexivity|]. split; [vm_compute; reflexivity|]. split; [vm_compute; reflexivity|].
  split; vm_compute; reflexivity.
Qed.

(** C46 *)
Theorem C46_feed_str_is_feed {env : Env} (ho : HashOrder) m fuel w :
  simulate fuel m w =
  (let! runs := sim_new fuel m in let! l := feed_each fuel m runs w in sim_accepting m l).
Proof. rewrite (simulate_text m fuel w). unfold sim_text. destruct (sim_new fuel m); reflexivity. Qed.
Print Assumptions C46_feed_str_is_feed.
Theorem C46_empty_text {env : Env} (ho : HashOrder) m fuel :
  simulate fuel m [] = (let! runs := sim_new fuel m in sim_accepting m runs).
Proof. rewrite (simulate_text m fuel []). unfold sim_text. destruct (sim_new fuel m); reflexivity. Qed.
Print Assumptions C46_empty_text.
Example C46_sample : let _ := ascii_env true in let _ := id_order in
  exists e m, regex_parse (str "ab*"%string) = Val (ParseOk e) /\ nfa_from e = Val m /\
    simulate 20 m (str "abb"%string) = Val true /\ simulate 20 m [] = Val false.
Proof. eexists. eexists. split; [vm_compute; reflexivity|]. split; [vm_compute; reflexivity|]. split; vm_compute; reflexivity. Qed.
