(** Property C110: which grammars are parsed exactly. *)
From Verif Require Import Base GrammarModel CfsmModel SlrModel SpecCfg SlrNew SlrWitness SlrFinal WholeProofs.

(** C110: a parser returns exactly the derivation trees of the sentences if and only
    if no rule mentions epsilon, the start variable stands only at the front, its
    bodies end with terminals and some input has a tree. *)
Theorem C110_parser {V T} `{DecEq V} `{DecEq T} {ho : HashOrder} (teq : T -> T -> bool) (g : grammar V T) fuel p tb :
  lawful teq -> built g -> (forall v, reachable g v -> productive g v) -> slr_new teq fuel p g = Val tb ->
  (forall ts x, (exists n, forall fuel', n <= fuel' -> parse teq fuel' tb ts = Val (Some (to_node x))) <-> parses g teq ts x) <->
  epsilon_free g /\ start_at_front g /\ (forall bd, rule g (g_start g) bd -> exists b t, bd = b ++ [Ter t]) /\
  exists fuel' ts n, parse teq fuel' tb ts = Val (Some n).
Proof. exact (fun Ht Hb Hp => any_one_exact g Hb teq Ht Hp fuel p tb). Qed.
Print Assumptions C110_parser.

(** Under every order of the iterations a parser is built that does so if and only
    if in addition the start variable always gets a FOLLOW entry and no two requests
    clash. *)
Theorem C110_grammar {V T} `{DecEq V} `{DecEq T} (teq : T -> T -> bool) (g : grammar V T) :
  lawful teq -> built g -> (forall v, reachable g v -> productive g v) ->
  (forall (ho : HashOrder) p, exists n tb, (forall fuel, n <= fuel -> slr_new teq fuel p g = Val tb) /\
     forall ts x, (exists n, forall fuel, n <= fuel -> parse teq fuel tb ts = Val (Some (to_node x))) <-> parses g teq ts x) <->
  epsilon_free g /\ start_at_front g /\ (forall bd, rule g (g_start g) bd -> exists b t, bd = b ++ [Ter t]) /\
  entry_sure g (g_start g) /\ ~ clash g teq True.
Proof. exact (fun Ht Hb Hp => any_exact g Hb teq Ht Hp). Qed.
Print Assumptions C110_grammar.

(** [0 -> 0 1 2 | 0 3 | 2] is such a grammar. *)
Definition sums : grammar nat nat := gram [(0, [var 0; ter 1; ter 2]); (0, [var 0; ter 3]); (0, [ter 2])].
Example C110_sample : lawful Nat.eqb /\ built sums /\ epsilon_free sums /\ (forall v, reachable sums v -> productive sums v) /\
  start_at_front sums /\ (forall bd, rule sums 0 bd -> exists b t, bd = b ++ [Ter t]) /\ entry_sure sums 0 /\ ~ clash sums Nat.eqb True.
Proof.
  assert (Hb : built sums) by (apply gram_built; reflexivity).
  assert (R1 : rule sums 0 [var 0; ter 1; ter 2]) by a_rule. assert (R3 : rule sums 0 [ter 2]) by a_rule.
  assert (Hr : forall v bd, rule sums v bd -> v = 0 /\ (bd = [var 0; ter 1; ter 2] \/ bd = [var 0; ter 3] \/ bd = [ter 2])).
  { intros v bd H. each_rule H; auto. }
  assert (He : entry_sure sums 0) by (left; exists 0, [], [ter 1; ter 2]; split; [exact R1|discriminate]).
  assert (Hform : forall y, steps sums [var 0] y -> exists s w, y = s :: map Ter w /\ s <> Eps /\ forall v, s = Var v -> v = 0).
  { intros y H. remember [var 0] as x eqn:Ex. induction H as [x|x y z H IH Hs].
    - subst x. exists (Var 0), []. repeat split; try discriminate. intros v [= <-]. auto.
    - destruct (IH Ex) as (s & w & -> & Hn & Hv). inversion Hs as [l v bd r Hru E|l r E]; subst.
      + destruct l as [|s' l].
        * injection E as <- E. subst r. destruct (Hr _ _ Hru) as (-> & [-> | [-> | ->]]).
          -- exists (Var 0), (1 :: 2 :: w). repeat split; try discriminate. intros u [= <-]. auto.
          -- exists (Var 0), (3 :: w). repeat split; try discriminate. intros u [= <-]. auto.
          -- exists (Ter 2), w. repeat split; discriminate.
        * injection E as <- E. exfalso. assert (Hi : In (Var v) (map (@Ter nat nat) w)) by (rewrite <- E; apply in_app_iff; right; left; auto).
          apply in_map_iff in Hi. destruct Hi as (? & ? & _). discriminate.
      + exfalso. destruct l as [|s' l]; injection E as <- E.
        * apply Hn. reflexivity.
        * assert (Hi : In Eps (map (@Ter nat nat) w)) by (rewrite <- E; apply in_app_iff; right; left; auto).
          apply in_map_iff in Hi. destruct Hi as (? & ? & _). discriminate. }
  split; [exact eq_lawful|]. split; [exact Hb|]. split; [intros v bd _ H; each_rule H; cbn; intuition discriminate|].
  split; [|split; [|split; [|split; [exact He|]]]].
  - intros v (l & r & H). exists [2]. destruct (Hform _ H) as (s & w & E & Hn & Hv). destruct l as [|s' l].
    + injection E as <- _. rewrite (Hv v eq_refl). apply (step_at sums [var 0] [] 0 [ter 2] []); [constructor|exact R3].
    + injection E as <- E. exfalso. assert (Hi : In (Var v) (map (@Ter nat nat) w)) by (rewrite <- E; apply in_app_iff; right; left; auto).
      apply in_map_iff in Hi. destruct Hi as (? & ? & _). discriminate.
  - intros l r H. destruct (Hform _ H) as (s & w & E & _). destruct l as [|s' l]; auto. injection E as <- E. exfalso.
    assert (Hi : In (var 0) (map (@Ter nat nat) w)) by (rewrite <- E; apply in_app_iff; right; left; auto).
    apply in_map_iff in Hi. destruct Hi as (? & ? & _). discriminate.
  - intros bd H. destruct (Hr _ _ H) as (_ & [-> | [-> | ->]]); [exists [var 0; ter 1], 2|exists [var 0], 3|exists [], 2]; reflexivity.
  - intros Hc. apply (new_no_clash (ho := id_order) Nat.eqb eq_lawful sums Hb 60 [] (new_of id_order Nat.eqb sums)); [vm_compute; reflexivity|].
    eapply clash_mono; [|exact Hc]. intros _. exact He.
Qed.
