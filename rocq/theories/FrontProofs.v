(** Proofs for C91: patterns, grammar and text all the way to the tree. *)
From Verif Require Import Base RegexModel SpecRegex NfaModel SpecNfa NfaWitness LexerModel SpecLexer SpecMunch LexerMunch SpecPanic RegexPanicProofs
  SpecPlain PlainProofs GrammarModel CfsmModel SlrModel PangoModel SpecCfg SpecWrap SpecFront SlrFinal WrapProofs WrapText SlrWitness.
From Coq Require Import Lia.

Section Build.
  Context {env : Env} {K : Type}.

  Lemma tokens_added (ts : list (list char * generator K)) : forall (lg0 lg : lexgen K) us es, lexgen_new = Val lg0 -> add_tokens lg0 us = Val (inl lg) ->
    parsed ts es -> (forall e, In e es -> ~ gapped e) -> exists lg', add_tokens lg ts = Val (inl lg') /\ add_tokens lg0 (us ++ ts) = Val (inl lg').
  Proof.
    assert (Happ : forall (l1 l2 : list (list char * generator K)) a b, add_tokens a l1 = Val (inl b) -> add_tokens a (l1 ++ l2) = add_tokens b l2).
    { induction l1 as [|[q g] l1 IH]; intros l2 a b H; cbn [add_tokens app] in H |- *; [injection H as ->; reflexivity|].
      destruct (add_token a q g) as [[x|x]| |]; try discriminate; cbn [bind] in *; try discriminate; auto. }
    induction ts as [|[q g] ts IH]; intros lg0 lg us es H0 H Hp Hn.
    - exists lg. rewrite app_nil_r. auto.
    - inversion Hp as [|? e ? es' Hq Hp']; subst.
      destruct (proj2 (proj1 (proj2 (add_token_cases K lg0 lg us q g H0 H)))) as (lg1 & E).
      { exists e. split; [apply pattern_of_ok; exact Hq|]. apply Hn. left. reflexivity. }
      destruct (IH lg0 lg1 (us ++ [(q, g)]) es' H0) as (lg2 & E1 & E2); auto.
      + rewrite (Happ _ _ _ _ H). cbn [add_tokens]. rewrite E. reflexivity.
      + intros e' He'. apply Hn. right. exact He'.
      + exists lg2. rewrite <- app_assoc in E2. split; auto. cbn [add_tokens]. rewrite E. exact E1.
  Qed.

  Lemma lexer_builds (ts : list (list char * generator K)) es input : parsed ts es -> (forall e, In e es -> ~ gapped e) ->
    exists lx, build_lexer ts input = Val (inl lx).
  Proof.
    intros Hp Hn. unfold build_lexer. destruct (@lexgen_new K) as [lg0| |] eqn:E0; [|vm_compute in E0; discriminate|vm_compute in E0; discriminate].
    cbn [bind]. destruct (tokens_added ts lg0 lg0 [] es E0 eq_refl Hp Hn) as (lg & E & _). rewrite E. cbn [bind].
    destruct (compiled_ok lg0 lg ts E0 E) as (m & Em & _). unfold tokenize. rewrite Em. cbn [bind]. eauto.
  Qed.
End Build.

Section Front.
  Context {env : Env} {V K : Type} {dv : DecEq V} {dt : DecEq K}.

  Lemma outcome_unique L es (gens : list (generator K)) (g : grammar V K) teq z e input r r' : (forall ks x x', parses g teq ks x -> parses g teq ks x' -> x = x') ->
    outcome L es gens g teq z e input r -> outcome L es gens g teq z e input r' -> r = r'.
  Proof.
    intros Hu. destruct r as [n|]; destruct r' as [n'|]; auto.
    - intros (ks & e1 & x & (tks & Hm & _ & E) & _ & Hx & ->) (ks' & e1' & x' & (tks' & Hm' & _ & E') & _ & Hx' & ->).
      rewrite (munches_unique L es gens _ _ _ Hm _ Hm') in E'. rewrite E in E'. apply app_inj_tail in E'. destruct E' as [-> ->].
      rewrite (Hu _ _ _ Hx Hx'). reflexivity.
    - intros (ks & e1 & x & Hr & He & Hx & _) Hn. destruct (Hn ks e1 x Hr He Hx).
    - intros Hn (ks & e1 & x & Hr & He & Hx & _). destruct (Hn ks e1 x Hr He Hx).
  Qed.

  Lemma front_end (teq : K -> K -> bool) cs (g : grammar V K) z e o (ts : list (list char * generator K)) es c :
    lawful teq -> build (do_calls cs) = Val g -> clean g -> ~ textbook_clash g teq ->
    fresh_variable g z -> fresh_terminal teq g e -> fresh_terminal teq g o -> teq o e = false ->
    parsed ts es -> (forall x, In x es -> ~ gapped x) -> plain es ->
    (forall i gen x, nth_error (map snd ts) i = Some gen -> first_match lang es x i ->
       teq o (gen_run gen x) = false /\ (teq e (gen_run gen x) = true -> x = [c])) ->
    exists w, build (do_calls (wrapped cs (g_start g) z e o)) = Val w /\
      forall text, ~ In c text -> exists lx r, build_lexer ts (text ++ [c]) = Val (inl lx) /\
        outcome lang es (map snd ts) g teq z e (text ++ [c]) r /\
        forall (ho : HashOrder) p, exists N, forall fuel, N <= fuel ->
          (let! tb := slr_new teq fuel p w in parse_lexer teq fuel tb lx) = Val r.
  Proof.
    intros Ht Hg Hc Hcl Hz He Ho Heo Hp Hgap Hpl Hk. destruct (wrapped_builds cs g z e o Hg) as (w & Hw). exists w. split; auto.
    intros text Hn. destruct (lexer_builds ts es (text ++ [c]) Hp Hgap) as (lx & Hb).
    assert (Hrun : forall (ho : HashOrder) p, exists N n tb r, slr_new teq n p w = Val tb /\ outcome lang es (map snd ts) g teq z e (text ++ [c]) r /\
        forall fuel, N <= fuel -> (let! tb := slr_new teq fuel p w in parse_lexer teq fuel tb lx) = Val r).
    { intros ho p. destruct (wrapped_new teq Ht cs g w z e o p Hg Hw Hz He Ho Heo) as (n & r0 & Hr0 & [(_ & Hcc)|(tb & -> & _)]); [contradiction|].
      destruct (text_exact teq cs g w z e o n p tb ts text c lx es lang Ht Hg Hw Hz Hc (Hr0 n (le_n n)) Hb Hp (plain_agreed es Hpl) (plain_steady es Hpl)
        (fun x Hx => proj1 (proj2 (Hpl x Hx))) Hk Hn) as (N & r & HN & Hr).
      exists (Nat.max n N), n, tb, r. split; [apply Hr0; lia|]. split; [exact Hr|]. intros fuel Hf. rewrite Hr0 by lia. cbn [bind]. apply HN. lia. }
    destruct (Hrun id_order []) as (N & n & tb & r & Hn0 & Hr & _). exists lx, r. split; auto. split; auto.
    intros ho p. destruct (Hrun ho p) as (N' & n' & tb' & r' & _ & Hr' & HN'). exists N'.
    replace r with r'; auto. eapply outcome_unique; [|exact Hr'|exact Hr].
    intros ks x x'. eapply (wrapped_unique (ho := id_order)); eauto.
  Qed.

  Lemma one_outcome (teq : K -> K -> bool) cs (g : grammar V K) z e o (gens : list (generator K)) es input r r' :
    lawful teq -> build (do_calls cs) = Val g -> clean g -> ~ textbook_clash g teq ->
    fresh_variable g z -> fresh_terminal teq g e -> fresh_terminal teq g o -> teq o e = false ->
    outcome lang es gens g teq z e input r -> outcome lang es gens g teq z e input r' -> r = r'.
  Proof.
    intros Ht Hg Hc Hcl Hz He Ho Heo. destruct (wrapped_builds cs g z e o Hg) as (w & Hw).
    destruct (wrapped_new (ho := id_order) teq Ht cs g w z e o [] Hg Hw Hz He Ho Heo) as (n & r0 & Hr0 & [(_ & Hcc)|(tb & -> & _)]); [contradiction|].
    apply outcome_unique. intros ks x x'. eapply (wrapped_unique (ho := id_order)); eauto.
  Qed.
End Front.

(** ** Calculations with names and numbers
    [0 -> 0 + 1 | 1], [1 -> 1 * 2 | 2], [2 -> ( 0 ) | name | number], with the
    tokens [+ = 1], [* = 2], [( = 3], [) = 4], the end 5, the unused 6, and the odd numbers from 7 on for names,
    the even ones from 8 on for numbers. *)
Definition calc_rules : list (nat * body nat nat) :=
  [(0, [var 0; ter 1; var 1]); (0, [var 1]); (1, [var 1; ter 2; var 2]); (1, [var 2]); (2, [ter 3; var 0; ter 4]); (2, [ter 7]); (2, [ter 8])].
Definition calc_calls : list (call nat nat) := calls calc_rules.
Definition calc : grammar nat nat := gram calc_rules.
Definition calc_wrapped : grammar nat nat := match build (do_calls (wrapped calc_calls 0 3 5 6)) with Val w => w | _ => calc end.

Definition calc_class (k : nat) : nat := if k <? 7 then k else if Nat.even k then 8 else 7.
Definition calc_eq (a b : nat) : bool := calc_class a =? calc_class b.

Definition digits (w : list char) : nat := fold_left (fun n c => 10 * n + N.to_nat (c - 48)) w 0.

Definition calc_tokens : list (list char * generator nat) :=
  [(str "\+"%string, GenUnit (fun _ => 1)); (str "\*"%string, GenUnit (fun _ => 2)); (str "\("%string, GenUnit (fun _ => 3));
   (str "\)"%string, GenUnit (fun _ => 4)); (str ";"%string, GenUnit (fun _ => 5));
   (str "[a-z]+"%string, GenMap (fun w => 7 + 2 * length w)); (str "\d+"%string, GenMap (fun w => 8 + 2 * digits w))].
Definition calc_es : list expr :=
  [ELit (LMatch 43%N) None; ELit (LMatch 42%N) None; ELit (LMatch 40%N) None; ELit (LMatch 41%N) None; ELit (LMatch 59%N) None;
   ELit (LGroup false [GRange ($"a") ($"z")]) (Some QPlus); ELit (LClass CDigit) (Some QPlus)].

Lemma calc_build : build (do_calls calc_calls) = Val calc.
Proof. vm_compute. reflexivity. Qed.
Lemma calc_build_wrapped : build (do_calls (wrapped calc_calls (g_start calc) 3 5 6)) = Val calc_wrapped.
Proof. vm_compute. reflexivity. Qed.

Lemma calc_lawful : lawful calc_eq.
Proof.
  unfold calc_eq. split; [|split].
  - intros x. apply Nat.eqb_refl.
  - intros x y H. apply Nat.eqb_eq in H. apply Nat.eqb_eq. auto.
  - intros x y z H H'. apply Nat.eqb_eq in H, H'. apply Nat.eqb_eq. congruence.
Qed.

Lemma calc_clean : clean calc.
Proof.
  assert (Hv : forall v bd, rule calc v bd -> v = 0 \/ v = 1 \/ v = 2) by (intros v bd H; each_rule H; auto).
  split; [|split].
  - intros v bd _ H. each_rule H; cbn; intuition discriminate.
  - intros v bd H. destruct (Hv _ _ H) as [-> |[-> | ->]].
    + exists [], []. constructor.
    + exists [], []. apply (step_at calc _ [] 0 [var 1] []); [constructor|a_rule].
    + exists [], []. apply (step_at calc _ [] 1 [var 2] []); [|a_rule]. apply (step_at calc _ [] 0 [var 1] []); [constructor|a_rule].
  - assert (H2 : steps calc [var 2] [ter 7]) by (apply (step_at calc _ [] 2 [ter 7] []); [constructor|a_rule]).
    assert (H1 : steps calc [var 1] [ter 7]).
    { apply (step_at calc _ [] 2 [ter 7] []); [|a_rule]. apply (step_at calc _ [] 1 [var 2] []); [constructor|a_rule]. }
    intros v bd H. destruct (Hv _ _ H) as [-> |[-> | ->]]; exists [7]; auto.
    apply (step_at calc _ [] 2 [ter 7] []); [|a_rule]. apply (step_at calc _ [] 1 [var 2] []); [|a_rule].
    apply (step_at calc _ [] 0 [var 1] []); [constructor|a_rule].
Qed.

Lemma calc_fresh : fresh_variable calc 3 /\ fresh_terminal calc_eq calc 5 /\ fresh_terminal calc_eq calc 6.
Proof.
  split; [|split].
  - intros v bd H. each_rule H; (split; [discriminate|]); cbn; intuition discriminate.
  - intros v bd t H Hi. each_rule H; cbn in Hi;
      repeat (destruct Hi as [Hi|Hi]; [first [discriminate|injection Hi as <-; reflexivity]|]); contradiction.
  - intros v bd t H Hi. each_rule H; cbn in Hi;
      repeat (destruct Hi as [Hi|Hi]; [first [discriminate|injection Hi as <-; reflexivity]|]); contradiction.
Qed.

Lemma calc_no_clash : ~ textbook_clash calc calc_eq.
Proof.
  destruct (wrapped_new (ho := id_order) calc_eq calc_lawful calc_calls calc calc_wrapped 3 5 6 [] calc_build calc_build_wrapped (proj1 calc_fresh)
    (proj1 (proj2 calc_fresh)) (proj2 (proj2 calc_fresh)) eq_refl) as (n & r & Hr & [(-> & Hc)|(tb & -> & Hc)]); [|exact Hc].
  assert (E : exists tb, slr_new (ho := id_order) calc_eq 60 [] calc_wrapped = Val tb) by (eexists; vm_compute; reflexivity).
  destruct E as (tb & E). intros _.
  assert (Hbg : SpecCfg.built calc) by (eexists; exact calc_build).
  assert (Hbw : SpecCfg.built calc_wrapped) by (eexists; exact calc_build_wrapped).
  destruct (wrapped_rules calc_calls calc calc_wrapped 3 5 6 calc_build calc_build_wrapped) as [_ Hrule].
  eapply (new_no_clash (ho := id_order) calc_eq calc_lawful calc_wrapped Hbw 60 [] tb E).
  eapply (clash_wrapped calc_eq calc_lawful calc calc_wrapped 5 6); eauto; apply calc_fresh.
Qed.

Section Calc.
  Context {env : Env}.
  Lemma calc_parsed : parsed calc_tokens calc_es.
  Proof. repeat constructor. Qed.
  Lemma calc_gaps e : In e calc_es -> ~ gapped e.
  Proof. intros H. destruct H as [<-|[<-|[<-|[<-|[<-|[<-|[<-|[]]]]]]]]; intros H; inversion H. Qed.
  Lemma calc_plain : plain calc_es.
  Proof.
    intros e H. destruct H as [<-|[<-|[<-|[<-|[<-|[<-|[<-|[]]]]]]]]; (split; [reflexivity|split; [reflexivity|apply plain_eager; reflexivity]]).
  Qed.
  Lemma calc_kinds i gen x : nth_error (map snd calc_tokens) i = Some gen -> first_match lang calc_es x i ->
    calc_eq 6 (gen_run gen x) = false /\ (calc_eq 5 (gen_run gen x) = true -> x = [59%N]).
  Proof.
    assert (Hbig : forall k, 7 <= k -> calc_class k = 7 \/ calc_class k = 8).
    { intros k Hk. unfold calc_class. destruct (Nat.ltb_spec k 7); [lia|]. destruct (Nat.even k); auto. }
    intros E ((e & He & Hl) & _). destruct i as [|[|[|[|[|[|[|i]]]]]]]; try (destruct i; discriminate); injection He as <-; injection E as <-.
    1-4: split; [reflexivity|]; intros H; discriminate.
    - split; [reflexivity|]. intros _. destruct Hl as (c & -> & Hc). cbn in Hc. subst c. reflexivity.
    - unfold calc_eq. match goal with |- context [gen_run ?f ?y] => assert (Hk : 7 <= gen_run f y) by (cbn [gen_run]; lia) end.
      destruct (Hbig _ Hk) as [Hc|Hc]; rewrite Hc; (split; [reflexivity|intros H; discriminate]).
    - unfold calc_eq. match goal with |- context [gen_run ?f ?y] => assert (Hk : 7 <= gen_run f y) by (cbn [gen_run]; lia) end.
      destruct (Hbig _ Hk) as [Hc|Hc]; rewrite Hc; (split; [reflexivity|intros H; discriminate]).
  Qed.
End Calc.
