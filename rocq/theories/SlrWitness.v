(** Concrete grammars for the properties of the parser. *)
From Verif Require Import Base RegexModel SpecRegex NfaModel SpecNfa LexerModel SpecLexer LexerWitness
  GrammarModel CfsmModel SlrModel PangoModel SpecCfg GrammarProofs FirstProofs FollowProofs GrammarTotal
  ItemProofs CfsmProofs CfsmCorrect TableProofs SlrTable SlrNew SlrRun SlrMoves SlrSim SlrTerm SlrAll SlrFinal.

Notation ter := (@Ter nat nat).
Notation var := (@Var nat nat).
Notation eps := (@Eps nat nat).

(** The grammar with start variable 0 and the given rules. *)
Definition calls (rs : list (nat * list (symbol nat nat))) : list (call nat nat) :=
  CallStart 0 :: map (fun r => CallRule (fst r) (snd r)) rs.
Definition gram (rs : list (nat * list (symbol nat nat))) : grammar nat nat :=
  match build (do_calls (calls rs)) with Val g => g | _ => {| g_start := 0; g_rules := [] |} end.

Lemma gram_built rs : (match build (do_calls (calls rs)) with Val _ => true | _ => false end) = true -> built (gram rs).
Proof. intros H. exists (calls rs). unfold gram. destruct (build (do_calls (calls rs))) as [g| |]; [reflexivity|discriminate|discriminate]. Qed.

Lemma eq_lawful : lawful Nat.eqb.
Proof.
  repeat split; intros *.
  - apply Nat.eqb_refl.
  - rewrite !Nat.eqb_eq. auto.
  - rewrite !Nat.eqb_eq. congruence.
Qed.

(** Terminals with a payload: only the last digit counts. *)
Definition digit_eq (x y : nat) : bool := Nat.eqb (x mod 10) (y mod 10).
Lemma digit_lawful : lawful digit_eq.
Proof.
  unfold digit_eq. repeat split; intros *.
  - apply Nat.eqb_refl.
  - rewrite !Nat.eqb_eq. auto.
  - rewrite !Nat.eqb_eq. congruence.
Qed.

(** ** Decision by enumeration *)

Definition rule_list (g : grammar nat nat) : list (nat * list (symbol nat nat)) :=
  flat_map (fun e => map (pair (fst e)) (snd e)) (g_rules g).

Lemma rule_in g v bd : rule g v bd <-> In (v, bd) (rule_list g).
Proof.
  unfold rule_list. rewrite in_flat_map. split.
  - intros (bds & H1 & H2). exists (v, bds). split; auto. apply in_map. exact H2.
  - intros ([v' bds] & H1 & H2). apply in_map_iff in H2. destruct H2 as (bd' & [= <- <-] & H2). exists bds. auto.
Qed.

Ltac a_rule := apply rule_in; vm_compute; tauto.
(** All rules of a concrete grammar, one goal for each. *)
Ltac each_rule H := apply rule_in in H; vm_compute in H;
  repeat (destruct H as [H|H]; [first [injection H as <- <- | injection H as <- | discriminate]|]); try (destruct H; fail).

Lemma step_at (g : grammar nat nat) x l v bd r : steps g x (l ++ Var v :: r) -> rule g v bd -> steps g x (l ++ bd ++ r).
Proof. intros H Hr. eapply steps_next; eauto. constructor; auto. Qed.

(** The dotted rules after each viable prefix are the items of a state. *)
Definition state_items (st : cstate nat nat) : list (dotted nat nat) := map dotted_of (cs_items st).

Lemma lr0_state (g : grammar nat nat) c : built g -> from_grammar (ho := id_order) 60 [] g = Val c ->
  forall w d, lr0 g w d -> exists st, In st (cf_states c) /\ forall d', lr0 g w d' -> In d' (state_items st).
Proof.
  intros Hb H w d Hd. pose proof (from_grammar_answer (ho := id_order) g Hb _ _ _ H) as Hc.
  destruct (lr0_path g c Hc _ _ Hd) as (i & Hp). destruct (path_state g c Hc w i Hp) as (st & H1 & _ & H3).
  exists st. split; auto. intros d' Hd'. apply lr0_li in Hd'. destruct Hd' as (it & Hl & <-). apply in_map. apply H3. exact Hl.
Qed.

(** Every state with a complete item has no other item. *)
Definition lone (st : cstate nat nat) : bool :=
  match state_items st with
  | [_] => true
  | l => forallb (fun d => match d with (_, _, []) => false | _ => true end) l
  end.

Lemma lone_no_conflict g c : built g -> from_grammar (ho := id_order) 60 [] g = Val c -> forallb lone (cf_states c) = true ->
  ~ slr_conflict g.
Proof.
  intros Hb H Hl (w & Hor). rewrite forallb_forall in Hl.
  assert (Hone : forall h a d, lr0 g w (h, a, []) -> lr0 g w d -> d = (h, a, [])).
  { intros h a d H1 H2. destruct (lr0_state g c Hb H w d H2) as (st & Hin & Hall). specialize (Hl st Hin). unfold lone in Hl.
    apply Hall in H1. apply Hall in H2. destruct (state_items st) as [|x [|y l]]; [destruct H1| |].
    - destruct H1 as [<-|[]], H2 as [<-|[]]. reflexivity.
    - rewrite forallb_forall in Hl. specialize (Hl _ H1). discriminate. }
  destruct Hor as [(h & a & t & r & h' & a' & H1 & H2 & _)|(h & a & h' & a' & k & Hne & H1 & H2 & _)].
  - specialize (Hone _ _ _ H2 H1). discriminate.
  - specialize (Hone _ _ _ H2 H1). congruence.
Qed.

(** No two items of a state with the same terminal after the cursor. *)
Definition read_here (d : dotted nat nat) : list nat := match d with (_, _, Ter t :: _) => [t] | _ => [] end.
Fixpoint no_twice (l : list nat) : bool :=
  match l with [] => true | x :: r => negb (existsb (Nat.eqb x) r) && no_twice r end.
Definition single_reads (st : cstate nat nat) : bool := no_twice (flat_map read_here (state_items st)).

Lemma single_reads_same g c : built g -> from_grammar (ho := id_order) 60 [] g = Val c -> forallb single_reads (cf_states c) = true ->
  forall w h a r h' a' r' t, lr0 g w (h, a, Ter t :: r) -> lr0 g w (h', a', Ter t :: r') -> (h, a, r) = (h', a', r').
Proof.
  intros Hb H Hl w h a r h' a' r' t H1 H2. rewrite forallb_forall in Hl.
  destruct (lr0_state g c Hb H w _ H1) as (st & Hin & Hall). specialize (Hl st Hin). unfold single_reads in Hl.
  apply Hall in H1. apply Hall in H2. clear -Hl H1 H2.
  assert (Hmem : forall l d, In (d, t) (flat_map (fun x : dotted nat nat => map (pair x) (read_here x)) l) -> In t (flat_map read_here l)).
  { induction l as [|x l IH]; cbn; [tauto|]. intros d Hd. apply in_app_iff in Hd. apply in_app_iff. destruct Hd as [Hd|Hd]; [left|right; eauto].
    apply in_map_iff in Hd. destruct Hd as (y & [= -> ->] & Hy). exact Hy. }
  induction (state_items st) as [|x l IH]; [destruct H1|].
  assert (Hin : forall h a r, In (h, a, Ter t :: r) l -> In t (flat_map read_here l)).
  { intros h0 a0 r0 H0. apply in_flat_map. exists (h0, a0, Ter t :: r0). split; auto. left. reflexivity. }
  cbn [flat_map] in Hl. destruct H1 as [->|H1], H2 as [E|H2].
  - injection E as -> -> ->. reflexivity.
  - cbn in Hl. apply andb_true_iff in Hl. destruct Hl as [Hl _]. apply negb_true_iff in Hl. exfalso.
    enough (existsb (Nat.eqb t) (flat_map read_here l) = true) by congruence. apply existsb_exists. exists t. split; eauto. apply Nat.eqb_refl.
  - subst x. cbn in Hl. apply andb_true_iff in Hl. destruct Hl as [Hl _]. apply negb_true_iff in Hl. exfalso.
    enough (existsb (Nat.eqb t) (flat_map read_here l) = true) by congruence. apply existsb_exists. exists t. split; eauto. apply Nat.eqb_refl.
  - apply IH; auto. clear -Hl. destruct (read_here x) as [|y [|]] eqn:E; cbn in Hl; auto.
    + apply andb_true_iff in Hl. tauto.
    + destruct x as [[? ?] [|[]]]; discriminate.
Qed.

(** ** Statements: [0 -> 0 1 ; | 1 ;], [1 -> 1 + x | x], with [x = 1], [+ = 2], [; = 3]. *)
Definition stmts : grammar nat nat :=
  gram [(0, [var 0; var 1; ter 3]); (0, [var 1; ter 3]); (1, [var 1; ter 2; ter 1]); (1, [ter 1])].

Lemma stmts_built : built stmts.
Proof. apply gram_built. reflexivity. Qed.

Lemma stmts_free : epsilon_free stmts.
Proof. intros v bd _ H. each_rule H; cbn; intuition discriminate. Qed.

Lemma stmts_reachable : all_reachable stmts.
Proof.
  intros v bd H. assert (Hv : v = 0 \/ v = 1) by (each_rule H; auto). destruct Hv as [-> | ->].
  - exists [], []. constructor.
  - exists [], [ter 3]. apply (step_at stmts _ [] 0 [var 1; ter 3] []); [constructor|a_rule].
Qed.

Lemma stmts_productive v bd : rule stmts v bd -> productive stmts v.
Proof.
  intros H. assert (Hv : v = 0 \/ v = 1) by (each_rule H; auto). destruct Hv as [-> | ->].
  - exists [1; 3]. apply (step_at stmts _ [] 1 [ter 1] [ter 3]); [|a_rule].
    apply (step_at stmts _ [] 0 [var 1; ter 3] []); [constructor|a_rule].
  - exists [1]. apply (step_at stmts _ [] 1 [ter 1] []); [constructor|a_rule].
Qed.

Lemma stmts_start_followed : followed_by stmts 0 1.
Proof.
  exists 0, [], [ter 3]. split; [exists [var 1; ter 3]; a_rule|].
  apply (step_at stmts _ [var 0] 1 [ter 1] [ter 3]); [|a_rule].
  apply (step_at stmts _ [] 0 [var 0; var 1; ter 3] []); [constructor|a_rule].
Qed.

Lemma stmts_followed v bd : rule stmts v bd -> v = 0 \/ exists t, followed_by stmts v t.
Proof.
  intros H. assert (Hv : v = 0 \/ v = 1) by (each_rule H; auto). destruct Hv as [-> | ->]; auto. right. exists 2, 1, [], [ter 1].
  split; [exists [ter 1]; a_rule|]. apply (step_at stmts _ [] 1 [var 1; ter 2; ter 1] []); [constructor|a_rule].
Qed.

Lemma stmts_entry : entry_sure stmts 0.
Proof. right. left. exists 1. apply stmts_start_followed. Qed.

Lemma stmts_front : start_at_front stmts.
Proof.
  assert (Hinv : forall x, steps stmts [var 0] x -> ~ In (var 0) (tl x)).
  { intros x H. remember [var 0] as x0. induction H as [x|x y z H IH Hs]; [subst; cbn; tauto|]. specialize (IH Heqx0).
    destruct Hs as [l v bd r Hr|l r].
    - destruct l as [|s l]; cbn [app tl] in *.
      + each_rule Hr; cbn; intuition discriminate.
      + rewrite in_app_iff in *. cbn [In] in IH. rewrite in_app_iff.
        assert (Hv : ~ (v = 0)) by (intros ->; tauto).
        each_rule Hr; try (exfalso; apply Hv; reflexivity); cbn; intuition discriminate.
    - destruct l as [|s l]; cbn [app tl] in *; [destruct r; cbn in *; tauto|]. rewrite in_app_iff in *. cbn [In] in IH. tauto. }
  intros l r H. apply Hinv in H. destruct l as [|s l]; auto. cbn in H. destruct H. apply in_app_iff. right. left. reflexivity.
Qed.

Lemma stmts_no_cycle : no_unit_cycle stmts.
Proof.
  intros v H. assert (Hno : forall x y, rule stmts x [var y] -> False).
  { intros x y Hr. apply rule_in in Hr. vm_compute in Hr. intuition discriminate. }
  destruct H; eauto.
Qed.

Definition stmts_cfsm : cfsm nat nat := match from_grammar (ho := id_order) 60 [] stmts with Val c => c | _ => {| cf_states := []; cf_start := 0; cf_grammar := stmts |} end.
Lemma stmts_cfsm_eq : from_grammar (ho := id_order) 60 [] stmts = Val stmts_cfsm.
Proof. vm_compute. reflexivity. Qed.

Lemma stmts_no_conflict : ~ slr_conflict stmts.
Proof. apply (lone_no_conflict stmts stmts_cfsm stmts_built stmts_cfsm_eq). vm_compute. reflexivity. Qed.

Lemma stmts_single w h a r h' a' r' t : lr0 stmts w (h, a, Ter t :: r) -> lr0 stmts w (h', a', Ter t :: r') -> (h, a, r) = (h', a', r').
Proof. apply (single_reads_same stmts stmts_cfsm stmts_built stmts_cfsm_eq). vm_compute. reflexivity. Qed.

(** [x + x ; x ;] *)
Definition stmts_text : list nat := [1; 2; 1; 3; 1; 3].
Definition stmts_tree : tree nat nat :=
  Branch 0 [Branch 0 [Branch 1 [Branch 1 [Leaf 1]; Leaf 2; Leaf 1]; Leaf 3]; Branch 1 [Leaf 1]; Leaf 3].

Ltac derive := repeat first
  [ apply derivation_leaf
  | match goal with |- Forall _ _ => constructor end ].

Lemma branch (g : grammar nat nat) teq v bd cs : In (v, bd) (rule_list g) -> Forall2 (sat teq) (filter not_eps bd) cs ->
  Forall (derivation g teq) cs -> derivation g teq (Branch v cs).
Proof. intros H. apply rule_in in H. econstructor; eauto. Qed.

Lemma stmts_parses : parses stmts Nat.eqb stmts_text stmts_tree.
Proof.
  split; [|split; [reflexivity|eexists; reflexivity]].
  apply (branch _ _ _ [var 0; var 1; ter 3]); [vm_compute; tauto|repeat constructor|]. derive.
  - apply (branch _ _ _ [var 1; ter 3]); [vm_compute; tauto|repeat constructor|]. derive.
    apply (branch _ _ _ [var 1; ter 2; ter 1]); [vm_compute; tauto|repeat constructor|]. derive.
    apply (branch _ _ _ [ter 1]); [vm_compute; tauto|repeat constructor|]. derive.
  - apply (branch _ _ _ [ter 1]); [vm_compute; tauto|repeat constructor|]. derive.
Qed.

Lemma stmts_ends : ends_in_leaf stmts_tree.
Proof. exists 0, [Branch 0 [Branch 1 [Branch 1 [Leaf 1]; Leaf 2; Leaf 1]; Leaf 3]; Branch 1 [Leaf 1]], 3. reflexivity. Qed.

(** The table, for any equality of terminals. *)
Definition new_of (ho : HashOrder) (teq : nat -> nat -> bool) (g : grammar nat nat) : table nat nat :=
  match slr_new (ho := ho) teq 60 [] g with Val tb => tb | _ => {| tb_action := []; tb_goto := []; tb_grammar := g |} end.
Definition stmts_table : table nat nat := new_of id_order Nat.eqb stmts.
Lemma stmts_new : slr_new (ho := id_order) Nat.eqb 60 [] stmts = Val stmts_table.
Proof. vm_compute. reflexivity. Qed.

Lemma stmts_run : parse Nat.eqb 60 stmts_table stmts_text = Val (Some (to_node stmts_tree)).
Proof. vm_compute. reflexivity. Qed.

(** ** [0 -> a b | a c] is SLR(1). *)
Definition shared : grammar nat nat := gram [(0, [ter 1; ter 2]); (0, [ter 1; ter 3])].
Lemma shared_built : built shared.
Proof. apply gram_built. reflexivity. Qed.
Definition shared_cfsm : cfsm nat nat := match from_grammar (ho := id_order) 60 [] shared with Val c => c | _ => {| cf_states := []; cf_start := 0; cf_grammar := stmts |} end.
Lemma shared_no_conflict : ~ slr_conflict shared.
Proof. apply (lone_no_conflict shared shared_cfsm shared_built); vm_compute; reflexivity. Qed.
Lemma shared_panics (ho : HashOrder) p : exists n, forall fuel, n <= fuel -> slr_new Nat.eqb fuel p shared = Panic.
Proof.
  destruct (slr_new_total Nat.eqb eq_lawful shared shared_built p) as (n & r & E & [[-> _]|(tb & -> & Hn)]); [eauto|].
  destruct Hn. exists [], (0, [], [ter 1; ter 2]), (Some 1), (0, [], [ter 1; ter 3]), (Some 1).
  assert (Hs : forall bd, rule shared 0 (ter 1 :: bd) -> lr0 shared [] (0, [], ter 1 :: bd)).
  { intros bd Hr. change 0 with (g_start shared). eapply lr0_start; eauto. constructor. discriminate. }
  split; [split; [apply Hs; a_rule|reflexivity]|]. split; [split; [apply Hs; a_rule|reflexivity]|]. split; [congruence|reflexivity].
Qed.

(** ** [0 -> a]: the start variable has no FOLLOW entry. *)
Definition single : grammar nat nat := gram [(0, [ter 1])].
Lemma single_built : built single.
Proof. apply gram_built. reflexivity. Qed.
Definition single_table : table nat nat := new_of id_order Nat.eqb single.
Lemma single_new : slr_new (ho := id_order) Nat.eqb 60 [] single = Val single_table.
Proof. vm_compute. reflexivity. Qed.
Lemma single_panics fuel : 3 <= fuel -> parse Nat.eqb fuel single_table [1] = Panic.
Proof. apply parse_stable; [vm_compute; reflexivity|discriminate]. Qed.
Lemma single_item : lr0 single [ter 1] (0, [ter 1], []).
Proof.
  change [ter 1] with ([] ++ [ter 1]) at 1. eapply lr0_goto with (a := []) (r := []); [|cbn; constructor; discriminate].
  change 0 with (g_start single). eapply lr0_start; [a_rule|constructor; discriminate].
Qed.
Lemma single_parses : parses single Nat.eqb [1] (Branch 0 [Leaf 1]).
Proof.
  split; [|split; [reflexivity|eexists; reflexivity]]. apply (branch _ _ _ [ter 1]); [vm_compute; tauto|repeat constructor|]. derive.
Qed.

(** ** [0 -> a 0 c | b] accepts [a b]. *)
Definition nest : grammar nat nat := gram [(0, [ter 1; var 0; ter 3]); (0, [ter 2])].
Lemma nest_built : built nest.
Proof. apply gram_built. reflexivity. Qed.
Definition nest_table : table nat nat := new_of id_order Nat.eqb nest.
Lemma nest_new : slr_new (ho := id_order) Nat.eqb 60 [] nest = Val nest_table.
Proof. vm_compute. reflexivity. Qed.
Lemma nest_run fuel : 4 <= fuel -> parse Nat.eqb fuel nest_table [1; 2] = Val (Some (Node (var 0) [Node (ter 2) []])).
Proof. apply parse_stable; [vm_compute; reflexivity|discriminate]. Qed.
Lemma nest_no_sentence x : ~ parses nest Nat.eqb [1; 2] x.
Proof.
  intros (D & L & cs & ->). inversion D as [|v bd cs' Hr Hs Hd]; subst. cbn [nest gram] in Hr. change (g_start nest) with 0 in *.
  each_rule Hr; cbn [filter not_eps] in Hs.
  - inversion Hs as [|? ? ? ? S1 Hs1]; subst. inversion Hs1 as [|? ? ? ? S2 Hs2]; subst. inversion Hs2 as [|? ? ? ? S3 Hs3]; subst.
    inversion Hs3; subst. destruct y1 as [t|]; cbn [sat] in S3; [|tauto]. apply Nat.eqb_eq in S3. subst t.
    cbn [leaves flat_map] in L. rewrite app_nil_r, app_assoc in L. change [1; 2] with ([1] ++ [2]) in L. apply app_inj_tail in L. destruct L. discriminate.
  - inversion Hs as [|? ? ? ? S1 Hs1]; subst. inversion Hs1; subst. destruct y as [t|]; cbn in S1; [|tauto]. discriminate.
Qed.

(** ** [0 -> 0 b | 1], [1 -> a] rejects its sentence [a]. *)
Definition grow : grammar nat nat := gram [(0, [var 0; ter 2]); (0, [var 1]); (1, [ter 1])].
Lemma grow_built : built grow.
Proof. apply gram_built. reflexivity. Qed.
Definition grow_table : table nat nat := new_of id_order Nat.eqb grow.
Lemma grow_new : slr_new (ho := id_order) Nat.eqb 60 [] grow = Val grow_table.
Proof. vm_compute. reflexivity. Qed.
Lemma grow_run fuel : 4 <= fuel -> parse Nat.eqb fuel grow_table [1] = Val None.
Proof. apply parse_stable; [vm_compute; reflexivity|discriminate]. Qed.
Lemma grow_parses : parses grow Nat.eqb [1] (Branch 0 [Branch 1 [Leaf 1]]).
Proof.
  split; [|split; [reflexivity|eexists; reflexivity]]. apply (branch _ _ _ [var 1]); [vm_compute; tauto|repeat constructor|]. derive.
  apply (branch _ _ _ [ter 1]); [vm_compute; tauto|repeat constructor|]. derive.
Qed.

(** ** [0 -> 1], [1 -> 2 | a], [2 -> 1], [3 -> 1 b] runs in circles on [a b]. *)
Definition circle : grammar nat nat := gram [(0, [var 1]); (1, [var 2]); (1, [ter 1]); (2, [var 1]); (3, [var 1; ter 2])].
Lemma circle_built : built circle.
Proof. apply gram_built. reflexivity. Qed.
Lemma circle_free : epsilon_free circle.
Proof. intros v bd _ H. each_rule H; cbn; intuition discriminate. Qed.
Definition circle_table : table nat nat := new_of id_order Nat.eqb circle.
Lemma circle_new : slr_new (ho := id_order) Nat.eqb 60 [] circle = Val circle_table.
Proof. vm_compute. reflexivity. Qed.

Lemma circle_turn f : forall n, ploop Nat.eqb circle_table f [2] [(n, 1); (Node (var 0) [], 0)] = Diverge /\
  ploop Nat.eqb circle_table f [2] [(n, 2); (Node (var 0) [], 0)] = Diverge.
Proof.
  induction f as [|f IH]; intros n; [split; reflexivity|]. split; [exact (proj2 (IH (Node (var 2) [n])))|exact (proj1 (IH (Node (var 1) [n])))].
Qed.
Lemma circle_diverges fuel : parse Nat.eqb fuel circle_table [1; 2] = Diverge.
Proof.
  rewrite parse_ploop. destruct fuel as [|[|f]]; [reflexivity|reflexivity|]. exact (proj1 (circle_turn f (Node (var 1) [Node (ter 1) []]))).
Qed.

(** ** [0 -> 1 1 a | b 1 a], [1 -> epsilon] runs in circles on [b a]. *)
Definition empties : grammar nat nat := gram [(0, [var 1; var 1; ter 1]); (0, [ter 2; var 1; ter 1]); (1, [eps])].
Lemma empties_built : built empties.
Proof. apply gram_built. reflexivity. Qed.
Definition empties_table : table nat nat := new_of id_order Nat.eqb empties.
Lemma empties_new : slr_new (ho := id_order) Nat.eqb 60 [] empties = Val empties_table.
Proof. vm_compute. reflexivity. Qed.
Lemma empties_reachable : all_reachable empties.
Proof.
  intros v bd H. assert (Hv : v = 0 \/ v = 1) by (each_rule H; auto). destruct Hv as [-> | ->].
  - exists [], []. constructor.
  - exists [], [var 1; ter 1]. apply (step_at empties _ [] 0 [var 1; var 1; ter 1] []); [constructor|a_rule].
Qed.
Lemma empties_parses : parses empties Nat.eqb [2; 1] (Branch 0 [Leaf 2; Branch 1 []; Leaf 1]).
Proof.
  split; [|split; [reflexivity|eexists; reflexivity]].
  apply (branch _ _ _ [ter 2; var 1; ter 1]); [vm_compute; tauto|repeat constructor|]. derive.
  apply (branch _ _ _ [eps]); [vm_compute; tauto|repeat constructor|]. derive.
Qed.
Lemma empties_turn f n : ploop Nat.eqb empties_table f [1] [(n, 1); (Node (var 0) [], 0)] = Diverge.
Proof. revert n. induction f as [|f IH]; intros n; [reflexivity|]. exact (IH (Node (var 1) [n])). Qed.
Lemma empties_diverges fuel : parse Nat.eqb fuel empties_table [2; 1] = Diverge.
Proof.
  rewrite parse_ploop. destruct fuel as [|[|f]]; [reflexivity|reflexivity|]. exact (empties_turn f (Node (var 1) [Node (ter 2) []])).
Qed.

(** ** [0 -> 1 | 2], [1 -> 3], [2 -> 3], [3 -> a] is ambiguous. *)
Definition twofold : grammar nat nat := gram [(0, [var 1]); (0, [var 2]); (1, [var 3]); (2, [var 3]); (3, [ter 1])].
Lemma twofold_built : built twofold.
Proof. apply gram_built. reflexivity. Qed.
Definition twofold_table : table nat nat := new_of id_order Nat.eqb twofold.
Lemma twofold_new : slr_new (ho := id_order) Nat.eqb 60 [] twofold = Val twofold_table.
Proof. vm_compute. reflexivity. Qed.
Lemma twofold_parses v : v = 1 \/ v = 2 -> parses twofold Nat.eqb [1] (Branch 0 [Branch v [Branch 3 [Leaf 1]]]).
Proof.
  intros Hv. split; [|split; [reflexivity|eexists; reflexivity]].
  apply (branch _ _ _ [var v]); [destruct Hv; subst v; vm_compute; tauto|repeat constructor|]. derive.
  apply (branch _ _ _ [var 3]); [destruct Hv; subst v; vm_compute; tauto|repeat constructor|]. derive.
  apply (branch _ _ _ [ter 1]); [vm_compute; tauto|repeat constructor|]. derive.
Qed.

(** ** [0 -> a], [1 -> 2 epsilon], [2 -> 3], [3 -> 0] depends on the hash order. *)
Definition fickle : grammar nat nat := gram [(0, [ter 1]); (1, [var 2; eps]); (2, [var 3]); (3, [var 0])].
Lemma fickle_built : built fickle.
Proof. apply gram_built. reflexivity. Qed.
(** Reverses one of the iterations: the one over the dependencies of
    [follow_set], a map that is iterated over once. *)
Definition third (k : list nat) (A : Type) (l : list A) : list A := match k with [3; 0; 1] => rev l | _ => l end.
Lemma third_perm k A (l : list A) : Permutation (third k A l) l.
Proof.
  destruct k as [|[|[|[|[|n]]]] [|[|n'] [|[|[|n'']] [|? ?]]]]; try apply Permutation_refl. apply Permutation_sym, Permutation_rev.
Qed.
Definition third_order : HashOrder := {| hash_at := third; hash_at_perm := third_perm |}.
Definition fickle_table : table nat nat := new_of id_order Nat.eqb fickle.
Definition fickle_table' : table nat nat := new_of third_order Nat.eqb fickle.
Lemma fickle_new : slr_new (ho := id_order) Nat.eqb 60 [] fickle = Val fickle_table.
Proof. vm_compute. reflexivity. Qed.
Lemma fickle_new' : slr_new (ho := third_order) Nat.eqb 60 [] fickle = Val fickle_table'.
Proof. vm_compute. reflexivity. Qed.
Lemma fickle_run fuel : 4 <= fuel -> parse Nat.eqb fuel fickle_table [1] = Val (Some (Node (var 0) [Node (ter 1) []])).
Proof. apply parse_stable; [vm_compute; reflexivity|discriminate]. Qed.
Lemma fickle_run' fuel : 4 <= fuel -> parse Nat.eqb fuel fickle_table' [1] = Panic.
Proof. apply parse_stable; [vm_compute; reflexivity|discriminate]. Qed.

(** ** [0 -> 0 a | a], fed by the lexer of [b+] and [a]. *)
Definition letters : grammar nat nat := gram [(0, [var 0; ter 0]); (0, [ter 0])].
Lemma letters_built : built letters.
Proof. apply gram_built. reflexivity. Qed.
Definition letters_table : table nat nat := new_of id_order Nat.eqb letters.
Lemma letters_new : slr_new (ho := id_order) Nat.eqb 60 [] letters = Val letters_table.
Proof. vm_compute. reflexivity. Qed.

(** ** [0 -> 1 | 2 c], [1 -> a], [2 -> b] fails in two ways on [a]. *)
Definition moody : grammar nat nat := gram [(0, [var 1]); (0, [var 2; ter 3]); (1, [ter 1]); (2, [ter 2])].
Lemma moody_built : built moody.
Proof. apply gram_built. reflexivity. Qed.
Definition moody_table : table nat nat := new_of id_order Nat.eqb moody.
Definition moody_table' : table nat nat := new_of rev_order Nat.eqb moody.
Lemma moody_new : slr_new (ho := id_order) Nat.eqb 60 [] moody = Val moody_table.
Proof. vm_compute. reflexivity. Qed.
Lemma moody_new' : slr_new (ho := rev_order) Nat.eqb 60 [] moody = Val moody_table'.
Proof. vm_compute. reflexivity. Qed.
Lemma moody_run fuel : 4 <= fuel -> parse Nat.eqb fuel moody_table [1] = Val None.
Proof. apply parse_stable; [vm_compute; reflexivity|discriminate]. Qed.
Lemma moody_run' fuel : 4 <= fuel -> parse Nat.eqb fuel moody_table' [1] = Panic.
Proof. apply parse_stable; [vm_compute; reflexivity|discriminate]. Qed.
