(** A machine with a stack of numbers, and a grammar for the texts it accepts. *)
From Verif Require Import Base GrammarModel SpecCfg SlrMoves.

Section Track.
  Context {V T : Type}.
  Variable teq : T -> T -> bool.
  Hypothesis Hteq : lawful teq.
  (** In a state and before a token: put a state on the stack and take the token; or
      take one more state than the number from the stack, then put the one that the
      variable gives. *)
  Variable shifts : list (nat * T * nat).
  Variable reduces : list (nat * T * V * nat).
  Variable gotos : list (nat * V * nat).
  (** At the end of the text: accept, if the stack has that many states. *)
  Variable accepts : list (nat * nat).

  (** The machine accepts after so many moves. *)
  Inductive runs : nat -> list nat -> list T -> Prop :=
  | runs_accept : forall q st k, In (q, k) accepts -> k <= S (length st) -> runs 0 (q :: st) []
  | runs_shift : forall n q st t ts t' d, In (q, t', d) shifts -> teq t t' = true -> runs n (d :: q :: st) ts -> runs (S n) (q :: st) (t :: ts)
  | runs_reduce : forall n q st t ts t' v j p st' d, In (q, t', v, j) reduces -> teq t t' = true -> skipn j st = p :: st' -> In (p, v, d) gotos ->
      runs n (d :: p :: st') (t :: ts) -> runs (S n) (q :: st) (t :: ts).

  (** The text read until ... *)
  Inductive track : Type :=
  (** ... the end *)
  | TInput
  (** ... [q] on top is taken, with [j] more, for [v]; [a] and [b] are the next tokens before and after *)
  | TPop (q : nat) (a : T) (v : V) (j : nat) (b : T)
  (** ... [q] below [d] is taken *)
  | TOver (q d : nat) (a : T) (v : V) (j : nat) (b : T)
  (** ... the end, with [q] on top and never taken, and a stack of [h] states *)
  | TEnd (q h : nat) (a : option T)
  (** ... the end, with [q] below [d] never taken. *)
  | TUp (q h d : nat) (a : option T).

  Definition tokens_seen : list T := map (fun x => snd (fst x)) shifts ++ map (fun x => snd (fst (fst x))) reduces.
  Definition states : list nat := 0 :: flat_map (fun x => [fst (fst x); snd x]) shifts ++ flat_map (fun x => [fst (fst x); snd x]) gotos.
  Definition heads : list V := map (fun x => snd (fst x)) reduces.
  (** Larger than every number of states. *)
  Definition most : nat := S (list_max (map snd reduces ++ map snd accepts)).
  Definition counts : list nat := seq 0 (S most).
  Definition ahead : list (option T) := None :: map Some tokens_seen.
  Definition like (t : T) : list T := filter (fun a => teq a t) tokens_seen.

  Definition track_rules : list (track * list (symbol track T)) :=
    map (fun c => (TInput, [Var (TEnd 0 (Nat.min most 1) c)])) ahead ++
    flat_map (fun '(q, t, v, j) => map (fun a => (TPop q a v j a, [Eps])) (like t)) reduces ++
    flat_map (fun '(q, t, d) => flat_map (fun a => flat_map (fun v => flat_map (fun j => flat_map (fun b => map (fun c =>
      (TPop q a v j b, [Ter a; Var (TOver q d c v j b)])) tokens_seen) tokens_seen) counts) heads) (like t)) shifts ++
    flat_map (fun q => flat_map (fun d => flat_map (fun v => flat_map (fun j => flat_map (fun b => map (fun a =>
      (TOver q d a v j b, [Var (TPop d a v (S j) b)])) tokens_seen) tokens_seen) counts) heads) states) states ++
    flat_map (fun '(q, v1, d1) => flat_map (fun d => flat_map (fun v => flat_map (fun j => flat_map (fun b => flat_map (fun a => map (fun b1 =>
      (TOver q d a v j b, [Var (TPop d a v1 0 b1); Var (TOver q d1 b1 v j b)])) tokens_seen) tokens_seen) tokens_seen) counts) heads) states) gotos ++
    flat_map (fun '(q, k) => flat_map (fun h => if Nat.leb k h then [(TEnd q h None, [Eps])] else []) counts) accepts ++
    flat_map (fun '(q, t, d) => flat_map (fun a => flat_map (fun h => map (fun c =>
      (TEnd q h (Some a), [Ter a; Var (TUp q h d c)])) ahead) counts) (like t)) shifts ++
    flat_map (fun q => flat_map (fun d => flat_map (fun h => map (fun c =>
      (TUp q h d c, [Var (TEnd d (Nat.min most (S h)) c)])) ahead) counts) states) states ++
    flat_map (fun '(q, v, d1) => flat_map (fun d => flat_map (fun h => flat_map (fun c => map (fun b =>
      (TUp q h d (Some c), [Var (TPop d c v 0 b); Var (TUp q h d1 (Some b))])) tokens_seen) tokens_seen) counts) states) gotos.

  Definition track_grammar : grammar track T :=
    {| g_start := TInput; g_rules := map (fun r => (fst r, [snd r])) track_rules |}.

  Arguments most : simpl never.
  Arguments Nat.min : simpl never.
  Notation der_rule := (rule track_grammar).

  (** ** The rules *)
  Inductive made_rule : track -> list (symbol track T) -> Prop :=
  | made_input : forall c, In c ahead -> made_rule TInput [Var (TEnd 0 (Nat.min most 1) c)]
  | made_reduce : forall q t v j a, In (q, t, v, j) reduces -> In a tokens_seen -> teq a t = true -> made_rule (TPop q a v j a) [Eps]
  | made_shift : forall q t d a c v j b, In (q, t, d) shifts -> In a tokens_seen -> teq a t = true -> In c tokens_seen -> In v heads -> j <= most -> In b tokens_seen ->
      made_rule (TPop q a v j b) [Ter a; Var (TOver q d c v j b)]
  | made_both : forall q d a v j b, In q states -> In d states -> In a tokens_seen -> In v heads -> j <= most -> In b tokens_seen ->
      made_rule (TOver q d a v j b) [Var (TPop d a v (S j) b)]
  | made_goto : forall q v1 d1 d a b1 v j b, In (q, v1, d1) gotos -> In d states -> In a tokens_seen -> In b1 tokens_seen -> In v heads -> j <= most -> In b tokens_seen ->
      made_rule (TOver q d a v j b) [Var (TPop d a v1 0 b1); Var (TOver q d1 b1 v j b)]
  | made_accept : forall q k h, In (q, k) accepts -> k <= h -> h <= most -> made_rule (TEnd q h None) [Eps]
  | made_last : forall q t d a h c, In (q, t, d) shifts -> In a tokens_seen -> teq a t = true -> h <= most -> In c ahead ->
      made_rule (TEnd q h (Some a)) [Ter a; Var (TUp q h d c)]
  | made_up : forall q d h c, In q states -> In d states -> h <= most -> In c ahead -> made_rule (TUp q h d c) [Var (TEnd d (Nat.min most (S h)) c)]
  | made_down : forall q v d1 d h c b, In (q, v, d1) gotos -> In d states -> h <= most -> In c tokens_seen -> In b tokens_seen ->
      made_rule (TUp q h d (Some c)) [Var (TPop d c v 0 b); Var (TUp q h d1 (Some b))].

  Lemma in_counts h : In h counts <-> h <= most.
  Proof. unfold counts. rewrite in_seq. lia. Qed.
  Lemma in_like a t : In a (like t) <-> In a tokens_seen /\ teq a t = true.
  Proof. unfold like. rewrite filter_In. reflexivity. Qed.

  Lemma rule_in_list X bd : der_rule X bd <-> In (X, bd) track_rules.
  Proof.
    unfold rule, track_grammar. cbn [g_rules]. split.
    - intros (bds & H1 & H2). apply in_map_iff in H1. destruct H1 as ([X' bd'] & [= <- <-] & H1). destruct H2 as [<-|[]]. exact H1.
    - intros H. exists [bd]. split; [|left; auto]. apply in_map_iff. exists (X, bd). auto.
  Qed.

  Lemma made_in X bd : made_rule X bd -> In (X, bd) track_rules.
  Proof.
    unfold track_rules. rewrite !in_app_iff. intros H. destruct H.
    - left. apply in_map_iff. eauto.
    - do 1 right. left. apply in_flat_map. exists (q, t, v, j). split; auto. apply in_map_iff. exists a. rewrite in_like. auto.
    - do 2 right. left. apply in_flat_map. exists (q, t, d). split; auto. apply in_flat_map. exists a. split; [rewrite in_like; auto|].
      apply in_flat_map. exists v. split; auto. apply in_flat_map. exists j. split; [rewrite in_counts; auto|].
      apply in_flat_map. exists b. split; auto. apply in_map_iff. exists c. auto.
    - do 3 right. left. apply in_flat_map. exists q. split; auto. apply in_flat_map. exists d. split; auto.
      apply in_flat_map. exists v. split; auto. apply in_flat_map. exists j. split; [rewrite in_counts; auto|].
      apply in_flat_map. exists b. split; auto. apply in_map_iff. exists a. auto.
    - do 4 right. left. apply in_flat_map. exists (q, v1, d1). split; auto. apply in_flat_map. exists d. split; auto.
      apply in_flat_map. exists v. split; auto. apply in_flat_map. exists j. split; [rewrite in_counts; auto|].
      apply in_flat_map. exists b. split; auto. apply in_flat_map. exists a. split; auto. apply in_map_iff. exists b1. auto.
    - do 5 right. left. apply in_flat_map. exists (q, k). split; auto. apply in_flat_map. exists h. split; [rewrite in_counts; auto|].
      destruct (Nat.leb_spec k h); [left; auto|lia].
    - do 6 right. left. apply in_flat_map. exists (q, t, d). split; auto. apply in_flat_map. exists a. split; [rewrite in_like; auto|].
      apply in_flat_map. exists h. split; [rewrite in_counts; auto|]. apply in_map_iff. exists c. auto.
    - do 7 right. left. apply in_flat_map. exists q. split; auto. apply in_flat_map. exists d. split; auto.
      apply in_flat_map. exists h. split; [rewrite in_counts; auto|]. apply in_map_iff. exists c. auto.
    - do 8 right. apply in_flat_map. exists (q, v, d1). split; auto. apply in_flat_map. exists d. split; auto.
      apply in_flat_map. exists h. split; [rewrite in_counts; auto|]. apply in_flat_map. exists c. split; auto. apply in_map_iff. exists b. auto.
  Qed.

  Ltac unlist H :=
    repeat (first [apply in_flat_map in H; let x := fresh "x" in let Hx := fresh "Hx" in destruct H as (x & Hx & H)
                  |apply in_map_iff in H; let x := fresh "x" in let Ex := fresh "Ex" in destruct H as (x & Ex & H)]).

  Lemma in_made X bd : In (X, bd) track_rules -> made_rule X bd.
  Proof.
    unfold track_rules. rewrite !in_app_iff. intros [H|[H|[H|[H|[H|[H|[H|[H|H]]]]]]]].
    - unlist H. injection Ex as <- <-. constructor; auto.
    - apply in_flat_map in H. destruct H as ([[[q t] v] j] & H1 & H). apply in_map_iff in H. destruct H as (a & [= <- <-] & H). apply in_like in H. econstructor; intuition eauto.
    - apply in_flat_map in H. destruct H as ([[q t] d] & H1 & H). unlist H. injection Ex as <- <-. rewrite in_like in *. rewrite in_counts in *. econstructor; intuition eauto.
    - unlist H. injection Ex as <- <-. rewrite in_counts in *. constructor; auto.
    - apply in_flat_map in H. destruct H as ([[q v1] d1] & H1 & H). unlist H. injection Ex as <- <-. rewrite in_counts in *. constructor; auto.
    - apply in_flat_map in H. destruct H as ([q k] & H1 & H). apply in_flat_map in H. destruct H as (h & H2 & H). apply in_counts in H2.
      destruct (Nat.leb_spec k h); [|destruct H]. destruct H as [[= <- <-]|[]]. econstructor; eauto.
    - apply in_flat_map in H. destruct H as ([[q t] d] & H1 & H). unlist H. injection Ex as <- <-. rewrite in_like in *. rewrite in_counts in *. econstructor; intuition eauto.
    - unlist H. injection Ex as <- <-. rewrite in_counts in *. constructor; auto.
    - apply in_flat_map in H. destruct H as ([[q v1] d1] & H1 & H). unlist H. injection Ex as <- <-. rewrite in_counts in *. constructor; auto.
  Qed.

  Lemma rule_made X bd : der_rule X bd <-> made_rule X bd.
  Proof. rewrite rule_in_list. split; [apply in_made|apply made_in]. Qed.

  (** ** Texts of the variables *)
  Definition gives (X : track) (w : list T) : Prop :=
    exists y, derivation track_grammar teq y /\ sat teq (Var X) y /\ leaves y = w.

  Lemma gives_none X : made_rule X [Eps] -> gives X [].
  Proof. intros H. exists (Branch X []). split; [|split; reflexivity]. econstructor; [apply rule_made; exact H|constructor|constructor]. Qed.
  Lemma gives_one X Y w : made_rule X [Var Y] -> gives Y w -> gives X w.
  Proof.
    intros H (y & H1 & H2 & <-). exists (Branch X [y]). split; [|split; [reflexivity|cbn; apply app_nil_r]].
    econstructor; [apply rule_made; exact H|cbn; auto|auto].
  Qed.
  Lemma gives_two X Y Z w w' : made_rule X [Var Y; Var Z] -> gives Y w -> gives Z w' -> gives X (w ++ w').
  Proof.
    intros H (y & H1 & H2 & <-) (z & H3 & H4 & <-). exists (Branch X [y; z]). split; [|split; [reflexivity|cbn; rewrite app_nil_r; auto]].
    econstructor; [apply rule_made; exact H|cbn; auto|auto].
  Qed.
  Lemma gives_more X Y a t w : made_rule X [Ter a; Var Y] -> teq a t = true -> gives Y w -> gives X (t :: w).
  Proof.
    intros H E (y & H1 & H2 & <-). exists (Branch X [Leaf t; y]). split; [|split; [reflexivity|cbn; rewrite app_nil_r; auto]].
    econstructor; [apply rule_made; exact H|cbn; auto|constructor; [constructor|auto]].
  Qed.

  Definition starts (ts : list T) (a : option T) : Prop :=
    match ts, a with [], None => True | t :: _, Some a => teq t a = true | _, _ => False end.

  (** ** What is derived is run *)
  Definition pops (st : list nat) (v : V) (j : nat) (ts : list T) : Prop :=
    exists p st' d n, skipn j st = p :: st' /\ In (p, v, d) gotos /\ runs n (d :: p :: st') ts.

  Definition means (X : track) (w : list T) : Prop :=
    match X with
    | TInput => exists n, runs n [0] w
    | TPop q a v j b => forall st t ts, teq t b = true -> starts (w ++ t :: ts) (Some a) /\
        (pops st v j (t :: ts) -> exists n, runs n (q :: st) (w ++ t :: ts))
    | TOver q d a v j b => forall st t ts, teq t b = true -> starts (w ++ t :: ts) (Some a) /\
        (pops st v j (t :: ts) -> exists n, runs n (d :: q :: st) (w ++ t :: ts))
    | TEnd q h a => starts w a /\ forall st, h = Nat.min most (S (length st)) -> exists n, runs n (q :: st) w
    | TUp q h d a => starts w a /\ forall st, h = Nat.min most (S (length st)) -> exists n, runs n (d :: q :: st) w
    end.

  Lemma sound y : derivation track_grammar teq y -> forall X, sat teq (Var X) y -> means X (leaves y).
  Proof.
    destruct Hteq as (Hrefl & Hsym & Htrans).
    induction y as [t|Y cs IH] using tree_ind2; intros Hd X Hs; cbn in Hs; [destruct Hs|]. subst Y.
    inversion Hd as [|? bd ? Hr H2 H3]; subst. apply rule_made in Hr.
    assert (Hone : forall Y, Forall2 (sat teq) (filter not_eps [Var Y]) cs -> exists w, flat_map leaves cs = w /\ means Y w).
    { intros Y H. cbn in H. inversion H as [|? y ? ? S1 S2]; subst. inversion S2; subst. inversion IH as [|? ? I1 I2]; subst. inversion H3; subst.
      exists (leaves y). split; [cbn; apply app_nil_r|]. auto. }
    assert (Htwo : forall Y Z, Forall2 (sat teq) (filter not_eps [Var Y; Var Z]) cs -> exists w w', flat_map leaves cs = w ++ w' /\ means Y w /\ means Z w').
    { intros Y Z H. cbn in H. inversion H as [|? y ? ? S1 S2]; subst. inversion S2 as [|? z ? ? S3 S4]; subst. inversion S4; subst.
      inversion IH as [|? ? I1 I2]; subst. inversion I2; subst. inversion H3 as [|? ? D1 D2]; subst. inversion D2; subst.
      exists (leaves y), (leaves z). split; [cbn; rewrite app_nil_r; auto|]. split; auto. }
    assert (Hter : forall a Z, Forall2 (sat teq) (filter not_eps [Ter a; Var Z]) cs -> exists t w, flat_map leaves cs = t :: w /\ teq t a = true /\ means Z w).
    { intros a Z H. cbn in H. inversion H as [|? y ? ? S1 S2]; subst. inversion S2 as [|? z ? ? S3 S4]; subst. inversion S4; subst.
      inversion IH as [|? ? I1 I2]; subst. inversion I2; subst. inversion H3 as [|? ? D1 D2]; subst. inversion D2; subst.
      destruct y as [t|]; [|destruct S1]. exists t, (leaves z). split; [cbn; rewrite app_nil_r; auto|]. cbn in S1. split; auto. }
    cbn [leaves]. destruct Hr.
    - destruct (Hone _ H2) as (w & -> & Hm1 & Hm2). cbn. apply Hm2. reflexivity.
    - inversion H2; subst. cbn. intros st t0 ts Et. split; [exact Et|]. intros (p & st' & d & n & E & Hg & Hrun).
      exists (S n). eapply runs_reduce; eauto.
    - destruct (Hter _ _ H2) as (t0 & w & -> & E & Hm). cbn in Hm |- *. intros st t1 ts Et. split; [exact E|]. intros Hp.
      destruct (Hm st t1 ts Et) as (_ & Hm2). destruct (Hm2 Hp) as (n & Hn). exists (S n). eapply runs_shift; eauto.
    - destruct (Hone _ H2) as (w & -> & Hm). cbn in Hm |- *. intros st t1 ts Et. destruct (Hm (q :: st) t1 ts Et) as (Hm1 & Hm2). split; [exact Hm1|]. exact Hm2.
    - destruct (Htwo _ _ H2) as (w & w' & -> & Hm & Hm'). cbn in Hm, Hm' |- *. intros st t1 ts Et. rewrite <- app_assoc.
      destruct (Hm' st t1 ts Et) as (Hs1 & Hs2). destruct (w' ++ t1 :: ts) as [|t2 ts2] eqn:E2; [destruct w'; discriminate|]. cbn in Hs1.
      destruct (Hm (q :: st) t2 ts2 Hs1) as (Hq1 & Hq2). split; [exact Hq1|]. intros Hp. destruct (Hs2 Hp) as (n & Hn). apply Hq2.
      exists q, st, d1, n. auto.
    - inversion H2; subst. cbn. split; [exact I|]. intros st ->. exists 0. eapply runs_accept; eauto. lia.
    - destruct (Hter _ _ H2) as (t0 & w & -> & E & Hm1 & Hm2). cbn. split; [exact E|]. intros st Hh. destruct (Hm2 st Hh) as (n & Hn). exists (S n). eapply runs_shift; eauto.
    - destruct (Hone _ H2) as (w & -> & Hm1 & Hm2). cbn. split; [exact Hm1|]. intros st ->. apply Hm2. cbn [length]. lia.
    - destruct (Htwo _ _ H2) as (w & w' & -> & Hm & Hm1 & Hm2). cbn in Hm |- *. destruct w' as [|t2 ts2]; [destruct Hm1|]. cbn in Hm1. split.
      + apply (proj1 (Hm [] t2 ts2 Hm1)).
      + intros st Hh. destruct (Hm2 st Hh) as (n & Hn). apply (Hm (q :: st) t2 ts2 Hm1). exists q, st, d1, n. auto.
  Qed.

  (** ** What is run is derived *)

  Lemma seen_shift q t d : In (q, t, d) shifts -> In t tokens_seen /\ In q states /\ In d states.
  Proof.
    intros H. split; [|split].
    - apply in_app_iff. left. apply in_map_iff. exists (q, t, d). auto.
    - right. apply in_app_iff. left. apply in_flat_map. exists (q, t, d). cbn. auto.
    - right. apply in_app_iff. left. apply in_flat_map. exists (q, t, d). cbn. auto.
  Qed.
  Lemma seen_goto q v d : In (q, v, d) gotos -> In q states /\ In d states.
  Proof. intros H. split; right; apply in_app_iff; right; apply in_flat_map; exists (q, v, d); cbn; auto. Qed.
  Lemma seen_reduce q t v j : In (q, t, v, j) reduces -> In t tokens_seen /\ In v heads /\ j < most.
  Proof.
    intros H. split; [|split].
    - apply in_app_iff. right. apply in_map_iff. exists (q, t, v, j). auto.
    - apply in_map_iff. exists (q, t, v, j). auto.
    - unfold most. apply le_n_S. pose proof (proj1 (list_max_le (map snd reduces ++ map snd accepts) _) (le_n _)) as HF. rewrite Forall_forall in HF.
      apply HF. apply in_app_iff. left. apply in_map_iff. exists (q, t, v, j). auto.
  Qed.
  Lemma seen_accept q k : In (q, k) accepts -> k < most.
  Proof.
    intros H. unfold most. apply le_n_S. pose proof (proj1 (list_max_le (map snd reduces ++ map snd accepts) _) (le_n _)) as HF. rewrite Forall_forall in HF.
    apply HF. apply in_app_iff. right. apply in_map_iff. exists (q, k). auto.
  Qed.

  (** The next token, as the lists have it. *)
  Lemma runs_ahead n q st ts : runs n (q :: st) ts -> exists a, In a ahead /\ starts ts a.
  Proof.
    intros H. inversion H as [? ? k H1 H2|? ? ? t ts' t' d H1 H2 H3|? ? ? t ts' t' v j p st' d H1 H2 H3 H4 H5]; subst.
    - exists None. split; [left; auto|exact I].
    - exists (Some t'). split; [right; apply in_map; eapply seen_shift; eauto|exact H2].
    - exists (Some t'). split; [right; apply in_map; eapply seen_reduce; eauto|exact H2].
  Qed.

  (** The top is taken: what is read until then, and the run after it. *)
  Definition taken (n : nat) (X : V -> nat -> T -> track) (st : list nat) (ts : list T) : Prop :=
    exists w t ts' v j b p st' d m, gives (X v j b) w /\ ts = w ++ t :: ts' /\ teq t b = true /\ In v heads /\ j < most /\ In b tokens_seen /\
      skipn j st = p :: st' /\ In (p, v, d) gotos /\ runs m (d :: p :: st') (t :: ts') /\ m < n.

  Lemma some_ahead a : In (Some a) ahead -> In a tokens_seen.
  Proof. intros [H|H]; [discriminate|]. apply in_map_iff in H. destruct H as (x & [= ->] & H). exact H. Qed.

  Lemma complete n : forall q st ts a, runs n (q :: st) ts -> In q states -> In a ahead -> starts ts a ->
    gives (TEnd q (Nat.min most (S (length st))) a) ts \/ exists c, a = Some c /\ taken n (TPop q c) st ts.
  Proof.
    destruct Hteq as (Hrefl & Hsym & Htrans).
    induction n as [n IHn] using (well_founded_induction lt_wf). intros q st ts a H Hq Ha Hs.
    assert (Hover : forall m, m < n -> forall d q st ts a, runs m (d :: q :: st) ts -> In d states -> In q states -> In a ahead -> starts ts a ->
      gives (TUp q (Nat.min most (S (length st))) d a) ts \/ exists c, a = Some c /\ taken m (TOver q d c) st ts).
    { clear - IHn Hsym Htrans. induction m as [m IHm] using (well_founded_induction lt_wf). intros Hm d q st ts a H Hd Hq Ha Hs.
      destruct (IHn m Hm _ _ _ _ H Hd Ha Hs) as [Hg|(c & -> & w & t & ts' & v & j & b & p & st' & d' & k & Hg & -> & Et & Hv & Hj & Hbt & Ep & Hgo & Hr & Hk)].
      - left. eapply gives_one; [|exact Hg]. replace (Nat.min most (S (length (q :: st)))) with (Nat.min most (S (Nat.min most (S (length st))))) by (cbn [length]; lia).
        constructor; auto. lia.
      - apply some_ahead in Ha. destruct j as [|j].
        + cbn [skipn] in Ep. injection Ep as <- <-. destruct (seen_goto _ _ _ Hgo) as (_ & Hd').
          destruct (IHm k Hk ltac:(lia) d' q st (t :: ts') (Some b) Hr Hd' Hq) as [Hu|(c' & [= <-] & w2 & t2 & ts2 & v2 & j2 & b2 & p2 & st2 & d2 & k2 & Hg2 & E2 & Et2 & Hv2 & Hj2 & Hb2 & Ep2 & Hgo2 & Hr2 & Hk2)].
          * right. apply in_map. exact Hbt.
          * exact Et.
          * left. eapply gives_two; [|exact Hg|exact Hu]. constructor; auto. lia.
          * right. exists c. split; [reflexivity|]. exists (w ++ w2), t2, ts2, v2, j2, b2, p2, st2, d2, k2. split; [|rewrite E2, app_assoc; repeat split; auto; lia].
            eapply gives_two; [|exact Hg|exact Hg2]. constructor; auto. lia.
        + right. exists c. split; [reflexivity|]. exists w, t, ts', v, j, b, p, st', d', k. split; [|repeat split; auto; lia].
          eapply gives_one; [|exact Hg]. constructor; auto. lia. }
    inversion H as [? ? k H1 H2|n' ? ? t ts' t' d H1 H2 H3|n' ? ? t ts' t' v j p st' d H1 H2 H3 H4 H5]; subst.
    - destruct a as [a|]; [destruct Hs|]. left. apply gives_none. econstructor; [exact H1| |lia]. pose proof (seen_accept _ _ H1). lia.
    - destruct a as [a|]; [|destruct Hs]. cbn in Hs. apply some_ahead in Ha. destruct (seen_shift _ _ _ H1) as (_ & _ & Hd).
      destruct (runs_ahead _ _ _ _ H3) as (c & Hc & Hsc). assert (Ea : teq a t' = true) by (eapply Htrans; [apply Hsym; exact Hs|exact H2]).
      destruct (Hover n' ltac:(lia) d q st ts' c H3 Hd Hq Hc Hsc) as [Hu|(c' & -> & w & t2 & ts2 & v & j & b & p & st' & d2 & k & Hg & -> & Et & Hv & Hj & Hbt & Ep & Hgo & Hr & Hk)].
      + left. eapply gives_more; [|apply Hsym; exact Hs|exact Hu]. econstructor; eauto. lia.
      + right. exists a. split; [reflexivity|]. exists (t :: w), t2, ts2, v, j, b, p, st', d2, k. split; [|repeat split; auto].
        eapply gives_more; [|apply Hsym; exact Hs|exact Hg]. apply some_ahead in Hc. econstructor; eauto. lia.
    - destruct a as [a|]; [|destruct Hs]. cbn in Hs. apply some_ahead in Ha. right. exists a. split; [reflexivity|].
      assert (Ea : teq a t' = true) by (eapply Htrans; [apply Hsym; exact Hs|exact H2]). destruct (seen_reduce _ _ _ _ H1) as (_ & Hv & Hj).
      exists [], t, ts', v, j, a, p, st', d, n'. split; [|repeat split; auto; lia]. apply gives_none. econstructor; eauto.
  Qed.

  Lemma track_language ts : (exists n, runs n [0] ts) <-> exists y, parses track_grammar teq ts y.
  Proof.
    split.
    - intros (n & H). destruct (runs_ahead _ _ _ _ H) as (a & Ha & Hs).
      destruct (complete n 0 [] ts a H (or_introl eq_refl) Ha Hs) as [Hg|(c & -> & w & t & ts' & v & j & b & p & st' & d & m & _ & _ & _ & _ & _ & _ & E & _)].
      + destruct (gives_one TInput _ ts (made_input a Ha) Hg) as (y & H1 & H2 & H3). exists y. split; auto. split; auto.
        destruct y as [t|Y cs]; cbn in H2; [destruct H2|]. subst Y. cbn. eauto.
      + destruct j; discriminate.
    - intros (y & Hd & <- & cs & ->). apply (sound _ Hd TInput). reflexivity.
  Qed.
End Track.
