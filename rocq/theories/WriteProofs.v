(** Proofs for C93: tokens that are written can be read back. *)
From Verif Require Import Base RegexModel SpecRegex NfaModel SpecNfa NfaLangProofs LexerModel SpecLexer SpecMunch LexerWitness LexerMunch SpecPanic SpecPlain PlainProofs
  GrammarModel CfsmModel SlrModel PangoModel SpecCfg SpecWrap SpecFront SpecWrite WrapProofs SlrWitness FrontProofs.
From Coq Require Import Lia.

Section Write.
  Context {env : Env} {K : Type}.
  Context (L : expr -> list char -> Prop) (es : list expr) (gens : list (generator K)).
  Context (Ha : agreed L es) (Hs : steady es).

  (** A token that does not go on with the next character does not go on at all. *)
  Lemma stops x c y : x <> [] -> matched L es x -> ~ matched L es (x ++ [c]) -> ~ matched L es (x ++ c :: y).
  Proof.
    intros Hx Hm Hn H. apply Hn. apply (agreed_matched L es _ Ha). apply (agreed_matched L es _ Ha) in Hm, H. apply Hs; auto.
    apply (feedable_app es (x ++ [c]) y). rewrite <- app_assoc. right. destruct H as (e & He & H). exists e. split; auto. apply impl_lang_begun. exact H.
  Qed.

  Lemma skipn_more {A} n m (l : list A) : skipn (n + m) l = skipn m (skipn n l).
  Proof. revert l. induction n as [|n IH]; intros l; [reflexivity|]. destruct l as [|a l]; [cbn; destruct m; reflexivity|]. cbn. apply IH. Qed.

  Lemma written_munches text ks : written L es gens text ks ->
    forall input p, skipn p input = text ->
    exists tks, munches L es gens input p tks /\ flat_map lt_source tks = text /\ map lt_kind tks = ks.
  Proof.
    induction 1 as [|x k text ks (Hx & i & g & Hf & Hg & ->) Hn Hw IH]; intros input p E.
    - exists []. split; [|auto]. apply munch_end. rewrite E. intros [|a x] y E'; [congruence|discriminate].
    - destruct (IH input (p + length x)) as (tks & Hm & Hsrc & Hk).
      { rewrite skipn_more, E, skipn_app, skipn_all, Nat.sub_diag. reflexivity. }
      exists ({| lt_kind := gen_run g x; lt_source := x; lt_pos := (p, p + length x) |} :: tks). split; [|cbn; rewrite Hsrc, Hk; auto].
      eapply munch_token; eauto. intros x' y' E' Hl. rewrite E in E'.
      assert (exists z, x' = x ++ z) as (z & ->).
      { exists (skipn (length x) x'). rewrite <- (firstn_skipn (length x) x') at 1. f_equal.
        apply (f_equal (firstn (length x))) in E'. rewrite !firstn_app, Nat.sub_diag, firstn_all in E'. replace (length x - length x') with 0 in E' by lia.
        cbn [firstn] in E'. rewrite !app_nil_r in E'. symmetry. exact E'. }
      rewrite <- app_assoc in E'. apply app_inv_head in E'. destruct z as [|c z]; [rewrite app_nil_r in Hl; lia|].
      apply stops; auto.
      + apply (first_match_matched _ _ _ _ Hf).
      + apply (Hn c (z ++ y')). exact E'.
  Qed.

  Lemma munches_written input p tks : munches L es gens input p tks -> skipn p input = flat_map lt_source tks ->
    written L es gens (flat_map lt_source tks) (map lt_kind tks).
  Proof.
    induction 1 as [p He|p x y i g ts Hx Hne Hf Hg Hl Hm IH]; intros E; cbn [flat_map map lt_source lt_kind] in *; [constructor|].
    assert (Ey : skipn (p + length x) input = flat_map lt_source ts).
    { rewrite skipn_more, E, skipn_app, skipn_all, Nat.sub_diag. reflexivity. }
    constructor; [split; eauto 6| |apply IH; exact Ey].
    intros c r Ec. apply (Hl (x ++ [c]) r); [|rewrite app_length; cbn; lia]. rewrite E, Ec, <- app_assoc. reflexivity.
  Qed.

  Lemma written_reads text ks : written L es gens text ks <-> reads_all L es gens text ks.
  Proof.
    split.
    - intros H. destruct (written_munches text ks H text 0 eq_refl) as (tks & Hm & E & Ek). exists tks. auto.
    - intros (tks & Hm & E & <-). rewrite <- E. apply (munches_written text 0); [exact Hm|]. symmetry. exact E.
  Qed.
End Write.

Section Join.
  Context {env : Env} {K : Type} (L : expr -> list char -> Prop) (es : list expr) (gens : list (generator K)).

  Lemma joined_written s k xs ks : separator L es s -> text_of L es gens [s] k ->
    Forall2 (fun x k => text_of L es gens x k) xs ks -> written L es gens (joined s xs) (between k ks).
  Proof.
    intros Hsep Hk H. induction H as [|x k1 xs ks Hx H IH]; [constructor|].
    assert (Hnx : forall u v, u <> [] \/ v <> [] -> ~ matched L es (u ++ s :: v)).
    { intros u v Huv Hm. assert (E : u ++ s :: v = [s]) by (apply Hsep; [exact Hm|apply in_app_iff; cbn; auto]).
      destruct u as [|a u]; [|destruct u; discriminate]. destruct v; [|discriminate]. destruct Huv; congruence. }
    destruct H as [|x2 k2 xs ks Hx2 H].
    - cbn [joined between]. rewrite <- (app_nil_r x). apply written_one; [exact Hx|intros c r E; discriminate|constructor].
    - change (joined s (x :: x2 :: xs)) with (x ++ s :: joined s (x2 :: xs)). change (between k (k1 :: k2 :: ks)) with (k1 :: k :: between k (k2 :: ks)).
      constructor; auto.
      + intros c r [= <- _]. apply (Hnx x []). left. exact (proj1 Hx).
      + change (s :: joined s (x2 :: xs)) with ([s] ++ joined s (x2 :: xs)). constructor; auto.
        * intros c r _. apply (Hnx [] [c]). right. discriminate.
  Qed.
End Join.

Section Read.
  Context {env : Env} {K : Type} (L : expr -> list char -> Prop) (es : list expr).

  Lemma tokens_back (ts : list (list char * generator K)) text lx ks : build_lexer ts text = Val (inl lx) -> parsed ts es -> agreed L es -> steady es ->
    (forall e, In e es -> loops_ok e = true) -> written L es (map snd ts) text ks ->
    exists tks, map lt_kind tks = ks /\ flat_map lt_source tks = text /\
      forall n, exists N rest lx', forall (ho : HashOrder) fuel, N <= fuel ->
        lex_calls fuel (length tks + S n) lx = Val (map Some tks ++ None :: rest, lx').
  Proof.
    intros Hb Hp Ha Hs Hl Hw. apply (written_reads L es (map snd ts) Ha Hs) in Hw. destruct Hw as (tks & Hm & E & Ek).
    destruct (lexer_munch ts text lx es Hb Hp L Ha Hs Hl) as (tks' & Hm' & HN). rewrite (munches_unique L es (map snd ts) _ _ _ Hm _ Hm') in HN.
    exists tks. auto.
  Qed.
End Read.

Section Tree.
  Context {env : Env} {V K : Type} {dv : DecEq V} {dt : DecEq K}.

  Lemma tree_back (teq : K -> K -> bool) cs (g : grammar V K) z e o (ts : list (list char * generator K)) es c :
    lawful teq -> build (do_calls cs) = Val g -> clean g -> ~ textbook_clash g teq ->
    fresh_variable g z -> fresh_terminal teq g e -> fresh_terminal teq g o -> teq o e = false ->
    parsed ts es -> (forall x, In x es -> ~ gapped x) -> plain es ->
    (forall i gen x, nth_error (map snd ts) i = Some gen -> first_match lang es x i ->
       teq o (gen_run gen x) = false /\ (teq e (gen_run gen x) = true -> x = [c])) ->
    exists w, build (do_calls (wrapped cs (g_start g) z e o)) = Val w /\
      forall text ks e' x, ~ In c text -> written lang es (map snd ts) (text ++ [c]) (ks ++ [e']) -> teq e e' = true -> parses g teq ks x ->
        exists lx, build_lexer ts (text ++ [c]) = Val (inl lx) /\
          forall (ho : HashOrder) p, exists N, forall fuel, N <= fuel ->
            (let! tb := slr_new teq fuel p w in parse_lexer teq fuel tb lx) = Val (Some (Node (Var z) [Node (Ter e') []; to_node x])).
  Proof.
    intros Ht Hg Hc Hcl Hz He Ho Heo Hp Hgap Hpl Hk. destruct (front_end teq cs g z e o ts es c) as (w & Hw & Hrun); auto. exists w. split; auto.
    intros text ks e' x Hn Hwr Hee Hx. destruct (Hrun text Hn) as (lx & r & Hb & Hr & HN). exists lx. split; auto.
    apply (written_reads lang es (map snd ts) (plain_agreed es Hpl) (plain_steady es Hpl)) in Hwr.
    replace (Some (Node (Var z) [Node (Ter e') []; to_node x])) with r; auto.
    eapply (one_outcome teq cs g z e o); eauto. cbn [outcome]. eauto 8.
  Qed.
End Tree.

(** ** Calculations *)
Section Calc.
  Context {env : Env}.

  Lemma pow_chars l n : forall x, lang_pow (fun w => exists c, w = [c] /\ lit_set l c) n x -> forall c, In c x -> lit_set l c.
  Proof.
    induction n as [|n IH]; intros x H c Hc; [cbn in H; subst; destruct Hc|]. destruct H as (u & v & -> & (d & -> & Hd) & Hv).
    destruct Hc as [<-|Hc]; [exact Hd|eapply IH; eauto].
  Qed.

  Lemma calc_separator : separator lang calc_es 59%N.
  Proof.
    intros x (e & He & Hx) Hi. assert (Hone : forall d, lang (ELit (LMatch d) None) x -> x = [59%N]).
    { intros d (c & -> & _). destruct Hi as [<-|[]]. reflexivity. }
    destruct He as [<-|[<-|[<-|[<-|[<-|[<-|[<-|[]]]]]]]]; try (eapply Hone; exact Hx).
    - destruct Hx as (n & _ & Hx). pose proof (pow_chars _ _ _ Hx _ Hi) as (g & Hg & Hr). destruct Hg as [<-|[]]. cbn in Hr. lia.
    - destruct Hx as (n & _ & Hx). pose proof (pow_chars _ _ _ Hx _ Hi) as Hr. cbn in Hr. unfold digit_char in Hr. lia.
  Qed.
End Calc.

(** What the lexer has read is written. *)
Lemma ran_written {env : Env} {K} (ho : HashOrder) (ts : list (list char * generator K)) es text lx fuel n tks rest lx' :
  build_lexer ts text = Val (inl lx) -> parsed ts es -> plain es -> lex_calls fuel n lx = Val (map Some tks ++ None :: rest, lx') ->
  flat_map lt_source tks = text -> written lang es (map snd ts) text (map lt_kind tks).
Proof.
  intros Hb Hp Hpl E Es. apply written_reads; [apply plain_agreed; exact Hpl|apply plain_steady; exact Hpl|]. exists tks. split; auto.
  eapply (calls_munch ts text lx es Hb Hp lang ho); [apply plain_agreed; exact Hpl|apply plain_steady; exact Hpl|exact E].
Qed.

Lemma calc_text : let _ := ascii_env true in written lang calc_es (map snd calc_tokens) (str "ab+12*(x);"%string) [11; 1; 32; 2; 3; 9; 4; 5].
Proof.
  intros env.
  destruct (build_lexer calc_tokens (str "ab+12*(x);"%string)) as [[lx|]| |] eqn:E; try (vm_compute in E; discriminate).
  assert (H : exists tks rest lx', lex_calls (ho := id_order) 60 9 lx = Val (map Some tks ++ None :: rest, lx') /\
     flat_map lt_source tks = str "ab+12*(x);"%string /\ map lt_kind tks = [11; 1; 32; 2; 3; 9; 4; 5]).
  { vm_compute in E. injection E as <-. eexists [_; _; _; _; _; _; _; _], [], _. split; [vm_compute; reflexivity|]. split; reflexivity. }
  destruct H as (tks & rest & lx' & H & Es & Ek). rewrite <- Ek.
  eapply (ran_written id_order calc_tokens calc_es); eauto; [exact calc_parsed|exact calc_plain].
Qed.

Lemma calc_word : let _ := ascii_env true in
  written lang calc_es (map snd calc_tokens) (str "ab"%string) [11] /\ written lang calc_es (map snd calc_tokens) (str "cd"%string) [11] /\
  written lang calc_es (map snd calc_tokens) (str ";"%string) [5].
Proof.
  intros env. assert (Hone : forall text k, (exists lx t rest lx', build_lexer calc_tokens text = Val (inl lx) /\
     lex_calls (ho := id_order) 60 2 lx = Val (Some t :: None :: rest, lx') /\ lt_source t = text /\ lt_kind t = k) ->
     written lang calc_es (map snd calc_tokens) text [k]).
  { intros text k (lx & t & rest & lx' & E & H & Es & Ek). rewrite <- Ek. change [lt_kind t] with (map (@lt_kind nat) [t]).
    eapply (ran_written id_order calc_tokens calc_es text lx 60 2 [t] rest lx'); eauto; [exact calc_parsed|exact calc_plain|].
    cbn. rewrite app_nil_r. exact Es. }
  split; [|split]; apply Hone; do 4 eexists; (split; [vm_compute; reflexivity|]); (split; [vm_compute; reflexivity|split; reflexivity]).
Qed.

Lemma written_single {env : Env} {K} L es (gens : list (generator K)) x k : written L es gens x [k] -> text_of L es gens x k.
Proof.
  intros H. inversion H as [|y k' text ks Hy Hn Hw]; subst. inversion Hw; subst. rewrite app_nil_r. exact Hy.
Qed.

Lemma calc_join : let _ := ascii_env true in separator lang calc_es 59%N /\ text_of lang calc_es (map snd calc_tokens) (str ";"%string) 5 /\
  Forall2 (fun x k => text_of lang calc_es (map snd calc_tokens) x k) [str "ab"%string; str "cd"%string] [11; 11].
Proof.
  intros env. destruct calc_word as (H1 & H2 & H3). split; [exact calc_separator|]. split; [apply written_single; exact H3|].
  constructor; [apply written_single; exact H1|]. constructor; [apply written_single; exact H2|constructor].
Qed.

Lemma calc_sentence : parses calc calc_eq [11; 1; 32; 2; 3; 9; 4]
  (let name k := Branch 1 [Branch 2 [Leaf k]] in
   Branch 0 [Branch 0 [name 11]; Leaf 1; Branch 1 [name 32; Leaf 2; Branch 2 [Leaf 3; Branch 0 [name 9]; Leaf 4]]]).
Proof.
  assert (Hn : forall k, calc_eq 7 k = true \/ calc_eq 8 k = true -> derivation calc calc_eq (Branch 1 [Branch 2 [Leaf k]])).
  { intros k Hk. apply derivation_branch with (bd := [var 2]); [a_rule|repeat constructor|]. constructor; [|constructor].
    destruct Hk as [Hk|Hk].
    - apply derivation_branch with (bd := [ter 7]); [a_rule|repeat constructor; exact Hk|repeat constructor].
    - apply derivation_branch with (bd := [ter 8]); [a_rule|repeat constructor; exact Hk|repeat constructor]. }
  split; [|split; [reflexivity|eexists; reflexivity]].
  apply derivation_branch with (bd := [var 0; ter 1; var 1]); [a_rule|repeat constructor|]. repeat apply Forall_cons; [| | |constructor].
  - apply derivation_branch with (bd := [var 1]); [a_rule|repeat constructor|]. constructor; [apply Hn; auto|constructor].
  - constructor.
  - apply derivation_branch with (bd := [var 1; ter 2; var 2]); [a_rule|repeat constructor|]. repeat apply Forall_cons; [apply Hn; auto|constructor| |constructor].
    apply derivation_branch with (bd := [ter 3; var 0; ter 4]); [a_rule|repeat constructor|]. repeat apply Forall_cons; [constructor| |constructor|constructor].
    apply derivation_branch with (bd := [var 1]); [a_rule|repeat constructor|]. constructor; [apply Hn; auto|constructor].
Qed.
