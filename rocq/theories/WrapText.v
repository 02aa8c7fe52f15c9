(** Proofs for C75: a text with an end character through lexer and parser. *)
From Verif Require Import Base RegexModel SpecRegex NfaModel SpecNfa LexerModel SpecLexer SpecMunch LexerMunch
  GrammarModel CfsmModel SlrModel PangoModel SpecCfg SpecWrap PipeProofs WrapProofs SlrWitness.
From Coq Require Import Lia.

Section Munch.
  Context {env : Env} {K : Type}.
  Variables (L : expr -> list char -> Prop) (es : list expr) (gens : list (generator K)).

  Lemma munches_made input p tks : munches L es gens input p tks ->
    forall t, In t tks -> exists i g, nth_error gens i = Some g /\ first_match L es (lt_source t) i /\ lt_kind t = gen_run g (lt_source t).
  Proof.
    induction 1 as [p H|p x y i g ts E Hx Hf Hg Hl Hm IH]; intros t Ht; [destruct Ht|]. destruct Ht as [<-|Ht]; [|auto].
    exists i, g. auto.
  Qed.

  (** The tokens are the text from [p] on, up to the last of them. *)
  Lemma munches_text input p tks : munches L es gens input p tks -> exists r, skipn p input = flat_map lt_source tks ++ r.
  Proof.
    induction 1 as [p H|p x y i g ts E Hx Hf Hg Hl Hm (r & IH)]; [eexists; reflexivity|]. exists r. cbn [flat_map lt_source].
    rewrite <- app_assoc, <- IH, E. f_equal. rewrite <- (firstn_skipn p input) in IH.
    assert (E2 : skipn (p + length x) input = skipn (length x) (skipn p input)).
    { clear. revert p. induction input as [|c w IH]; intros [|p]; cbn; auto; try (destruct (length x); reflexivity). }
    rewrite E2, E, skipn_app, skipn_all, Nat.sub_diag. reflexivity.
  Qed.

  (** A last token [c] that occurs nowhere before covers all. *)
  Lemma munches_all text c tks t : ~ In c text -> munches L es gens (text ++ [c]) 0 (tks ++ [t]) -> lt_source t = [c] ->
    flat_map lt_source (tks ++ [t]) = text ++ [c].
  Proof.
    intros N H E. destruct (munches_text _ _ _ H) as (r & Hr). cbn [skipn] in Hr. rewrite Hr.
    rewrite flat_map_app in *. cbn [flat_map] in *. rewrite E in *. cbn [app] in *. rewrite <- app_assoc in Hr. cbn in Hr.
    destruct r as [|d r]; [rewrite app_nil_r; reflexivity|]. exfalso. apply N.
    destruct (exists_last (l := d :: r)) as (r' & d' & E'); [discriminate|]. rewrite E' in Hr.
    change (c :: r' ++ [d']) with ((c :: r') ++ [d']) in Hr. rewrite app_assoc in Hr. apply app_inj_tail in Hr. destruct Hr as [-> _].
    apply in_app_iff. right. left. reflexivity.
  Qed.
End Munch.

Section Text.
  Context {env : Env} {ho : HashOrder} {V K : Type} {dv : DecEq V} {dt : DecEq K}.

  Lemma text_exact (teq : K -> K -> bool) cs (g w : grammar V K) z e o fuel p tb
      (ts : list (list char * generator K)) text c lx es L :
    lawful teq -> build (do_calls cs) = Val g -> build (do_calls (wrapped cs (g_start g) z e o)) = Val w ->
    fresh_variable g z -> clean g -> slr_new teq fuel p w = Val tb ->
    build_lexer ts (text ++ [c]) = Val (inl lx) -> parsed ts es -> agreed L es -> steady es -> (forall e, In e es -> loops_ok e = true) ->
    (forall i gen x, nth_error (map snd ts) i = Some gen -> first_match L es x i ->
       teq o (gen_run gen x) = false /\ (teq e (gen_run gen x) = true -> x = [c])) ->
    ~ In c text ->
    exists N r, (forall fuel', N <= fuel' -> parse_lexer teq fuel' tb lx = Val r) /\
      match r with
      | Some n => exists ks e' x, reads_all L es (map snd ts) (text ++ [c]) (ks ++ [e']) /\ teq e e' = true /\ parses g teq ks x /\
          n = Node (Var z) [Node (Ter e') []; to_node x]
      | None => forall ks e' x, reads_all L es (map snd ts) (text ++ [c]) (ks ++ [e']) -> teq e e' = true -> ~ parses g teq ks x
      end.
  Proof.
    intros Ht Hg Hw Hz Hc Hn Hb Hp Ha Hs Hl Hgen Nc.
    destruct (parse_munch teq tb ts _ lx es L Hb Hp Ha Hs Hl) as (tks & Hm & N & HN).
    assert (Hmade : forall t, In t tks -> teq o (lt_kind t) = false /\ (teq e (lt_kind t) = true -> lt_source t = [c])).
    { intros t Hi. destruct (munches_made _ _ _ _ _ _ Hm t Hi) as (i & gen & Eg & Hf & ->). eauto. }
    destruct (wrapped_parse_any teq Ht cs g w z e o fuel p tb (map lt_kind tks) Hg Hw Hz Hc Hn) as [(ks & e' & x & E & Ee & Hx & Hr)|(Hno & Hr)].
    - intros k Hk. apply in_map_iff in Hk. destruct Hk as (t & <- & Hi). apply Hmade; auto.
    - eexists (Nat.max N _), _. split; [intros fuel' Hf; rewrite HN by lia; apply Hr; exact (Nat.max_lub_r _ _ _ Hf)|].
      exists ks, e', x. split; [|auto]. exists tks. split; auto. split; auto.
      destruct tks as [|t0 tks0] using rev_ind; [destruct ks; discriminate|]. clear IHtks0.
      rewrite map_app in E. cbn in E. apply app_inj_tail in E. destruct E as [_ E]. apply munches_all with (L := L) (es := es) (gens := map snd ts); auto.
      apply Hmade; [apply in_app_iff; cbn; auto|]. rewrite E. exact Ee.
    - eexists (Nat.max N _), _. split; [intros fuel' Hf; rewrite HN by lia; apply Hr; exact (Nat.max_lub_r _ _ _ Hf)|].
      intros ks e' x (tks' & Hm' & _ & E) Ee. rewrite (munches_unique L es (map snd ts) _ _ _ Hm _ Hm') in E. eauto.
  Qed.
End Text.

(** ** Sums as texts *)
Definition sums_tokens : list (list char * generator nat) :=
  [(str "x"%string, GenUnit (fun _ => 1)); (str "\+"%string, GenUnit (fun _ => 2)); (str "\("%string, GenUnit (fun _ => 3));
   (str "\)"%string, GenUnit (fun _ => 4)); (str ";"%string, GenUnit (fun _ => 5))].

Section Sums.
  Context {env : Env}.
  Definition sums_es : list expr :=
    [ELit (LMatch 120%N) None; ELit (LMatch 43%N) None; ELit (LMatch 40%N) None; ELit (LMatch 41%N) None; ELit (LMatch 59%N) None].
  Lemma sums_parsed : parsed sums_tokens sums_es.
  Proof. repeat constructor. Qed.
  Lemma sums_agreed : agreed lang sums_es.
  Proof. right. split; [reflexivity|]. intros e [<-|[<-|[<-|[<-|[<-|[]]]]]]; reflexivity. Qed.
  Lemma sums_loops e : In e sums_es -> loops_ok e = true.
  Proof. intros [<-|[<-|[<-|[<-|[<-|[]]]]]]; reflexivity. Qed.
  Lemma sums_steady : steady sums_es.
  Proof.
    intros u c Hu _ [H|(e & He & H)]; exfalso.
    - apply app_eq_nil in H. destruct H. discriminate.
    - assert (Hl : length (u ++ [c]) <= 1).
      { destruct He as [<-|[<-|[<-|[<-|[<-|[]]]]]]; destruct H as [H|(d & H & _)]; rewrite H; cbn; lia. }
      rewrite app_length in Hl. cbn in Hl. destruct u; [congruence|]. cbn in Hl. lia.
  Qed.
  Lemma sums_kinds i gen x : nth_error (map snd sums_tokens) i = Some gen -> first_match lang sums_es x i ->
    Nat.eqb 6 (gen_run gen x) = false /\ (Nat.eqb 5 (gen_run gen x) = true -> x = [59%N]).
  Proof.
    intros E ((e & He & Hl) & _). destruct i as [|[|[|[|[|i]]]]]; [| | | | |destruct i; discriminate]; injection He as <-; injection E as <-;
      (split; [reflexivity|]); intros H; try discriminate. destruct Hl as (c & -> & Hc). cbn in Hc. subst c. reflexivity.
  Qed.
End Sums.
