(** Property C72: names and the order of the calls of the builder. *)
From Verif Require Import Base GrammarModel CfsmModel SlrModel SpecCfg SpecRename SlrWitness RenameProofs.

(** C72: the builder panics on both sequences of calls or makes grammars that are
    renamings of each other. *)
Theorem C72_build {V T V' T'} `{DecEq V} `{DecEq T} `{DecEq V'} `{DecEq T'} (f : V -> V') (h : T -> T') cs cs' :
  injective f -> renamed_calls f h cs cs' ->
  (build (do_calls cs) = Panic /\ build (do_calls cs') = Panic) \/
  exists g g', build (do_calls cs) = Val g /\ build (do_calls cs') = Val g' /\ renamed f h g g'.
Proof. exact (fun Hf => build_renamed f h Hf cs cs'). Qed.
Print Assumptions C72_build.

(** C72: [Slr::new] panics for both grammars or for none; then the renamed tokens
    give the renamed tree, or both parsers fail, or both run forever. *)
Theorem C72_parse {V T V' T'} `{DecEq V} `{DecEq T} `{DecEq V'} `{DecEq T'} (f : V -> V') (h : T -> T')
    (teq : T -> T -> bool) (teq' : T' -> T' -> bool) (g : grammar V T) (g' : grammar V' T') (ho ho' : HashOrder) p p' :
  injective f -> injective h -> lawful teq -> lawful teq' -> (forall x y, teq' (h x) (h y) = teq x y) ->
  built g -> built g' -> renamed f h g g' -> (entry_possible g (g_start g) -> entry_sure g (g_start g)) ->
  exists n, forall fuel, n <= fuel ->
    (slr_new teq (ho := ho) fuel p g = Panic /\ slr_new teq' (ho := ho') fuel p' g' = Panic) \/
    exists tb tb', slr_new teq (ho := ho) fuel p g = Val tb /\ slr_new teq' (ho := ho') fuel p' g' = Val tb' /\
      forall ts, exists m, forall k, m <= k -> agree (rename_result f h (parse teq k tb ts)) (parse teq' k tb' (map h ts)).
Proof. exact (fun Hf Hh Hl Hl' He Hb Hb' Hg Hent => new_renamed f h Hf Hh teq teq' Hl Hl' He g g' Hb Hb' Hg Hent ho ho' p p'). Qed.
Print Assumptions C72_parse.

(** Two terminals must not get one name: [0 -> 1 3 | 2 4] has a parser, but
    [0 -> 1 3 | 1 4] has not. *)
Theorem C72_merging_refuted : exists (f h : nat -> nat) (g g' : grammar nat nat), injective f /\ built g /\ built g' /\ renamed f h g g' /\
  (entry_possible g (g_start g) -> entry_sure g (g_start g)) /\
  (exists tb, slr_new (ho := id_order) Nat.eqb 60 [] g = Val tb) /\ slr_new (ho := id_order) Nat.eqb 60 [] g' = Panic.
Proof.
  exists (fun v => v), (fun t => if Nat.eqb t 2 then 1 else t), (gram [(0, [ter 1; ter 3]); (0, [ter 2; ter 4])]), (gram [(0, [ter 1; ter 3]); (0, [ter 1; ter 4])]).
  split; [intros x y E; exact E|]. split; [apply gram_built; reflexivity|]. split; [apply gram_built; reflexivity|]. split.
  - split; [reflexivity|]. intros v' bd'. split.
    + intros Hr. each_rule Hr; [exists 0, [ter 1; ter 3]|exists 0, [ter 2; ter 4]]; repeat split; a_rule.
    + intros (v & bd & -> & -> & Hr). each_rule Hr; a_rule.
  - split; [|split; [eexists; vm_compute; reflexivity|vm_compute; reflexivity]].
    intros He. exfalso. assert (Hno : forall k l v r, ~ rule (gram [(0, [ter 1; ter 3]); (0, [ter 2; ter 4])]) k (l ++ var v :: r)).
    { intros k l v r Hr. remember (l ++ var v :: r) as bd eqn:E. each_rule Hr;
        destruct l as [|? [|? [|? l]]]; cbn in E; discriminate. }
    destruct He; eapply Hno; eassumption.
Qed.
Print Assumptions C72_merging_refuted.

(** The grammar of statements with other names, its rules added in another order
    and one of them twice. *)
Example C72_sample :
  let f := Nat.add 10 in let h := fun t => 3 * t + 7 in
  let cs := calls [(0, [var 0; var 1; ter 3]); (0, [var 1; ter 3]); (1, [var 1; ter 2; ter 1]); (1, [ter 1])] in
  injective f /\ injective h /\ (forall x y, Nat.eqb (h x) (h y) = Nat.eqb x y) /\ renamed_calls f h cs other_calls /\
  exists g tb n, build (do_calls other_calls) = Val g /\ slr_new (ho := rev_order) Nat.eqb 60 [] g = Val tb /\
    parse Nat.eqb 40 stmts_table stmts_text = Val (Some n) /\
    parse Nat.eqb 40 tb (map h stmts_text) = Val (Some (rename_node f h n)) /\ g_rules g <> g_rules stmts.
Proof.
  cbv zeta. split; [intros x y; lia|]. split; [intros x y; lia|]. split.
  { intros x y. destruct (Nat.eqb_spec x y) as [->|Hne]; [apply Nat.eqb_refl|]. apply Nat.eqb_neq. lia. }
  split.
  - split; [reflexivity|]. intros v' bd'. split.
    + intros (bd & Hi & ->). cbn in Hi. decompose [or] Hi; clear Hi; try contradiction; try discriminate;
        match goal with E : CallRule _ _ = CallRule _ _ |- _ => injection E as <- <- end.
      * exists 1, [ter 1]. repeat split. exists [ter 1]. split; [cbn; tauto|reflexivity].
      * exists 0, [var 1; ter 3]. repeat split. exists [var 1; ter 3]. split; [cbn; tauto|reflexivity].
      * exists 1, [ter 1]. repeat split. exists [ter 1]. split; [cbn; tauto|reflexivity].
      * exists 0, [var 0; var 1; ter 3]. repeat split. exists [var 0; var 1; ter 3]. split; [cbn; tauto|reflexivity].
      * exists 1, [var 1; ter 2; ter 1]. repeat split. exists [var 1; ter 2; ter 1]. split; [cbn; tauto|reflexivity].
    + intros (v & bd & -> & -> & bd0 & Hi & ->). cbn in Hi. decompose [or] Hi; clear Hi; try contradiction; try discriminate;
        match goal with E : CallRule _ _ = CallRule _ _ |- _ => injection E as <- <- end;
        (match goal with |- added _ _ ?x => exists x end; split; [cbn; tauto|reflexivity]).
  - eexists. eexists. exists (to_node stmts_tree). split; [vm_compute; reflexivity|]. split; [vm_compute; reflexivity|].
    split; [vm_compute; reflexivity|]. split; [vm_compute; reflexivity|]. vm_compute. discriminate.
Qed.
