(** Witnesses for C100: texts of parentheses, [0 -> 0 ( 0 ) | epsilon], and a useless variable
    [3 -> 3 d]. *)
From Verif Require Import Base GrammarModel CfsmModel SlrModel SpecCfg SpecWrap SpecNamed SpecClean SlrWitness.

Definition brackets : list (call nat nat) := calls [(0, [var 0; ter 1; var 0; ter 2]); (0, [eps]); (3, [var 3; ter 4])].
Definition brackets_named : grammar (nat + nat) nat :=
  match build (do_calls (named_calls brackets)) with Val g => g | _ => {| g_start := inl 0; g_rules := [] |} end.
Definition brackets_ended : grammar (nat + nat) nat :=
  match build (do_calls (cleaned (wrapped (named_calls brackets) (inl 0) (inl 9) 5 6))) with Val g => g | _ => {| g_start := inl 0; g_rules := [] |} end.
Definition brackets_table : table (nat + nat) nat :=
  match slr_new (ho := id_order) Nat.eqb 100 [] brackets_ended with Val tb => tb | _ => {| tb_action := []; tb_goto := []; tb_grammar := brackets_ended |} end.
