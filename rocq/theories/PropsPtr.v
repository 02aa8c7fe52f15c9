(** Property C73: the raw pointers of the parser crate. *)
From Verif Require Import Base GrammarModel CfsmModel SlrModel DotModel SpecCfg PtrModel PtrWorld PtrWorldProofs SlrWitness.

(** C73: whatever a program makes, uses and drops, in any order: every operation
    gives what the models without pointers give. *)
Theorem C73_same_results {V T} `{DecEq V} `{DecEq T} {ho : HashOrder} show_v show_t (teq : T -> T -> bool)
    (refs : nat -> rules V T -> V -> T -> sptr) fuel (os : list (op V T)) :
  refs_ok refs ->
  p_run show_v show_t teq refs fuel 0 os fresh_world = map safe (v_run show_v show_t teq fuel 0 os []).
Proof. exact (fun Hr => run_fresh show_v show_t teq refs Hr fuel os). Qed.
Print Assumptions C73_same_results.

(** C73: so no pointer is ever dangling when it is used. *)
Theorem C73_no_dangling {V T} `{DecEq V} `{DecEq T} {ho : HashOrder} show_v show_t (teq : T -> T -> bool)
    (refs : nat -> rules V T -> V -> T -> sptr) fuel (os : list (op V T)) :
  refs_ok refs -> ~ In MDangling (p_run show_v show_t teq refs fuel 0 os fresh_world).
Proof. exact (fun Hr => run_no_dangling show_v show_t teq refs Hr fuel os). Qed.
Print Assumptions C73_no_dangling.

(** There are references as [follow_set] has to give them. *)
Theorem C73_refs_exist {V T} `{DecEq T} : exists refs : nat -> rules V T -> V -> T -> sptr, refs_ok refs.
Proof. exact (ex_intro _ locate locate_ok). Qed.
Print Assumptions C73_refs_exist.

(** A program with parsers and an automaton for the statements of SlrWitness.v
    and a grammar with a conflict.  The second parser for the statements lives on
    when the block of the first is freed. *)
Definition stmts_calls : list (call nat nat) :=
  calls [(0, [var 0; var 1; ter 3]); (0, [var 1; ter 3]); (1, [var 1; ter 2; ter 1]); (1, [ter 1])].
Definition sample_ops : list (op nat nat) :=
  [MakeParser stmts_calls; MakeParser (calls [(0, [ter 1]); (0, [var 0]); (0, [var 0; ter 2])]); MakeCfsm stmts_calls;
   UseParse 0 stmts_text; Discard 2; UseDot 2; UseParse 0 [1]; MakeParser stmts_calls; Discard 0; UseParse 3 stmts_text; UseParse 0 stmts_text].

Definition show_nat (n : nat) : list char := [N.of_nat n].
Example C73_sample : let _ := id_order in
  p_run show_nat show_nat Nat.eqb locate 60 0 sample_ops fresh_world =
  [MVal OMade; MPanic; MVal OMade; MVal (OTree (Some (to_node stmts_tree))); MVal ODiscarded; MVal ONothing; MVal (OTree None);
   MVal OMade; MVal ODiscarded; MVal (OTree (Some (to_node stmts_tree))); MVal ONothing].
Proof. vm_compute. reflexivity. Qed.

(** The model does notice: the tables would be useless without their grammar. *)
Example C73_freed : let _ := id_order in
  exists tb, p_slr_new (fun b => if Nat.eqb b 7 then Some (g_rules stmts) else None) 0 7 Nat.eqb (locate 7 (g_rules stmts)) 60 [] = MVal tb /\
    p_parse (fun _ => None) Nat.eqb 60 tb stmts_text = MDangling.
Proof. eexists. split; vm_compute; reflexivity. Qed.
