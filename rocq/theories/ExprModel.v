(** Model of the example pango-parser/examples/expr.rs (the test [parse] of
    pango-parser/src/parser/slr.rs:178-279 is the same program). *)
From Verif Require Import Base RegexModel NfaModel LexerModel GrammarModel CfsmModel SlrModel PangoModel.

(** expr.rs:9-14 [Terminals], with [Val] called [Num]; the only variable [Expr] is 0. *)
Inductive terminals := Mul | Plus | Num (n : nat).
#[export] Instance terminals_deceq : DecEq terminals.
Proof.
  refine {| eqb := fun x y => match x, y with
                              | Mul, Mul | Plus, Plus => true
                              | Num a, Num b => Nat.eqb a b
                              | _, _ => false
                              end |}.
  intros [| | a] [| | b]; split; intros E; try congruence.
  - apply Nat.eqb_eq in E. congruence.
  - injection E as ->. apply Nat.eqb_refl.
Defined.

(** expr.rs:16-24 [terminal_eq]. *)
Definition terminal_eq (x y : terminals) : bool :=
  match x, y with Num _, Num _ => true | _, _ => eqb x y end.

(** expr.rs:71 [str::parse] of a digit. *)
Definition digit_value (w : list char) : nat :=
  match w with [c] => N.to_nat (c - 48)%N | _ => 0 end.

(** expr.rs:54-64. *)
Definition expr_rules : list (list (symbol nat terminals)) :=
  [[Var 0; Ter Mul; Ter (Num 0)]; [Var 0; Ter Plus; Ter (Num 0)]; [Ter (Num 0)]].
Definition expr_builder : gbuilder nat terminals := add_rules 0 expr_rules (set_start_variable 0 gbuilder_new).

(** expr.rs:70-75. *)
Definition expr_tokens : list (list char * generator terminals) :=
  [(str "\d", GenMap (fun w => Num (digit_value w))); (str "\+", GenUnit (fun _ => Plus)); (str "\*", GenUnit (fun _ => Mul))].

(** expr.rs:51-81 [main], on the text [w] instead of the constant in the code, and
    returning what it prints last.  [p] is where the hash orders are read. *)
Definition run_expr {env : Env} {ho : HashOrder} (fuel : nat) (p : list nat) (w : list char) : res (option (node nat terminals)) :=
  let! g := build expr_builder in
  let! tb := slr_new terminal_eq fuel p g in
  let! x := build_lexer expr_tokens w in
  match x with
  | inr _ => Panic
  | inl lx => parse_lexer terminal_eq fuel tb lx
  end.
