(** A family of grammars for C99. *)
From Verif Require Import Base GrammarModel SpecCfg.

(** [0 -> N N 1 3 5 ..], [1 -> eps | N a], [k -> (k-1)] for [k = 2 .. N], with
    [N = 2n]. *)
Definition odds (i n : nat) : body nat nat := map (fun j => Var (2 * j + 1)) (seq i (n - i)).
Definition echo_calls (n : nat) : list (call nat nat) :=
  [CallStart 0; CallRule 0 (Var (2 * n) :: Var (2 * n) :: odds 0 n); CallRule 1 []; CallRule 1 [Var (2 * n); Ter 0]] ++
  map (fun k => CallRule (S (S k)) [Var (S k)]) (seq 0 (2 * n - 1)).

