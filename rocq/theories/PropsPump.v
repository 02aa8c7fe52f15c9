(** Property C115: the inputs with a tree can be pumped. *)
From Verif Require Import Base GrammarModel CfsmModel SlrModel SpecCfg SlrWitness SlrFinal PumpParser PropsExactly.

(** C115: every long enough input with a tree has two parts, close together and not
    both empty, that can be left out or repeated any number of times together; the
    result has a tree again. *)
Theorem C115_pump {V T} `{DecEq V} `{DecEq T} {ho : HashOrder} (teq : T -> T -> bool) (g : grammar V T) fuel p tb :
  lawful teq -> built g -> slr_new teq fuel p g = Val tb ->
  exists k, forall ts, (exists fuel' n, parse teq fuel' tb ts = Val (Some n)) -> k <= length ts ->
  exists u v w y z, ts = u ++ v ++ w ++ y ++ z /\ length (v ++ w ++ y) <= k /\ v ++ y <> [] /\
    forall i, exists fuel' n, parse teq fuel' tb (u ++ concat (repeat v i) ++ w ++ concat (repeat y i) ++ z) = Val (Some n).
Proof. exact (parser_pumps teq g fuel p tb). Qed.
Print Assumptions C115_pump.

(** So no grammar makes a parser that takes just the inputs with as many [a] as [b]
    as [c], in this order. *)
Theorem C115_not_three {V T} `{DecEq V} `{DecEq T} {ho : HashOrder} (teq : T -> T -> bool) (g : grammar V T) fuel p tb a b c :
  lawful teq -> built g -> slr_new teq fuel p g = Val tb -> a <> b -> a <> c -> b <> c ->
  ~ forall ts, (exists fuel' n, parse teq fuel' tb ts = Val (Some n)) <-> exists n, ts = repeat a n ++ repeat b n ++ repeat c n.
Proof. exact (parser_not_three teq g fuel p tb a b c). Qed.
Print Assumptions C115_not_three.

(** The parsers of [0 -> 0 1 2 | 0 3 | 2] give trees to inputs of every length. *)
Example C115_sample (ho : HashOrder) p : lawful Nat.eqb /\ built sums /\ exists fuel tb, slr_new Nat.eqb fuel p sums = Val tb /\
  forall k, exists fuel' n, parse Nat.eqb fuel' tb (2 :: repeat 3 k) = Val (Some n).
Proof.
  destruct C110_sample as (Ht & Hb & He & Hp & H). split; [exact Ht|]. split; [exact Hb|].
  destruct (proj2 (C110_grammar Nat.eqb sums Ht Hb Hp) (conj He H) ho p) as (f & tb & Hn & Hx). exists f, tb. split; [apply Hn; lia|].
  intros k. assert (D : exists x, parses sums Nat.eqb (2 :: repeat 3 k) x).
  { induction k as [|k (x & D & L & cs & ->)].
    - exists (Branch 0 [Leaf 2]). split; [|split; [reflexivity|eexists; reflexivity]].
      apply (derivation_branch _ _ _ [ter 2]); [a_rule|repeat constructor|repeat constructor].
    - exists (Branch 0 [Branch 0 cs; Leaf 3]). split; [|split; [|eexists; reflexivity]].
      + apply (derivation_branch _ _ _ [var 0; ter 3]); [a_rule|repeat constructor|constructor; [exact D|repeat constructor]].
      + change (leaves (Branch (g_start sums) cs) ++ [3] = 2 :: repeat 3 (S k)). rewrite L. replace (S k) with (k + 1) by lia. rewrite repeat_app. reflexivity. }
  destruct D as (x & D). apply Hx in D. destruct D as (m & D). exists m. eexists. apply D. lia.
Qed.
