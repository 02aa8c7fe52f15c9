(** The inputs with a tree can be pumped. *)
From Verif Require Import Base GrammarModel CfsmModel SlrModel SpecCfg ContextProofs PumpProofs.

Lemma parser_pumps {V T} `{DecEq V} `{DecEq T} {ho : HashOrder} (teq : T -> T -> bool) (g : grammar V T) fuel p tb :
  lawful teq -> built g -> slr_new teq fuel p g = Val tb ->
  exists k, forall ts, (exists fuel' n, parse teq fuel' tb ts = Val (Some n)) -> k <= length ts ->
  exists u v w y z, ts = u ++ v ++ w ++ y ++ z /\ length (v ++ w ++ y) <= k /\ v ++ y <> [] /\
    forall i, exists fuel' n, parse teq fuel' tb (u ++ concat (repeat v i) ++ w ++ concat (repeat y i) ++ z) = Val (Some n).
Proof.
  intros Ht Hb E. destruct (parser_context_free teq g fuel p tb Ht Hb E) as (W & g' & Hg). exists (bound g').
  intros ts Hts Hl. apply Hg in Hts. destruct Hts as (x & D & <- & R).
  destruct (pump_tree teq g' (size x) x (g_start g') (le_n _) D R Hl) as (u & v & w & y & z & E1 & E2 & E3 & E4).
  exists u, v, w, y, z. split; [exact E1|]. split; [lia|]. split; [exact E3|]. intros i. apply Hg.
  destruct (E4 i) as (x' & D' & R' & L'). exists x'. split; [exact D'|]. split; [exact L'|exact R'].
Qed.

Lemma parser_not_three {V T} `{DecEq V} `{DecEq T} {ho : HashOrder} (teq : T -> T -> bool) (g : grammar V T) fuel p tb a b c :
  lawful teq -> built g -> slr_new teq fuel p g = Val tb -> a <> b -> a <> c -> b <> c ->
  ~ forall ts, (exists fuel' n, parse teq fuel' tb ts = Val (Some n)) <-> exists n, ts = repeat a n ++ repeat b n ++ repeat c n.
Proof.
  intros Ht Hb E Hab Hac Hbc HL. destruct (parser_pumps teq g fuel p tb Ht Hb E) as (k & P).
  exact (not_pumped a b c Hab Hac Hbc (fun ts => exists fuel' n, parse teq fuel' tb ts = Val (Some n)) k HL P).
Qed.
