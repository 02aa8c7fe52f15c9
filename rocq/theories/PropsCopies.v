(** Property C67: how many states the automaton has. *)
From Verif Require Import Base GrammarModel CfsmModel SlrModel SpecCfg SpecCopies CfsmCorrect CfsmCopies CfsmLadder.

(** C67: the shortest words lead to states of their own, so there are as many states
    as shortest words at least; and every state can be given a word of its own that is
    at most one symbol longer than a shortest one. *)
Theorem C67_between {V T} `{DecEq V} `{DecEq T} {ho : HashOrder} (g : grammar V T) fuel p c :
  built g -> from_grammar fuel p g = Val c ->
  (forall ws, NoDup ws -> Forall (shortest g) ws -> length ws <= length (cf_states c)) /\
  exists ws, NoDup ws /\ length ws = length (cf_states c) /\ Forall (nearly_shortest g) ws.
Proof. exact (fun Hb => states_between g Hb fuel p c). Qed.
Print Assumptions C67_between.
Theorem C67_own_state {V T} `{DecEq V} `{DecEq T} {ho : HashOrder} (g : grammar V T) fuel p c w w' k :
  built g -> from_grammar fuel p g = Val c -> shortest g w -> shortest g w' ->
  path c (cf_start c) w k -> path c (cf_start c) w' k -> w = w'.
Proof. exact (fun Hb => shortest_own_state g Hb fuel p c w w' k). Qed.
Print Assumptions C67_own_state.

(** Hence the automaton can be exponentially larger than the canonical one: for every
    [n] there is a grammar made by [2n+2] calls with bodies of at most two symbols
    that has [4n+2] sets of items at most, but [2^n] states at least, whatever the
    order of the sets. *)
Theorem C67_small_automaton_refuted n : exists (cs : list (call nat nat)) g, length cs = 2 * n + 2 /\
  (forall v bd, In (CallRule v bd) cs -> length bd <= 2) /\ build (do_calls cs) = Val g /\
  (exists ws, length ws = 4 * n + 2 /\ forall w, viable g w -> exists w', In w' ws /\ same_state g w w') /\
  forall (ho : HashOrder) fuel p c, from_grammar fuel p g = Val c -> 2 ^ n <= length (cf_states c).
Proof. exact (automaton_blowup n). Qed.
Print Assumptions C67_small_automaton_refuted.

(** [0 -> a 1 | b 1], [1 -> a 2 | b 2], [2 -> a]: the words [a a] and [b a] are shortest
    and lead to the same items, but to different states. *)
Example C67_sample : exists g c, build (do_calls (ladder_calls 2)) = Val g /\ from_grammar (ho := id_order) 40 [] g = Val c /\
  shortest g [Ter 0; Ter 0] /\ shortest g [Ter 1; Ter 0] /\ same_state g [Ter 0; Ter 0] [Ter 1; Ter 0] /\
  path c 0 [Ter 0; Ter 0] 4 /\ path c 0 [Ter 1; Ter 0] 7 /\ length (cf_states c) = 17.
Proof.
  destruct (proj1 (GrammarProofs.build_ok (ladder_calls 2)) (ladder_closed 2)) as (g & Hg). exists g.
  assert (Hv : forall b, viable g [Ter (letter b); Ter 0]).
  { intros b. exists (1, [Ter 0], [Var 2]). apply (ladder_items 2 g Hg). exists [b]. split; [reflexivity|]. split; [reflexivity|].
    apply (ladder_rule 2 g Hg). left. split; [lia|]. exists false. reflexivity. }
  assert (Hs : same_state g [Ter 0; Ter 0] [Ter 1; Ter 0]).
  { apply (tail_same 2 g Hg [false] [true] [Ter 0]); [reflexivity|]. left. exists false. reflexivity. }
  assert (H0 : shortest g [Ter 0; Ter 0]) by (apply (ladder_shortest 2 g Hg), (Hv false)).
  assert (H1 : shortest g [Ter 1; Ter 0]) by (apply (ladder_shortest 2 g Hg), (Hv true)).
  vm_compute in Hg. injection Hg as <-.
  eexists. split; [reflexivity|]. split; [vm_compute; reflexivity|]. split; [exact H0|]. split; [exact H1|]. split; [exact Hs|].
  split; [apply walk_path; vm_compute; reflexivity|]. split; [apply walk_path; vm_compute; reflexivity|]. vm_compute. reflexivity.
Qed.
