(** Property C98: for which patterns lexing is maximal munch, and for which the
    first [None] is the end. *)
From Verif Require Import Base RegexModel SpecRegex SpecPanic NfaModel SpecNfa LexerModel SpecLexer SpecMunch SpecExact LexerWitness ExactProofs.

(** C98: [steady] is not only enough for maximal munch (C58), but needed. *)
Theorem C98_munch {env : Env} (K : Type) (ts : list (list char * generator K)) es L :
  parsed ts es -> agreed L es -> (forall e, In e es -> ~ gapped e) -> (forall e, In e es -> loops_ok e = true) ->
  steady es <->
  forall input lx, build_lexer ts input = Val (inl lx) ->
    exists tks, munches L es (map snd ts) input 0 tks /\
      exists N lx', forall (ho : HashOrder) fuel, N <= fuel -> lex_calls fuel (S (length tks)) lx = Val (map Some tks ++ [None], lx').
Proof. exact (fun Hp Ha => munch_needed ts es L Hp Ha). Qed.
Print Assumptions C98_munch.
(** It is the same as that there is a token wherever a prefix of the rest matches (C20). *)
Theorem C98_token {env : Env} (K : Type) (ts : list (list char * generator K)) es L :
  parsed ts es -> agreed L es -> (forall e, In e es -> ~ gapped e) -> (forall e, In e es -> loops_ok e = true) ->
  steady es <->
  forall input lx (ho : HashOrder) fuel n tks rest lx', build_lexer ts input = Val (inl lx) ->
    lex_calls fuel n lx = Val (map Some tks ++ None :: rest, lx') ->
    forall x y, skipn (consumed tks) input = x ++ y -> x <> [] -> ~ matched L es x.
Proof. exact (fun Hp Ha => token_needed ts es L Hp Ha). Qed.
Print Assumptions C98_token.
(** An input that can be fed to its end without being matched there gives no token at all. *)
Theorem C98_nothing {env : Env} (K : Type) (ts : list (list char * generator K)) es L input lx (ho : HashOrder) fuel n os lx' :
  parsed ts es -> agreed L es -> build_lexer ts input = Val (inl lx) -> feedable es input -> ~ matched L es input ->
  lex_calls fuel n lx = Val (os, lx') -> os = repeat None n.
Proof. exact (fun Hp Ha => unsteady_none ts es L Hp Ha input lx ho fuel n os lx'). Qed.
Print Assumptions C98_nothing.
(** The first [None] is the end for every input (C21) exactly if no call can stop in
    vain before the end of a text, or nothing is ever matched. *)
Theorem C98_end {env : Env} (K : Type) (ts : list (list char * generator K)) es L :
  parsed ts es -> agreed L es -> (forall e, In e es -> ~ gapped e) -> (forall e, In e es -> loops_ok e = true) ->
  (forall v c u, dead_end L es v c -> u <> [] -> ~ matched L es u) <->
  forall input lx (ho : HashOrder) fuel n tks rest lx', build_lexer ts input = Val (inl lx) ->
    lex_calls fuel n lx = Val (map Some tks ++ None :: rest, lx') -> Forall (fun o => o = None) rest.
Proof. exact (fun Hp Ha => end_needed ts es L Hp Ha). Qed.
Print Assumptions C98_end.

(** [a] and [abc] are not steady; [b+] and [a] are. *)
Definition cut_tokens : list (list char * generator nat) := [(str "a"%string, GenUnit (fun _ => 0)); (str "abc"%string, GenUnit (fun _ => 1))].
Definition cut_es : list expr := [ELit (LMatch ($"a")) None; EConcat (map (fun c => ELit (LMatch c) None) (str "abc"%string))].
Example C98_sample {env : Env} : parsed cut_tokens cut_es /\ agreed lang cut_es /\ (forall e, In e cut_es -> ~ gapped e) /\
  (forall e, In e cut_es -> loops_ok e = true) /\ ~ steady cut_es /\
  feedable cut_es (str "ab"%string) /\ ~ matched lang cut_es (str "ab"%string) /\
  parsed run_tokens run_es /\ agreed lang run_es /\ (forall e, In e run_es -> ~ gapped e) /\
  (forall e, In e run_es -> loops_ok e = true) /\ steady run_es.
Proof.
  assert (Ha : agreed lang cut_es) by (right; split; [reflexivity|]; intros e [<-|[<-|[]]]; reflexivity).
  assert (Hf : feedable cut_es (str "ab"%string)).
  { right. exists (EConcat (map (fun c => ELit (LMatch c) None) (str "abc"%string))). split; [right; left; reflexivity|].
    right. left. exists [$"a"], [$"b"]. split; [reflexivity|]. split; [left; eexists; split; reflexivity|].
    left. right. eexists. split; reflexivity. }
  assert (Hm : ~ matched lang cut_es (str "ab"%string)).
  { intros (e & [<-|[<-|[]]] & H).
    - destruct H as (c & E & _). discriminate.
    - destruct H as (u1 & v1 & E1 & (c1 & -> & _) & u2 & v2 & E2 & (c2 & -> & _) & u3 & v3 & E3 & (c3 & -> & _) & _).
      subst v2. subst v1. discriminate. }
  split; [repeat constructor|]. split; [exact Ha|].
  split; [intros e [<-|[<-|[]]] H; inversion H as [|? ? Hi Hg| | |]; subst; cbn in Hi;
    repeat (destruct Hi as [<-|Hi]; [inversion Hg|]); destruct Hi|].
  split; [intros e [<-|[<-|[]]]; reflexivity|].
  split; [|split; [exact Hf|split; [exact Hm|]]].
  - intros Hs. apply Hm. apply (agreed_matched lang cut_es _ Ha). apply (Hs [$"a"] ($"b")); [discriminate| |exact Hf].
    apply (agreed_matched lang cut_es _ Ha). exists (ELit (LMatch ($"a")) None). split; [left; reflexivity|]. eexists. split; reflexivity.
  - split; [exact run_parsed|]. split; [exact run_agreed|]. split; [intros e [<-|[<-|[]]] H; inversion H|].
    split; [intros e [<-|[<-|[]]]; reflexivity|exact run_steady].
Qed.
(** With [a] and [[^a]] a call never stops in vain, with [a] alone it does. *)
Definition all_tokens : list (list char * generator nat) := [(str "a"%string, GenUnit (fun _ => 0)); (str "[^a]"%string, GenUnit (fun _ => 1))].
Definition all_es : list expr := [ELit (LMatch ($"a")) None; ELit (LGroup true [GMatch ($"a")]) None].
Example C98_ends {env : Env} : parsed all_tokens all_es /\ agreed lang all_es /\ (forall e, In e all_es -> ~ gapped e) /\
  (forall e, In e all_es -> loops_ok e = true) /\ (forall v c, ~ dead_end lang all_es v c) /\
  dead_end lang [ELit (LMatch ($"a")) None] [] ($"?") /\ matched lang [ELit (LMatch ($"a")) None] [$"a"].
Proof.
  assert (Hone : forall c, exists e, In e all_es /\ lang e [c]).
  { intros c. destruct (N.eq_dec c ($"a")) as [->|Hc].
    - exists (ELit (LMatch ($"a")) None). split; [left; reflexivity|]. eexists. split; reflexivity.
    - exists (ELit (LGroup true [GMatch ($"a")]) None). split; [right; left; reflexivity|]. exists c. split; [reflexivity|].
      cbn. intros (g & [<-|[]] & Hg). apply Hc. exact Hg. }
  split; [repeat constructor|]. split; [right; split; [reflexivity|]; intros e [<-|[<-|[]]]; reflexivity|].
  split; [intros e [<-|[<-|[]]] H; inversion H|]. split; [intros e [<-|[<-|[]]]; reflexivity|].
  split; [|split; [split; [left; reflexivity|split]|]].
  - intros [|d v] c (Hf & Hn & Hv).
    + apply Hn. destruct (Hone c) as (e & He & H). right. exists e. split; auto. destruct He as [<-|[<-|[]]]; right; exact H.
    + apply (Hv [d] v eq_refl); [discriminate|]. exact (Hone d).
  - intros [H|(e & [<-|[]] & H)]; [discriminate|]. destruct H as [H|(c & E & H)]; [discriminate|]. injection E as <-. cbn in H. discriminate.
  - intros v1 v2 E Hne. destruct v1; [congruence|discriminate].
  - eexists. split; [left; reflexivity|]. eexists. split; reflexivity.
Qed.
