(** Property C126: which tokens the patterns can make is computed. *)
From Verif Require Import Base RegexModel SpecRegex NfaModel SpecNfa LexerModel SpecLexer SpecMunch SpecPanic
  GrammarModel CfsmModel SlrModel PangoModel SpecCfg SpecWrap SpecFront SlrWitness SpecQuery QueryLexer PropsQuery
  SpecExactness SpecBuildable SpecTextbook SpecCertify CertifyProofs FrontProofs SpecKinds KindsProofs.

(** C126: whether a pattern is the first to match some text, and whether it is the
    first to match no other text than one character, is computed; and so is, for tokens that are not made of their
    text, whether none equals [o] and only that character makes one equal to [e]. *)
Theorem C126_kinds {env : Env} (bs : list N) : changes bs is_alphabetic ->
  (forall before x, makes bs before x = true <-> exists w, impl_lang x w /\ ~ matched impl_lang before w) /\
  (forall before x c, makes_only bs before x c = true <-> forall w, impl_lang x w -> ~ matched impl_lang before w -> w = [c]) /\
  forall (K : Type) (teq : K -> K -> bool) o e c es (gens : list (generator K)), kindsb bs teq o e c [] es gens = true <->
    forall i f x, nth_error gens i = Some (GenUnit f) -> first_match impl_lang es x i -> teq o (f tt) = false /\ (teq e (f tt) = true -> x = [c]).
Proof. exact (fun H => conj (makes_ok bs H) (conj (makes_only_ok bs H) (fun K => kindsb_ok (K := K) bs H))). Qed.
Print Assumptions C126_kinds.

(** C126: so for the front end of C125 only the functions that make tokens of
    their text remain to be looked at, on the texts that are matched. *)
Theorem C126_front_end {env : Env} {V K} `{DecEq V} `{DecEq K} (bs : list N) (teq : K -> K -> bool) (ts : list (list char * generator K)) es
    cs (g : grammar V K) z e o c :
  changes bs is_alphabetic -> lawful teq -> parsed ts es -> build (do_calls cs) = Val g ->
  front_right bs es teq g z e o && kindsb bs teq o e c [] es (map snd ts) = true ->
  (forall s f x, In (s, GenMap f) ts -> matched lang es x -> teq o (f x) = false /\ (teq e (f x) = true -> x = [c])) ->
  exists w, build (do_calls (wrapped cs (g_start g) z e o)) = Val w /\
    forall text, ~ In c text -> exists lx r, build_lexer ts (text ++ [c]) = Val (inl lx) /\
      outcome lang es (map snd ts) g teq z e (text ++ [c]) r /\
      forall (ho : HashOrder) p, exists N, forall fuel, N <= fuel ->
        (let! tb := slr_new teq fuel p w in parse_lexer teq fuel tb lx) = Val r.
Proof. exact (fun Hbs Ht Hp => computed_front bs Hbs teq Ht ts es Hp cs g z e o c). Qed.
Print Assumptions C126_front_end.

(** C126: and nothing if there are none. *)
Theorem C126_computed {env : Env} {V K} `{DecEq V} `{DecEq K} (bs : list N) (teq : K -> K -> bool) (ts : list (list char * generator K)) es
    cs (g : grammar V K) z e o c :
  changes bs is_alphabetic -> lawful teq -> parsed ts es -> build (do_calls cs) = Val g ->
  front_right bs es teq g z e o && kindsb bs teq o e c [] es (map snd ts) && forallb unit_kind (map snd ts) = true ->
  exists w, build (do_calls (wrapped cs (g_start g) z e o)) = Val w /\
    forall text, ~ In c text -> exists lx r, build_lexer ts (text ++ [c]) = Val (inl lx) /\
      outcome lang es (map snd ts) g teq z e (text ++ [c]) r /\
      forall (ho : HashOrder) p, exists N, forall fuel, N <= fuel ->
        (let! tb := slr_new teq fuel p w in parse_lexer teq fuel tb lx) = Val r.
Proof. exact (fun Hbs Ht Hp => computed_units bs Hbs teq Ht ts es Hp cs g z e o c). Qed.
Print Assumptions C126_computed.

(** The calculations of C91. *)
Example C126_calc : let _ := ascii_env true in
  changes ascii_cuts is_alphabetic /\ lawful calc_eq /\ parsed calc_tokens calc_es /\ build (do_calls calc_calls) = Val FrontProofs.calc /\
  front_right ascii_cuts calc_es calc_eq FrontProofs.calc 3 5 6 && kindsb ascii_cuts calc_eq 6 5 59%N [] calc_es (map snd calc_tokens) = true /\
  (forall s f x, In (s, GenMap f) calc_tokens -> matched lang calc_es x -> calc_eq 6 (f x) = false /\ (calc_eq 5 (f x) = true -> x = [59%N])).
Proof.
  split; [exact C119_ascii|]. split; [exact calc_lawful|]. split; [exact calc_parsed|]. split; [exact calc_build|]. split; [vm_compute; reflexivity|].
  assert (Hk : forall k, calc_class (7 + k) = 7 \/ calc_class (7 + k) = 8).
  { intros k. unfold calc_class. replace (7 + k <? 7) with false by (symmetry; apply Nat.ltb_ge, Nat.le_add_r). destruct (Nat.even _); auto. }
  assert (Hc : forall k x, calc_eq 6 (7 + k) = false /\ (calc_eq 5 (7 + k) = true -> x = [59%N])).
  { intros k x. unfold calc_eq. destruct (Hk k) as [-> | ->]; split; reflexivity || discriminate. }
  intros s f x H _. cbn [In calc_tokens] in H. repeat (destruct H as [H|H]; [try discriminate H|]); try contradiction; injection H as _ <-.
  - exact (Hc (2 * length x) x).
  - exact (Hc (S (2 * digits x)) x).
Qed.

(** The same with one token for all names and one for all numbers. *)
Definition short_tokens : list (list char * generator nat) :=
  map (fun t => match snd t with GenMap f => (fst t, GenUnit (fun _ => f [])) | _ => t end) calc_tokens.
Example C126_short : let _ := ascii_env true in
  changes ascii_cuts is_alphabetic /\ lawful calc_eq /\ parsed short_tokens calc_es /\ build (do_calls calc_calls) = Val FrontProofs.calc /\
  front_right ascii_cuts calc_es calc_eq FrontProofs.calc 3 5 6 && kindsb ascii_cuts calc_eq 6 5 59%N [] calc_es (map snd short_tokens) &&
    forallb unit_kind (map snd short_tokens) = true.
Proof.
  split; [exact C119_ascii|]. split; [exact calc_lawful|]. split; [repeat constructor|]. split; [exact calc_build|vm_compute; reflexivity].
Qed.

(** [;+] makes the end token of other texts than [;] too, unless [;;+] is
    before it; what a hidden pattern would make does not matter. *)
Example C126_sample : let _ := ascii_env true in
  let kinds ps ks := kindsb ascii_cuts Nat.eqb 6 5 59%N [] (map pattern_of ps) (map (fun k => GenUnit (fun _ => k)) ks) in
  kinds ["a"; ";+"]%string [1; 5] = false /\ kinds [";;+"; ";+"]%string [1; 5] = true /\ kinds [";+"; ";;+"]%string [5; 1] = false /\
  kinds ["\w+"; "ab"; ";"]%string [1; 6; 5] = true /\ kinds ["ab"; "\w+"; ";"]%string [6; 1; 5] = false.
Proof. vm_compute. repeat split. Qed.
