(** Where the regex parser reports an error. *)
From Verif Require Import Base RegexModel SpecRegex SpecPattern SpecErrors RegexParseProofs RegexProofs RegexAcceptProofs.

Definition same_head (r r' : list titem) : Prop :=
  match r, r' with
  | [], [] => True
  | x :: _, x' :: _ => x = x'
  | _, _ => False
  end.

Lemma same_head_refl r : same_head r r.
Proof. destruct r; cbn; auto. Qed.

(** The last token read. *)
Definition last_of (cur : option token) (k : list token) : option token := fold_left (fun _ t => Some t) k cur.

(** ** A successful call looks at what it takes and one token more *)
Definition loc {A} (c : pstate -> pres A) : Prop :=
  forall s a s1, c s = POk a s1 -> exists k, ps_toks s = map Tok k ++ ps_toks s1 /\ ps_cur s1 = last_of (ps_cur s) k /\
    forall s' r', ps_toks s' = map Tok k ++ r' -> same_head (ps_toks s1) r' -> exists s1', c s' = POk a s1' /\ ps_toks s1' = r'.

Lemma loc_ret {A} (a : A) : loc (fun s => POk a s).
Proof.
  intros s a' s1 [= <- <-]. exists []. split; [reflexivity|]. split; [reflexivity|]. intros s' r' E _. exists s'. auto.
Qed.

Lemma loc_err {A} k : loc (fun s => @p_err_here A k s).
Proof. intros s a s1 H. destruct (err_here_not_ok _ _ _ _ H). Qed.

Lemma loc_fail {A} e : loc (fun s => @PErr A e).
Proof. intros s a s1 H. discriminate. Qed.

Lemma loc_fuel {A} : loc (fun s => @PFuel A).
Proof. intros s a s1 H. discriminate. Qed.

(** The same for states with a given next token. *)
Definition peeks (s : pstate) (o : option token) : Prop :=
  match ps_toks s, o with [], None => True | Tok t :: _, Some t' => t = t' | _, _ => False end.
Definition loc_at {A} (o : option token) (c : pstate -> pres A) : Prop :=
  forall s a s1, peeks s o -> c s = POk a s1 -> exists k, ps_toks s = map Tok k ++ ps_toks s1 /\ ps_cur s1 = last_of (ps_cur s) k /\
    forall s' r', ps_toks s' = map Tok k ++ r' -> same_head (ps_toks s1) r' -> exists s1', c s' = POk a s1' /\ ps_toks s1' = r'.

Lemma loc_loc_at {A} o (c : pstate -> pres A) : loc c -> loc_at o c.
Proof. intros H s a s1 _. apply H. Qed.

Lemma loc_peek {A} (k : option token -> pstate -> pres A) : (forall o, loc_at o (k o)) -> loc (fun s => p_peek s (fun o => k o s)).
Proof.
  intros H s a s1 E. unfold p_peek in *. destruct (ps_toks s) as [|[t|] r] eqn:Es; [| |discriminate].
  - destruct (H None s a s1 ltac:(unfold peeks; rewrite Es; exact I) E) as (c & E1 & Ec & E2). exists c. rewrite <- Es at 1. split; [auto|]. split; [auto|]. intros s' r' E3 Hs.
    rewrite Es in E1. symmetry in E1. apply app_eq_nil in E1. destruct E1 as [E0 E1]. destruct c; [|discriminate].
    rewrite E1 in Hs. destruct r'; [|destruct Hs]. cbn in E3. rewrite E3. apply E2; [cbn; auto|rewrite E1; cbn; auto].
  - destruct (H (Some t) s a s1 ltac:(unfold peeks; rewrite Es; reflexivity) E) as (c & E1 & Ec & E2). exists c. rewrite <- Es at 1. split; [auto|]. split; [auto|]. intros s' r' E3 Hs.
    assert (exists q, ps_toks s' = Tok t :: q) as (q & Eq).
    { rewrite E3. rewrite Es in E1. destruct c as [|x c]; cbn in *.
      - rewrite <- E1 in Hs. destruct r' as [|x' r']; cbn in Hs; [destruct Hs|]. subst. eauto.
      - injection E1 as <- _. eauto. }
    rewrite Eq. apply E2; auto.
Qed.

Lemma loc_next {A} (k : option token -> pstate -> pres A) : (forall t, loc (k (Some t))) -> (forall s a s1, k None s <> POk a s1) ->
  loc (fun s => p_next s k).
Proof.
  intros H Hn s a s1 E. unfold p_next in *. destruct (ps_toks s) as [|[t|] r] eqn:Es; [destruct (Hn _ _ _ E)| |discriminate].
  destruct (H t _ a s1 E) as (c & E1 & Ec & E2). cbn [ps_toks ps_cur] in E1, Ec. exists (t :: c). split; [cbn; congruence|]. split; [exact Ec|].
  intros s' r' E3 Hs. cbn in E3. rewrite E3. apply E2; auto.
Qed.

Lemma loc_skip {A} t (k : pstate -> pres A) : loc k -> loc_at (Some t) (fun s => p_next s (fun _ s1 => k s1)).
Proof.
  intros H s a s1 Hp E. unfold peeks, p_next in *. destruct (ps_toks s) as [|[t'|] r] eqn:Es; [destruct Hp| |destruct Hp].
  destruct (H _ a s1 E) as (c & E1 & Ec & E2). cbn [ps_toks ps_cur] in E1, Ec. exists (t' :: c). split; [cbn; congruence|]. split; [exact Ec|].
  intros s' r' E3 Hs. cbn in E3. rewrite E3. apply E2; auto.
Qed.

Lemma loc_bind {A B} (x : pstate -> pres A) (f : A -> pstate -> pres B) : loc x -> (forall a, loc (f a)) -> loc (fun s => pbind (x s) f).
Proof.
  intros Hx Hf s b s2 E. destruct (x s) as [a s1| | |] eqn:Ex; try discriminate. cbn in E.
  destruct (Hx s a s1 Ex) as (c1 & E1 & C1 & L1). destruct (Hf a s1 b s2 E) as (c2 & E2 & C2 & L2).
  exists (c1 ++ c2). rewrite map_app, <- app_assoc. split; [congruence|]. split; [unfold last_of in *; rewrite fold_left_app; congruence|]. intros s' r' E3 Hs. rewrite <- app_assoc in E3.
  destruct (L1 s' (map Tok c2 ++ r') E3) as (s1' & E4 & E5).
  { rewrite E2. destruct c2; cbn; auto. }
  destruct (L2 s1' r' E5 Hs) as (s2' & E6 & E7). exists s2'. rewrite E4. auto.
Qed.

Lemma loc_quantifier : loc p_quantifier.
Proof.
  unfold p_quantifier. apply (loc_peek (fun o s => match o with
    | Some {| tk_kind := TQuant q |} => p_next s (fun _ s1 => POk (Some q) s1)
    | _ => POk None s end)).
  intros [[k p]|]; [|apply loc_loc_at, loc_ret]. destruct k; try (apply loc_loc_at, loc_ret). apply loc_skip, loc_ret.
Qed.

Lemma loc_group_item : loc p_character_group_item.
Proof.
  unfold p_character_group_item. apply loc_next.
  - intros [k pos]. cbn [tk_kind tk_pos]. destruct k as [k|o|q|c|]; try apply loc_fail; [apply loc_ret|].
    apply (loc_peek (fun o2 s1 => match o2 with
              | Some {| tk_kind := TOp OMinus |} =>
                  p_next s1 (fun _ s2 =>
                    p_next s2 (fun o3 s3 =>
                      match o3 with
                      | Some {| tk_kind := TMatch e |} => POk (GRange c e) s3
                      | _ => p_err_here PMatch s3
                      end))
              | _ => POk (GMatch c) s1
              end)).
    intros [[k2 p2]|]; [|apply loc_loc_at, loc_ret]. destruct k2 as [k2|o|q|c2|]; try (apply loc_loc_at, loc_ret).
    destruct o; try (apply loc_loc_at, loc_ret).
    apply loc_skip. apply loc_next.
    + intros [k3 p3]. destruct k3; try apply loc_err. apply loc_ret.
    + intros s a s1 H. destruct (err_here_not_ok _ _ _ _ H).
  - intros s a s1 H. destruct (err_here_not_ok _ _ _ _ H).
Qed.

Lemma loc_group_items fuel : forall acc, loc (p_group_items fuel acc).
Proof.
  induction fuel as [|fuel IH]; intros acc; cbn [p_group_items]; [apply loc_fuel|].
  apply (loc_peek (fun o s => match o with
        | None => POk acc s
        | Some {| tk_kind := TOp ORBracket |} => POk acc s
        | Some _ => pbind (p_character_group_item s) (fun g s' => p_group_items fuel (acc ++ [g]) s')
        end)).
  assert (H : loc (fun s => pbind (p_character_group_item s) (fun g s' => p_group_items fuel (acc ++ [g]) s'))).
  { apply loc_bind; [apply loc_group_item|intros g; apply IH]. }
  intros [[k p]|]; [|apply loc_loc_at, loc_ret]. destruct k as [k|o|q|c|]; try (apply loc_loc_at, H).
  destruct o; try (apply loc_loc_at, H). apply loc_loc_at, loc_ret.
Qed.

Lemma loc_group_after fuel neg : loc (p_group_after fuel neg).
Proof.
  unfold p_group_after. apply (loc_peek (fun o2 s2 => match o2 with
    | None => p_err_here PCharacterGroupItem s2
    | Some _ =>
        pbind (p_group_items fuel [] s2) (fun ls s3 =>
          p_next s3 (fun o3 s4 =>
            match o3 with
            | Some {| tk_kind := TOp ORBracket |} => POk (LGroup neg ls) s4
            | _ => p_err_here PRightBracket s4
            end))
    end)).
  intros [t|]; apply loc_loc_at; [|apply loc_err]. apply loc_bind; [apply loc_group_items|]. intros ls. apply loc_next.
  - intros [k p]. destruct k; try apply loc_err. destruct o; try apply loc_err. apply loc_ret.
  - intros s a s1 H. destruct (err_here_not_ok _ _ _ _ H).
Qed.

Lemma loc_character_group fuel : loc (p_character_group fuel).
Proof.
  unfold p_character_group. apply loc_next.
  - intros [k p]. destruct k; try apply loc_err. destruct o; try apply loc_err.
    apply (loc_peek (fun o1 s1 => match o1 with
          | Some {| tk_kind := TOp OCarret |} => p_next s1 (fun _ s2 => p_group_after fuel true s2)
          | _ => p_group_after fuel false s1
          end)).
    intros [[k2 p2]|]; [|apply loc_loc_at, loc_group_after].
    destruct k2 as [k2|o|q|c2|]; try (apply loc_loc_at, loc_group_after). destruct o; try (apply loc_loc_at, loc_group_after).
    apply loc_skip, loc_group_after.
  - intros s a s1 H. destruct (err_here_not_ok _ _ _ _ H).
Qed.

Lemma loc_match_item fuel : loc (p_match_item fuel).
Proof.
  unfold p_match_item. apply (loc_peek (fun o s => match o with
    | Some {| tk_kind := TMatch c |} => p_next s (fun _ s1 => POk (LMatch c) s1)
    | Some {| tk_kind := TOp OLBracket |} => p_character_group fuel s
    | Some {| tk_kind := TClass k |} => p_next s (fun _ s1 => POk (LClass k) s1)
    | _ => p_err_here PMatchCharacterClassLeftBracket s
    end)).
  intros [[k p]|]; [|apply loc_loc_at, loc_err]. destruct k as [k|o|q|c|]; try (apply loc_loc_at, loc_err).
  - apply loc_skip, loc_ret.
  - destruct o; try (apply loc_loc_at, loc_err). apply loc_loc_at, loc_character_group.
  - apply loc_skip, loc_ret.
Qed.

Lemma loc_match fuel : loc (p_match fuel).
Proof.
  unfold p_match. apply loc_bind; [apply loc_match_item|]. intros l. apply loc_bind; [apply loc_quantifier|]. intros q. apply loc_ret.
Qed.

Lemma loc_parser : forall fuel,
  loc (p_expression fuel) /\ loc (p_sub_expression fuel) /\ (forall acc, loc (p_sub_loop fuel acc)) /\
  loc (p_sub_item fuel) /\ loc (p_group fuel).
Proof.
  induction fuel as [|fuel (IHe & IHs & IHl & IHi & IHg)]; [repeat split; intros; intros ? ? ?; discriminate|].
  split; [|split; [|split; [|split]]].
  - apply (loc_bind (p_sub_expression fuel) (fun lhs s1 =>
        p_peek s1 (fun o =>
          match o with
          | Some {| tk_kind := TOp OVertical |} =>
              p_next s1 (fun _ s2 =>
                pbind (p_expression fuel s2) (fun rhs s3 => POk (EAlt (concat_of lhs) rhs) s3))
          | _ => POk (concat_of lhs) s1
          end))); [exact IHs|]. intros lhs.
    apply (loc_peek (fun o s1 => match o with
          | Some {| tk_kind := TOp OVertical |} =>
              p_next s1 (fun _ s2 =>
                pbind (p_expression fuel s2) (fun rhs s3 => POk (EAlt (concat_of lhs) rhs) s3))
          | _ => POk (concat_of lhs) s1
          end)).
    intros [[k p]|]; [|apply loc_loc_at, loc_ret]. destruct k as [k|o|q|c|]; try (apply loc_loc_at, loc_ret).
    destruct o; try (apply loc_loc_at, loc_ret). apply loc_skip. apply loc_bind; [exact IHe|]. intros rhs. apply loc_ret.
  - apply (loc_peek (fun o s => match o with None => p_err_here PSubExpression s | Some _ => p_sub_loop fuel [] s end)).
    intros [t|]; apply loc_loc_at; [apply IHl|apply loc_err].
  - intros acc.
    assert (H : loc (fun s => pbind (p_sub_item fuel s) (fun e s' => p_sub_loop fuel (acc ++ [e]) s'))).
    { apply loc_bind; [exact IHi|]. intros e. apply IHl. }
    apply (loc_peek (fun o s => match o with
        | None => POk acc s
        | Some {| tk_kind := TOp OVertical |} => POk acc s
        | Some {| tk_kind := TOp ORParen |} => POk acc s
        | Some _ => pbind (p_sub_item fuel s) (fun e s' => p_sub_loop fuel (acc ++ [e]) s')
        end)).
    intros [[k p]|]; [|apply loc_loc_at, loc_ret]. destruct k as [k|o|q|c|]; try (apply loc_loc_at, H).
    destruct o; try (apply loc_loc_at, H); apply loc_loc_at, loc_ret.
  - apply (loc_peek (fun o s => match o with
        | None => p_err_here PTokenForSubExpression s
        | Some {| tk_kind := TOp OLParen |} => p_group fuel s
        | Some _ => p_match fuel s
        end)).
    intros [[k p]|]; [|apply loc_loc_at, loc_err]. destruct k as [k|o|q|c|]; try (apply loc_loc_at, loc_match).
    destruct o; try (apply loc_loc_at, loc_match). apply loc_loc_at, IHg.
  - apply loc_next.
    + intros [k p]. destruct k as [k|o|q|c|]; try apply loc_err. destruct o; try apply loc_err.
      apply loc_bind; [exact IHe|]. intros e. apply loc_next.
      * intros [k2 p2]. destruct k2 as [k2|o|q|c|]; try apply loc_err. destruct o; try apply loc_err.
        apply loc_bind; [apply loc_quantifier|]. intros q. apply loc_ret.
      * intros s a s1 H. destruct (err_here_not_ok _ _ _ _ H).
    + intros s a s1 H. destruct (err_here_not_ok _ _ _ _ H).
Qed.

(** ** More fuel *)

Lemma group_items_more : forall f f' acc s, f <= f' -> p_group_items f acc s <> PFuel -> p_group_items f' acc s = p_group_items f acc s.
Proof.
  induction f as [|f IH]; intros f' acc s Hle H; [destruct H; reflexivity|]. destruct f' as [|f']; [lia|]. cbn [p_group_items] in *.
  unfold p_peek in *. destruct (ps_toks s) as [|[[k p]|] r]; auto.
  assert (Hr : pbind (p_character_group_item s) (fun g s' => p_group_items f (acc ++ [g]) s') <> PFuel ->
    pbind (p_character_group_item s) (fun g s' => p_group_items f' (acc ++ [g]) s') =
    pbind (p_character_group_item s) (fun g s' => p_group_items f (acc ++ [g]) s')).
  { destruct (p_character_group_item s); cbn [pbind]; auto. intros Hn. apply IH; [lia|auto]. }
  destruct k as [k|o|q|c|]; auto. destruct o; auto.
Qed.

Lemma match_more f f' s : f <= f' -> p_match f s <> PFuel -> p_match f' s = p_match f s.
Proof.
  intros Hle. unfold p_match.
  assert (H : p_match_item f s <> PFuel -> p_match_item f' s = p_match_item f s).
  { unfold p_match_item, p_peek. destruct (ps_toks s) as [|[[k p]|] r]; auto. destruct k as [k|o|q|c|]; auto. destruct o; auto.
    unfold p_character_group, p_next. destruct (ps_toks s) as [|[[k p']|] r']; auto. destruct k as [k|o|q|c|]; auto. destruct o; auto.
    assert (Ha : forall neg s2, p_group_after f neg s2 <> PFuel -> p_group_after f' neg s2 = p_group_after f neg s2).
    { intros neg s2. unfold p_group_after, p_peek. destruct (ps_toks s2) as [|[t|] r2]; auto.
      destruct (p_group_items f [] s2) as [ls s3| | |] eqn:E; cbn [pbind]; intros H.
      - rewrite (group_items_more f f'), E; [reflexivity|lia|congruence].
      - rewrite (group_items_more f f'), E; [reflexivity|lia|congruence].
      - rewrite (group_items_more f f'), E; [reflexivity|lia|congruence].
      - congruence. }
    unfold p_peek. cbn [ps_toks]. destruct r' as [|[[k2 p2]|] r2]; auto. destruct k2 as [k2|o|q|c|]; auto. destruct o; auto. }
  destruct (p_match_item f s) as [l s1| | |] eqn:E; cbn [pbind]; intros Hn; try congruence;
    rewrite H by congruence; reflexivity.
Qed.

Lemma parser_more : forall f f', f <= f' ->
  (forall s, p_expression f s <> PFuel -> p_expression f' s = p_expression f s) /\
  (forall s, p_sub_expression f s <> PFuel -> p_sub_expression f' s = p_sub_expression f s) /\
  (forall acc s, p_sub_loop f acc s <> PFuel -> p_sub_loop f' acc s = p_sub_loop f acc s) /\
  (forall s, p_sub_item f s <> PFuel -> p_sub_item f' s = p_sub_item f s) /\
  (forall s, p_group f s <> PFuel -> p_group f' s = p_group f s).
Proof.
  induction f as [|f IH]; intros f' Hle; [repeat split; intros; cbn in *; congruence|].
  destruct f' as [|f']; [lia|]. destruct (IH f' ltac:(lia)) as (IHe & IHs & IHl & IHi & IHg). clear IH.
  split; [|split; [|split; [|split]]].
  - intros s. cbn [p_expression]. destruct (p_sub_expression f s) as [lhs s1| | |] eqn:E; cbn [pbind]; intros H; try congruence;
      rewrite IHs, E by congruence; cbn [pbind]; auto.
    unfold p_peek, p_next in *. destruct (ps_toks s1) as [|[[k p]|] r]; auto. destruct k as [k|o|q|c|]; auto. destruct o; auto.
    destruct (p_expression f _) as [rhs s3| | |] eqn:E3; cbn [pbind] in *; try congruence; rewrite IHe, E3 by congruence; auto.
  - intros s. cbn [p_sub_expression]. unfold p_peek. destruct (ps_toks s) as [|[t|] r]; auto.
  - intros acc s. cbn [p_sub_loop]. unfold p_peek. destruct (ps_toks s) as [|[[k p]|] r]; auto.
    assert (Hr : pbind (p_sub_item f s) (fun e s' => p_sub_loop f (acc ++ [e]) s') <> PFuel ->
      pbind (p_sub_item f' s) (fun e s' => p_sub_loop f' (acc ++ [e]) s') = pbind (p_sub_item f s) (fun e s' => p_sub_loop f (acc ++ [e]) s')).
    { destruct (p_sub_item f s) as [e s1| | |] eqn:E; cbn [pbind]; intros H; try congruence; rewrite IHi, E by congruence; cbn [pbind]; auto. }
    destruct k as [k|o|q|c|]; auto. destruct o; auto.
  - intros s. cbn [p_sub_item]. unfold p_peek. destruct (ps_toks s) as [|[[k p]|] r]; auto.
    pose proof (match_more f f' s ltac:(lia)) as Hm. destruct k as [k|o|q|c|]; auto. destruct o; auto.
  - intros s. cbn [p_group]. unfold p_next. destruct (ps_toks s) as [|[[k p]|] r]; auto. destruct k as [k|o|q|c|]; auto. destruct o; auto.
    destruct (p_expression f _) as [e s2| | |] eqn:E; cbn [pbind]; intros H; try congruence; rewrite IHe, E by congruence; cbn [pbind]; auto.
Qed.

(** ** Errors *)

(** What an error says about the tokens before and after it: the last token
    read, and the ones left. *)
Definition place (last : option token) (suf : list titem) (e : perr) : Prop :=
  match pe_kind e with
  | PMatchCharacterClassLeftBracket | PCharacterClassCharacter => exists t r, suf = Tok t :: r /\ pe_pos e = tk_pos t
  | PSubExpression | PCharacterGroupItem =>
      suf = [] /\ pe_pos e = match last with Some t => (snd (tk_pos t) - 1, snd (tk_pos t)) | None => (0, 1) end
  | PRightParan | PRightBracket => suf = [] /\ pe_pos e = (0, 1)
  | PMatch =>
      (suf = [] /\ pe_pos e = (0, 1)) \/
      (exists t, suf = [Tok t] /\ pe_pos e = (snd (tk_pos t) - 1, snd (tk_pos t))) \/
      (exists t t2 r, suf = Tok t :: Tok t2 :: r /\ pe_pos e = tk_pos t2)
  | _ => False
  end.

Definition stuck {A} (r : pres A) : Prop := match r with PErr _ | PPanic => True | _ => False end.

Definition fails {A} (r : pres A) : Prop := match r with PErr _ => True | _ => False end.

(** The errors at a token where an item is due: a class could have been there. *)
Definition item_kind (k : perr_kind) : Prop := k = PMatchCharacterClassLeftBracket \/ k = PCharacterClassCharacter.
Definition goes (T : list token_kind -> Prop) (ks : list token_kind) (e : perr) : Prop :=
  (exists more, T (ks ++ more)) /\ (item_kind (pe_kind e) -> exists more, T (ks ++ TClass CWord :: more)).

(** Other tokens with which the call fails as well: the same next one, and where
    the end of a range is due, any that is not a character. *)
Definition swap (k : perr_kind) (suf suf' : list titem) : Prop :=
  same_head suf suf' \/ (k = PMatch /\ exists t r, suf' = Tok t :: r /\ forall c, tk_kind t <> TMatch c).
(** The tokens that are looked at, at the place of the error, cause no panic. *)
Definition calm (k : perr_kind) (suf : list titem) : Prop :=
  match suf with
  | TokPanic :: _ => False
  | Tok _ :: TokPanic :: _ => k <> PMatch
  | _ => True
  end.
Definition again {A} (c : pstate -> pres A) (pre : list token) (suf : list titem) (e : perr) : Prop :=
  (pe_kind e = PMatch -> pre <> []) /\
  forall s' suf', ps_toks s' = map Tok pre ++ suf' -> swap (pe_kind e) suf suf' ->
    stuck (c s') /\ (calm (pe_kind e) suf' -> fails (c s')).

Definition bad {A} (Q : pstate -> Prop) (T : list token_kind -> Prop) (c : pstate -> pres A) : Prop :=
  forall s errs, Q s -> c s = PErr errs -> exists e pre suf,
    errs = [e] /\ ps_toks s = map Tok pre ++ suf /\ place (last_of (ps_cur s) pre) suf e /\
    goes T (map tk_kind pre) e /\ again c pre suf e.

Definition anything (s : pstate) : Prop := True.

Lemma goes_map (T T' : list token_kind -> Prop) ks0 ks e : (forall ks, T ks -> exists more, T' (ks0 ++ ks ++ more)) -> goes T ks e -> goes T' (ks0 ++ ks) e.
Proof.
  intros H [(more & H1) H2]. split.
  - destruct (H _ H1) as (m & Hm). exists (more ++ m). rewrite <- !app_assoc in *. exact Hm.
  - intros Hk. destruct (H2 Hk) as (more2 & H3). destruct (H _ H3) as (m & Hm). exists (more2 ++ m). rewrite <- !app_assoc in *. exact Hm.
Qed.

Lemma swap_head k (pre : list token) suf suf' : (k = PMatch -> pre <> []) -> swap k suf suf' -> same_head (map Tok pre ++ suf) (map Tok pre ++ suf').
Proof.
  intros Hp [H|[Hk _]]; [destruct pre; [exact H|reflexivity]|]. destruct pre; [destruct (Hp Hk); reflexivity|reflexivity].
Qed.

Lemma bad_ret {A} Q T (a : pstate -> A) f : bad Q T (fun s => POk (a s) (f s)).
Proof. intros s errs _ H. discriminate. Qed.

Lemma bad_weaken {A} (Q Q' : pstate -> Prop) (T T' : list token_kind -> Prop) (c : pstate -> pres A) :
  bad Q T c -> (forall s, Q' s -> Q s) -> (forall ks, T ks -> exists more, T' (ks ++ more)) -> bad Q' T' c.
Proof.
  intros H HQ HT s errs Hs E. destruct (H s errs (HQ s Hs) E) as (e & pre & suf & -> & E1 & P & M & D).
  exists e, pre, suf. split; [auto|]. split; [auto|]. split; [auto|]. split; [|auto].
  apply (goes_map T T' []); assumption.
Qed.

Lemma err_here_stuck {A} k s : stuck (@p_err_here A k s).
Proof. unfold p_err_here, p_peek. destruct (ps_toks s) as [|[t|] r]; cbn; auto. Qed.
Lemma err_here_fails {A} k s : (forall r, ps_toks s <> TokPanic :: r) -> fails (@p_err_here A k s).
Proof. unfold p_err_here, p_peek. intros H. destruct (ps_toks s) as [|[t|] r]; cbn; auto. destruct (H r). reflexivity. Qed.

Lemma bad_peek {A} Q T (k : option token -> pstate -> pres A) :
  (forall o, bad (fun s => Q s /\ peeks s o) T (k o)) -> bad Q T (fun s => p_peek s (fun o => k o s)).
Proof.
  intros H s errs Hs E. unfold p_peek in *. destruct (ps_toks s) as [|[t|] r] eqn:Es; [| |discriminate].
  - destruct (H None s errs) as (e & pre & suf & E1 & E2 & P & M & Hp & D); [unfold peeks; rewrite Es; auto|exact E|].
    exists e, pre, suf. rewrite <- Es. do 4 (split; [assumption|]). split; [assumption|]. intros s' suf' E3 Hs'.
    pose proof (swap_head _ pre _ _ Hp Hs') as Hh. rewrite <- E2, <- E3, Es in Hh. cbn in Hh.
    destruct (ps_toks s') eqn:Es'; [|destruct Hh]. apply (D s' suf'); [congruence|assumption].
  - destruct (H (Some t) s errs) as (e & pre & suf & E1 & E2 & P & M & Hp & D); [unfold peeks; rewrite Es; auto|exact E|].
    exists e, pre, suf. rewrite <- Es. do 4 (split; [assumption|]). split; [assumption|]. intros s' suf' E3 Hs'.
    pose proof (swap_head _ pre _ _ Hp Hs') as Hh. rewrite <- E2, <- E3, Es in Hh. cbn in Hh.
    destruct (ps_toks s') as [|x q] eqn:Es'; [destruct Hh|]. subst x. apply (D s' suf'); [congruence|assumption].
Qed.

Lemma bad_skip {A} (Q : pstate -> Prop) (T T2 : list token_kind -> Prop) t (k : pstate -> pres A) :
  bad anything T2 k -> (forall ks, T2 ks -> T (tk_kind t :: ks)) -> (forall s, Q s -> peeks s (Some t)) ->
  bad Q T (fun s => p_next s (fun _ s1 => k s1)).
Proof.
  intros H HT HQ s errs Hs E. apply HQ in Hs. unfold peeks, p_next in *. destruct (ps_toks s) as [|[t'|] r] eqn:Es; [destruct Hs| |destruct Hs].
  subst t'. destruct (H _ errs I E) as (e & pre & suf & E1 & E2 & P & M & Hp & D). cbn [ps_toks ps_cur] in *.
  exists e, (t :: pre), suf. split; [auto|]. split; [cbn; congruence|]. split; [exact P|]. split.
  - apply (goes_map T2 T [tk_kind t]); [|assumption]. intros ks Hk. exists []. rewrite app_nil_r. apply HT. assumption.
  - split; [discriminate|]. intros s' suf' E3 Hs'. cbn in E3. rewrite E3. apply (D _ suf'); auto.
Qed.

Lemma bad_bind {A B} (Q : pstate -> Prop) (T T1 : list token_kind -> Prop) (Q1 : A -> pstate -> Prop) (T2 : A -> list token_kind -> Prop)
    (x : pstate -> pres A) (f : A -> pstate -> pres B) :
  loc x -> bad Q T1 x -> (forall a, bad (Q1 a) (T2 a) (f a)) ->
  (forall s a s1, Q s -> x s = POk a s1 -> Q1 a s1 /\
     exists ks, holds (ps_toks s) ks (ps_toks s1) /\ forall more, T2 a more -> T (ks ++ more)) ->
  (forall ks, T1 ks -> exists more, T (ks ++ more)) ->
  bad Q T (fun s => pbind (x s) f).
Proof.
  intros Hl Hx Hf Hok HT s errs Hs E. destruct (x s) as [a s1|es| |] eqn:Ex; cbn [pbind] in E; try discriminate.
  - destruct (Hok s a s1 Hs Ex) as (Hq & ks & (ts & Et & Ek) & Hm). destruct (Hl s a s1 Ex) as (k & Ek1 & Ec & L).
    assert (k = ts).
    { rewrite Et in Ek1. apply app_inv_tail in Ek1. clear -Ek1. revert k Ek1. induction ts as [|t ts IH]; intros [|t' k] H; try discriminate; auto.
      cbn in H. injection H as -> H. f_equal. auto. }
    subst ts. destruct (Hf a s1 errs Hq E) as (e & pre & suf & E1 & E2 & P & M & Hp & D).
    exists e, (k ++ pre), suf. split; [auto|]. split; [rewrite map_app, <- app_assoc; congruence|].
    split; [unfold last_of in *; rewrite fold_left_app, <- Ec; exact P|]. split.
    + rewrite map_app, Ek. apply (goes_map (T2 a) T); [|assumption]. intros ks' H'. exists []. rewrite app_nil_r. auto.
    + split; [intros Hk Hn; apply app_eq_nil in Hn; destruct Hn as [_ Hn]; destruct (Hp Hk Hn)|].
      intros s' suf' E3 Hs'. rewrite map_app, <- app_assoc in E3. destruct (L s' _ E3) as (s1' & Ex' & Es1').
      { rewrite E2. apply (swap_head (pe_kind e)); assumption. }
      rewrite Ex'. cbn [pbind]. apply (D s1' suf'); auto.
  - injection E as <-. destruct (Hx s es Hs Ex) as (e & pre & suf & E1 & E2 & P & M & Hp & D).
    exists e, pre, suf. split; [auto|]. split; [auto|]. split; [auto|]. split.
    + apply (goes_map T1 T []); assumption.
    + split; [assumption|]. intros s' suf' E3 Hs'. specialize (D s' suf' E3 Hs'). destruct (x s'); cbn in *; tauto.
Qed.

(** A token that is known to be there. *)
Lemma bad_next {A} (K : token_kind) (T T2 : list token_kind -> Prop) (h : option token -> pstate -> pres A) :
  (forall p, bad anything T2 (h (Some {| tk_kind := K; tk_pos := p |}))) -> (forall ks, T2 ks -> T (K :: ks)) ->
  bad (fun s => exists p, peeks s (Some {| tk_kind := K; tk_pos := p |})) T (fun s => p_next s h).
Proof.
  intros H HT s errs (p & Hs) E. unfold peeks, p_next in *. destruct (ps_toks s) as [|[t'|] r] eqn:Es; [destruct Hs| |destruct Hs].
  subst t'. destruct (H p _ errs I E) as (e & pre & suf & E1 & E2 & P & M & Hp & D). cbn [ps_toks ps_cur] in *.
  exists e, ({| tk_kind := K; tk_pos := p |} :: pre), suf. split; [auto|]. split; [cbn; congruence|]. split; [exact P|]. split.
  - apply (goes_map T2 T [K]); [|assumption]. intros ks Hk. exists []. rewrite app_nil_r. apply HT. assumption.
  - split; [discriminate|]. intros s' suf' E3 Hs'. cbn in E3. rewrite E3. apply (D _ suf'); auto.
Qed.

(** An error at the token that comes next. *)
Lemma bad_here {A} (Q : pstate -> Prop) T k : (exists ks, T ks) -> (item_kind k -> exists ks, T (TClass CWord :: ks)) ->
  (forall s, Q s -> match k with
    | PMatchCharacterClassLeftBracket | PCharacterClassCharacter => exists t, peeks s (Some t)
    | PSubExpression | PCharacterGroupItem => peeks s None
    | _ => False end) ->
  bad Q T (fun s => @p_err_here A k s).
Proof.
  intros (ks & Hk) Hi HQ s errs Hs E. apply HQ in Hs. unfold p_err_here, p_peek in E. exists (hd {| pe_kind := k; pe_pos := (0, 1) |} errs), [], (ps_toks s).
  assert (Hn : k <> PMatch) by (intros ->; exact Hs).
  assert (Hag : forall q, again (fun s => @p_err_here A k s) [] (ps_toks s) {| pe_kind := k; pe_pos := q |}).
  { intros q. split; [intros Hx; destruct (Hn Hx)|]. intros s' suf' E3 Hs'. split; [apply err_here_stuck|]. intros Hc. apply err_here_fails.
    intros r Er. cbn in E3. rewrite <- E3, Er in Hc. destruct Hc. }
  destruct (ps_toks s) as [|[t|] r] eqn:Es; try discriminate; injection E as <-; cbn [hd];
    (split; [auto|]; split; [auto|]; split; [|split; [split; [exists ks; exact Hk|exact Hi]|apply Hag]]).
  - unfold place. cbn [pe_kind pe_pos last_of fold_left].
    destruct k; try (destruct Hs; fail); unfold peeks in Hs; rewrite Es in Hs; try (split; [auto|]; destruct (ps_cur s); reflexivity); destruct Hs as (t & []).
  - unfold place. cbn [pe_kind pe_pos last_of fold_left].
    destruct k; try (destruct Hs; fail); unfold peeks in Hs; rewrite Es in Hs; try (destruct Hs; fail); eauto.
Qed.

(** A closing token that is expected and not there. *)
Lemma bad_close {A} (Q : pstate -> Prop) (T : list token_kind -> Prop) (k : perr_kind) (o : op_kind) (h : option token -> pstate -> pres A) :
  k = PRightParan \/ k = PRightBracket -> (exists ks, T ks) -> (forall s, h None s = p_err_here k s) ->
  (forall p s errs, h (Some {| tk_kind := TOp o; tk_pos := p |}) s <> PErr errs) ->
  (forall s, Q s -> ps_toks s = [] \/ head_kind (ps_toks s) = Some (TOp o)) ->
  bad Q T (fun s => p_next s h).
Proof.
  intros Hk (ks & Ht) Hn Hs HQ s errs Hq E. apply HQ in Hq. unfold p_next in *.
  destruct (ps_toks s) as [|[[ko p]|] r] eqn:Es; [| |discriminate].
  - rewrite Hn in E. unfold p_err_here, p_peek in E. cbn in E. injection E as <-.
    eexists _, [], []. split; [reflexivity|]. split; [reflexivity|]. split; [|split; [split; [exists ks; exact Ht|]|]].
    + unfold place. cbn [pe_kind pe_pos]. destruct Hk as [->| ->]; auto.
    + cbn [pe_kind]. intros [Hi|Hi]; rewrite Hi in Hk; destruct Hk; discriminate.
    + cbn [pe_kind]. split; [intros Hi; cbn in Hi; rewrite Hi in Hk; destruct Hk; discriminate|].
      intros s' suf' E3 [Hs'|[Hi _]]; [|cbn in Hi; rewrite Hi in Hk; destruct Hk; discriminate].
      destruct suf'; [|destruct Hs']. cbn in E3. rewrite E3, Hn. split; [apply err_here_stuck|]. intros _. apply err_here_fails. discriminate.
  - destruct Hq as [Hq|Hq]; [discriminate|]. cbn in Hq. injection Hq as ->. destruct (Hs _ _ _ E).
Qed.

(** ** The functions of the parser *)

Definition a_glit (ks : list token_kind) : Prop := exists g, ks = glit_tokens g.
Definition glits (ks : list token_kind) : Prop := exists gs, ks = flat_map glit_tokens gs.
Definition a_lit (ks : list token_kind) : Prop := exists l, ks = lit_tokens l.
Definition an_item (ks : list token_kind) : Prop := exists e, loose_item e /\ ks = expr_tokens e.
Definition items1 (ks : list token_kind) : Prop := exists es, loose_items es /\ es <> [] /\ ks = flat_map expr_tokens es.
Definition an_expr (ks : list token_kind) : Prop := exists e, loose_expr e /\ ~ ends_open (expr_tokens e) /\ ks = expr_tokens e.

Lemma bad_group_item : bad (fun s => exists t, peeks s (Some t)) a_glit p_character_group_item.
Proof.
  intros s errs (t & Hs). unfold peeks, p_character_group_item, p_next in *.
  destruct (ps_toks s) as [|[t'|] r] eqn:Es; [destruct Hs| |destruct Hs]. subst t'. cbn beta iota. destruct t as [k p]. cbn [tk_kind tk_pos].
  assert (Hc : forall k0, k0 = k -> match k0 with TClass _ | TMatch _ => False | _ => True end ->
    [{| pe_kind := PCharacterClassCharacter; pe_pos := p |}] = errs ->
    exists e pre suf, errs = [e] /\ Tok {| tk_kind := k; tk_pos := p |} :: r = map Tok pre ++ suf /\ place (last_of (ps_cur s) pre) suf e /\
    goes a_glit (map tk_kind pre) e /\ again p_character_group_item pre suf e).
  { intros k0 -> Hk <-. eexists _, [], _. split; [reflexivity|]. split; [reflexivity|]. split; [|split; [split|split]].
    - unfold place. cbn. eauto.
    - exists [TMatch 0%N], (GMatch 0%N). reflexivity.
    - intros _. exists [], (GClass CWord). reflexivity.
    - discriminate.
    - intros s' suf' E3 [Hs'|[Hx _]]; [|discriminate]. destruct suf'; [destruct Hs'|]. cbn in Hs'. subst. unfold p_character_group_item, p_next. cbn in E3. rewrite E3.
      cbn [tk_kind]. destruct k; try destruct Hk; (split; [|intros _]; exact I). }
  destruct k as [k|o|q|c|]; try (intros [= E]; eapply (Hc _ eq_refl); [exact I|exact E]); [discriminate|].
  clear Hc. unfold p_peek. cbn [ps_toks]. destruct r as [|[[k2 p2]|] r]; try discriminate.
  destruct k2 as [k2|o|q|c2|]; try discriminate. destruct o; try discriminate.
  assert (Hany : forall s' t suf', ps_toks s' = Tok {| tk_kind := TMatch c; tk_pos := p |} :: Tok {| tk_kind := TOp OMinus; tk_pos := p2 |} :: Tok t :: suf' ->
    (forall c, tk_kind t <> TMatch c) -> stuck (p_character_group_item s') /\ (calm PMatch (Tok t :: suf') -> fails (p_character_group_item s'))).
  { intros s' [kt pt] suf' E3 Hk. cbn [tk_kind] in Hk. unfold p_character_group_item, p_next, p_peek. rewrite E3. cbn [tk_kind ps_toks].
    assert (Hf : calm PMatch (Tok {| tk_kind := kt; tk_pos := pt |} :: suf') -> forall cur, fails (@p_err_here glit PMatch {| ps_toks := suf'; ps_cur := cur |})).
    { intros Hc cur. apply err_here_fails. intros r' Er. cbn in Er. subst suf'. destruct (Hc eq_refl). }
    destruct kt; try (destruct (Hk c0); reflexivity); (split; [apply err_here_stuck|auto]). }
  destruct r as [|[[k3 p3]|] r]; [| |discriminate].
  - unfold p_err_here, p_peek. cbn. intros [= <-]. eexists _, [_; _], []. split; [reflexivity|]. split; [reflexivity|]. split; [|split; [split|split]].
    + left. auto.
    + exists [TMatch 0%N], (GRange c 0%N). reflexivity.
    + intros [Hi|Hi]; discriminate.
    + discriminate.
    + intros s' suf' E3 [Hs'|(_ & t & r & -> & Ht)]; [|apply (Hany s' t r); auto]. destruct suf'; [|destruct Hs']. cbn in E3. unfold p_character_group_item, p_next, p_peek. rewrite E3. cbn. auto.
  - intros E. assert (Hk3 : match k3 with TMatch _ => False | _ => True end) by (destruct k3; auto; discriminate).
    assert (E' : @p_err_here glit PMatch {| ps_toks := r; ps_cur := Some {| tk_kind := k3; tk_pos := p3 |} |} = PErr errs) by (destruct k3; auto; contradiction).
    clear E. unfold p_err_here, p_peek in E'. cbn [ps_toks ps_cur] in E'.
    exists (hd {| pe_kind := PMatch; pe_pos := (0, 1) |} errs), [{| tk_kind := TMatch c; tk_pos := p |}; {| tk_kind := TOp OMinus; tk_pos := p2 |}], (Tok {| tk_kind := k3; tk_pos := p3 |} :: r).
    assert (Hm : pe_kind (hd {| pe_kind := PMatch; pe_pos := (0, 1) |} errs) = PMatch) by (destruct r as [|[t4|] r]; try discriminate; injection E' as <-; reflexivity).
    split; [|split; [reflexivity|split; [|split; [split|split]]]].
    + destruct r as [|[t4|] r]; try discriminate; injection E' as <-; reflexivity.
    + destruct r as [|[t4|] r]; try discriminate; injection E' as <-; unfold place; cbn [hd pe_kind pe_pos]; right; [left|right]; eauto.
    + exists [TMatch 0%N], (GRange c 0%N). reflexivity.
    + rewrite Hm. intros [Hi|Hi]; discriminate.
    + discriminate.
    + rewrite Hm. intros s' suf' E3 [Hs'|(_ & t & r' & -> & Ht)]; [|apply (Hany s' t r'); auto].
      destruct suf' as [|x suf']; [destruct Hs'|]. cbn in Hs'. subst x. apply (Hany s' _ suf'); [exact E3|]. intros c0 Hc0. cbn in Hc0. subst k3. destruct Hk3.
Qed.

Lemma bad_group_items fuel : forall acc, bad anything glits (p_group_items fuel acc).
Proof.
  induction fuel as [|fuel IH]; intros acc; cbn [p_group_items]; [intros s errs _ H; discriminate|].
  apply (bad_peek anything glits (fun o s => match o with
        | None => POk acc s
        | Some {| tk_kind := TOp ORBracket |} => POk acc s
        | Some _ => pbind (p_character_group_item s) (fun g s' => p_group_items fuel (acc ++ [g]) s')
        end)).
  assert (H : bad (fun s => exists t, peeks s (Some t)) glits (fun s => pbind (p_character_group_item s) (fun g s' => p_group_items fuel (acc ++ [g]) s'))).
  { apply (bad_bind _ _ a_glit (fun _ => anything) (fun _ => glits)).
    - apply loc_group_item.
    - apply bad_group_item.
    - intros g. apply IH.
    - intros s g s1 _ E. split; [exact I|]. exists (glit_tokens g). split; [apply group_item_ok; auto|].
      intros more (gs & ->). exists (g :: gs). reflexivity.
    - intros ks (g & ->). exists [], [g]. cbn. rewrite !app_nil_r. reflexivity. }
  intros [[k p]|]; [|apply (bad_ret _ _ (fun _ => acc) (fun s => s))].
  destruct k as [k|o|q|c|]; try (destruct o; try (apply (bad_ret _ _ (fun _ => acc) (fun s => s))));
    (eapply bad_weaken; [exact H|intros s (_ & Hp); eauto|intros ks Hk; exists []; rewrite app_nil_r; exact Hk]).
Qed.

Definition group_rest (ks : list token_kind) : Prop := exists gs, ks = flat_map glit_tokens gs ++ [TOp ORBracket].

Lemma bad_group_after fuel neg : bad anything group_rest (p_group_after fuel neg).
Proof.
  unfold p_group_after. apply (bad_peek anything group_rest (fun o2 s2 => match o2 with
    | None => p_err_here PCharacterGroupItem s2
    | Some _ =>
        pbind (p_group_items fuel [] s2) (fun ls s3 =>
          p_next s3 (fun o3 s4 =>
            match o3 with
            | Some {| tk_kind := TOp ORBracket |} => POk (LGroup neg ls) s4
            | _ => p_err_here PRightBracket s4
            end))
    end)).
  intros [t|].
  - apply (bad_bind _ _ glits (fun _ s => ps_toks s = [] \/ head_kind (ps_toks s) = Some (TOp ORBracket)) (fun _ ks => ks = [TOp ORBracket])).
    + apply loc_group_items.
    + intros s errs _. apply bad_group_items. exact I.
    + intros ls. apply (bad_close _ _ PRightBracket ORBracket); auto; [eauto|]. intros p s errs. discriminate.
    + intros s ls s1 _ E. split.
      * clear -E. revert E. generalize (@nil glit). revert s. induction fuel as [|fuel IH]; intros s acc; cbn [p_group_items]; [discriminate|].
        unfold p_peek. destruct (ps_toks s) as [|[[k p]|] r] eqn:Es; [|destruct k as [k|o|q|c|]; try destruct o|];
          try (intros [= <- <-]; rewrite Es; auto; fail);
          try (destruct (p_character_group_item s); cbn [pbind]; try discriminate; apply IH); discriminate.
      * destruct (group_items_ok _ _ _ _ _ E) as (gs & -> & Hh). exists (flat_map glit_tokens gs). split; [exact Hh|].
        intros more ->. exists gs. reflexivity.
    + intros ks (gs & ->). exists [TOp ORBracket], gs. reflexivity.
  - apply bad_here; [exists [TOp ORBracket], []; reflexivity|intros [Hi|Hi]; discriminate|]. intros s (_ & H). exact H.
Qed.

Lemma bad_character_group fuel : bad (fun s => exists p, peeks s (Some {| tk_kind := TOp OLBracket; tk_pos := p |})) a_lit (p_character_group fuel).
Proof.
  pose (rest := fun ks => exists neg gs, ks = (if neg : bool then [TOp OCarret] else []) ++ flat_map glit_tokens gs ++ [TOp ORBracket]).
  unfold p_character_group. apply (bad_next _ _ rest).
  - intros p. apply (bad_peek anything rest (fun o1 s1 => match o1 with
          | Some {| tk_kind := TOp OCarret |} => p_next s1 (fun _ s2 => p_group_after fuel true s2)
          | _ => p_group_after fuel false s1
          end)).
    assert (Hf : forall Q, bad Q rest (p_group_after fuel false)).
    { intros Q. eapply bad_weaken; [apply bad_group_after|intros; exact I|]. intros ks (gs & ->). exists [], false, gs. rewrite app_nil_r. reflexivity. }
    intros [[k p2]|]; [|apply Hf]. destruct k as [k|o|q|c|]; try apply Hf. destruct o; try apply Hf.
    eapply bad_skip; [apply bad_group_after| |intros s1 (_ & H); exact H]. intros ks (gs & ->). exists true, gs. reflexivity.
  - intros ks (neg & gs & ->). exists (LGroup neg gs). reflexivity.
Qed.

Lemma bad_match_item fuel : bad (fun s => exists t, peeks s (Some t)) a_lit (p_match_item fuel).
Proof.
  unfold p_match_item. apply (bad_peek _ _ (fun o s => match o with
    | Some {| tk_kind := TMatch c |} => p_next s (fun _ s1 => POk (LMatch c) s1)
    | Some {| tk_kind := TOp OLBracket |} => p_character_group fuel s
    | Some {| tk_kind := TClass k |} => p_next s (fun _ s1 => POk (LClass k) s1)
    | _ => p_err_here PMatchCharacterClassLeftBracket s
    end)).
  intros [[k p]|].
  - assert (Herr : bad (fun s => (exists t, peeks s (Some t)) /\ peeks s (Some {| tk_kind := k; tk_pos := p |})) a_lit
      (fun s => @p_err_here lit PMatchCharacterClassLeftBracket s)).
    { apply bad_here; [exists [TMatch 0%N], (LMatch 0%N); reflexivity|intros _; exists [], (LClass CWord); reflexivity|]. intros s (H & _). exact H. }
    destruct k as [k|o|q|c|]; try exact Herr.
    + intros s errs _. unfold p_next. destruct (ps_toks s) as [|[t|] r]; discriminate.
    + destruct o; try exact Herr. eapply bad_weaken; [apply bad_character_group| |].
      * intros s (_ & H). eauto.
      * intros ks H. exists []. rewrite app_nil_r. exact H.
    + intros s errs _. unfold p_next. destruct (ps_toks s) as [|[t|] r]; discriminate.
  - intros s errs ((t & H) & H2). unfold peeks in *. destruct (ps_toks s) as [|[t'|] r]; contradiction.
Qed.

Lemma bad_match fuel : bad (fun s => exists t, peeks s (Some t)) an_item (p_match fuel).
Proof.
  unfold p_match. apply (bad_bind _ _ a_lit (fun _ => anything) (fun _ ks => exists q, ks = oquant_tokens q)).
  - apply loc_match_item.
  - apply bad_match_item.
  - intros l s errs _. unfold p_quantifier, p_peek, p_next. destruct (ps_toks s) as [|[[k p]|] r]; try discriminate. destruct k; discriminate.
  - intros s l s1 _ E. split; [exact I|]. exists (lit_tokens l). split; [eapply match_item_ok; eauto|].
    intros more (q & ->). exists (ELit l q). split; [constructor|reflexivity].
  - intros ks (l & ->). exists [], (ELit l None). split; [constructor|]. reflexivity.
Qed.

Lemma lit_expr : an_expr [TMatch 0%N].
Proof.
  exists (ELit (LMatch 0%N) None). split; [repeat constructor|]. split; [|reflexivity]. apply (lit_ends (LMatch 0%N) None).
Qed.

Lemma expr_alt l ks : loose_sub l -> an_expr ks -> an_expr (expr_tokens l ++ TOp OVertical :: ks).
Proof.
  intros Hl (e & He & Ho & ->). exists (EAlt l e). split; [apply loose_expr_alt; auto|]. split; [|reflexivity]. cbn [expr_tokens].
  intros H. destruct (expr_tokens e) as [|k ks] eqn:Ee; [destruct Ho; left; reflexivity|].
  rewrite app_assoc in H. apply ends_open_app in H; [|discriminate]. auto.
Qed.

Lemma bad_parser : forall fuel,
  bad anything an_expr (p_expression fuel) /\ bad anything items1 (p_sub_expression fuel) /\
  (forall acc, bad anything items1 (p_sub_loop fuel acc)) /\
  bad (fun s => exists t, peeks s (Some t)) an_item (p_sub_item fuel) /\
  bad (fun s => exists p, peeks s (Some {| tk_kind := TOp OLParen; tk_pos := p |})) an_item (p_group fuel).
Proof.
  induction fuel as [|fuel (IHe & IHs & IHl & IHi & IHg)]; [repeat split; intros; intros ? ? _; discriminate|].
  destruct (parser_ok fuel) as (Oe & Os & Ol & Oi & Og). destruct (parser_shape fuel) as (She & Shs & Shl & Shi & Shg).
  split; [|split; [|split; [|split]]].
  - pose (tail := fun ks => ks = [] \/ exists r, an_expr r /\ ks = TOp OVertical :: r).
    cbn [p_expression].
    apply (bad_bind anything an_expr items1 (fun _ => anything) (fun lhs ks => loose_items lhs -> an_expr (expr_tokens (concat_of lhs) ++ ks))
      (p_sub_expression fuel) (fun lhs s1 =>
        p_peek s1 (fun o =>
          match o with
          | Some {| tk_kind := TOp OVertical |} =>
              p_next s1 (fun _ s2 =>
                pbind (p_expression fuel s2) (fun rhs s3 => POk (EAlt (concat_of lhs) rhs) s3))
          | _ => POk (concat_of lhs) s1
          end))).
    + apply loc_parser.
    + exact IHs.
    + intros lhs. apply (bad_peek _ _ (fun o s1 => match o with
          | Some {| tk_kind := TOp OVertical |} =>
              p_next s1 (fun _ s2 =>
                pbind (p_expression fuel s2) (fun rhs s3 => POk (EAlt (concat_of lhs) rhs) s3))
          | _ => POk (concat_of lhs) s1
          end)).
      intros [[k p]|]; [|apply (bad_ret _ _ (fun _ => concat_of lhs) (fun s => s))].
      destruct k as [k|o|q|c|]; try apply (bad_ret _ _ (fun _ => concat_of lhs) (fun s => s)).
      destruct o; try apply (bad_ret _ _ (fun _ => concat_of lhs) (fun s => s)).
      apply (bad_skip _ _ an_expr {| tk_kind := TOp OVertical; tk_pos := p |}
        (fun s2 => pbind (p_expression fuel s2) (fun rhs s3 => POk (EAlt (concat_of lhs) rhs) s3))).
      * apply (bad_bind _ _ an_expr (fun _ => anything) (fun _ ks => False)); auto.
        -- apply loc_parser.
        -- intros rhs. apply (bad_ret _ _ (fun _ => EAlt (concat_of lhs) rhs) (fun s => s)).
        -- intros s a s1 _ E. split; [exact I|]. exists (expr_tokens a). split; [apply (Oe _ _ _ E)|]. intros _ [].
        -- intros ks H. exists []. rewrite app_nil_r. exact H.
      * intros ks H Hl. apply expr_alt; [apply loose_concat; exact Hl|exact H].
      * intros s (_ & H). exact H.
    + intros s lhs s1 _ E. split; [exact I|]. exists (flat_map expr_tokens lhs). split; [apply (Os _ _ _ E)|].
      intros more H. rewrite <- concat_of_tokens. apply H. eapply Shs; eauto.
    + intros ks (es & H & Hne & ->). exists []. rewrite app_nil_r. exists (concat_of es). rewrite concat_of_tokens.
      split; [constructor; apply loose_concat; exact H|]. split; [|reflexivity]. apply items_end; auto.
  - cbn [p_sub_expression].
    apply (bad_peek _ _ (fun o s => match o with None => p_err_here PSubExpression s | Some _ => p_sub_loop fuel [] s end)).
    intros [t|].
    + intros s errs _. apply IHl. exact I.
    + apply bad_here; [|intros [Hi|Hi]; discriminate|intros s (_ & H); exact H]. exists [TMatch 0%N], [ELit (LMatch 0%N) None]. split; [repeat constructor|]. split; [discriminate|reflexivity].
  - intros acc. cbn [p_sub_loop].
    assert (H : bad (fun s => exists t, peeks s (Some t)) items1 (fun s => pbind (p_sub_item fuel s) (fun e s' => p_sub_loop fuel (acc ++ [e]) s'))).
    { apply (bad_bind _ _ an_item (fun _ => anything) (fun _ => items1)).
      - apply loc_parser.
      - exact IHi.
      - intros e. apply IHl.
      - intros s e s1 _ E. split; [exact I|]. exists (expr_tokens e). split; [apply (Oi _ _ _ E)|].
        intros more (es & H1 & H2 & ->). exists (e :: es). split; [constructor; [eapply Shi; eauto|auto]|]. split; [discriminate|reflexivity].
      - intros ks (e & He & ->). exists [], [e]. split; [repeat constructor; auto|]. split; [discriminate|]. reflexivity. }
    apply (bad_peek _ _ (fun o s => match o with
        | None => POk acc s
        | Some {| tk_kind := TOp OVertical |} => POk acc s
        | Some {| tk_kind := TOp ORParen |} => POk acc s
        | Some _ => pbind (p_sub_item fuel s) (fun e s' => p_sub_loop fuel (acc ++ [e]) s')
        end)).
    intros [[k p]|]; [|apply (bad_ret _ _ (fun _ => acc) (fun s => s))].
    destruct k as [k|o|q|c|]; try (destruct o; try (apply (bad_ret _ _ (fun _ => acc) (fun s => s))));
      (eapply bad_weaken; [exact H|intros s (_ & Hp); eauto|intros ks Hk; exists []; rewrite app_nil_r; exact Hk]).
  - cbn [p_sub_item]. apply (bad_peek _ _ (fun o s => match o with
        | None => p_err_here PTokenForSubExpression s
        | Some {| tk_kind := TOp OLParen |} => p_group fuel s
        | Some _ => p_match fuel s
        end)).
    intros [[k p]|].
    + assert (Hm : bad (fun s => (exists t, peeks s (Some t)) /\ peeks s (Some {| tk_kind := k; tk_pos := p |})) an_item (p_match fuel)).
      { intros s errs (H & _). apply bad_match. exact H. }
      destruct k as [k|o|q|c|]; try exact Hm. destruct o; try exact Hm. intros s errs (_ & H). apply IHg. eauto.
    + intros s errs ((t & H) & H2). unfold peeks in *. destruct (ps_toks s) as [|[t'|] r]; contradiction.
  - cbn [p_group]. pose (rest := fun ks => exists e q, loose_expr e /\ ks = expr_tokens e ++ TOp ORParen :: oquant_tokens q).
    apply (bad_next _ _ rest).
    + intros p. apply (bad_bind _ _ an_expr (fun _ s => at_end (ps_toks s)) (fun _ ks => ks = [TOp ORParen])).
      * apply loc_parser.
      * exact IHe.
      * intros e. apply (bad_close _ _ PRightParan ORParen); auto; [eauto|].
        intros p2 s errs. unfold p_quantifier, p_peek, p_next. destruct (ps_toks s) as [|[[k p3]|] r]; try discriminate. destruct k; discriminate.
      * intros s e s1 _ E. split; [apply (Oe _ _ _ E)|]. exists (expr_tokens e). split; [apply (Oe _ _ _ E)|].
        intros more ->. exists e, None. split; [eapply She; eauto|reflexivity].
      * intros ks (e & He & _ & ->). exists [TOp ORParen], e, None. auto.
    + intros ks (e & q & He & ->). exists (EGroup e q). split; [constructor; auto|reflexivity].
Qed.

(** ** The result *)

Lemma read_as_stream toks ks e : holds toks ks [] -> read_as ks e -> exists s', p_parse (parse_fuel toks) toks = POk e s'.
Proof.
  intros Hk Hr. enough (exists b, gives (p_parse (parse_fuel toks) toks) e b) as (b & cur & ->) by eauto.
  destruct Hr as [|e He Ho|e rest He].
  - apply holds_nil_inv in Hk. rewrite Hk. exists [], None. reflexivity.
  - exists []. pose proof (proj1 (parser_loose (parse_fuel toks)) e toks [] None He Hk (or_introl eq_refl) (fun _ => Ho)) as G.
    unfold p_parse, p_peek. cbn [ps_toks]. destruct toks as [|[t|] r].
    + apply holds_length in Hk. cbn in Hk. destruct (expr_tokens e) eqn:E; [|discriminate]. destruct Ho. left. reflexivity.
    + apply G. unfold parse_fuel. lia.
    + destruct Hk as (ts & Hk & _). destruct ts; discriminate.
  - apply holds_split in Hk. destruct Hk as (b & H1 & H2). exists b.
    pose proof (proj1 (parser_loose (parse_fuel toks)) e toks b None He H1) as G.
    apply holds_cons in H2. destruct H2 as (t0 & b' & -> & Ht & H2). specialize (G (or_intror (f_equal Some Ht))).
    unfold p_parse, p_peek. cbn [ps_toks]. destruct toks as [|[t|] r].
    + apply holds_length in H1. cbn in H1. lia.
    + apply G; [discriminate|unfold parse_fuel; lia].
    + destruct H1 as (ts & H1 & _). destruct ts; discriminate.
Qed.

Lemma last_of_last pre : last_of None pre = last_token pre.
Proof.
  unfold last_token, last_of. induction pre as [|t pre IH] using rev_ind; [reflexivity|]. rewrite fold_left_app, rev_app_distr. reflexivity.
Qed.

Lemma not_viable pre t fuel :
  (forall s' r', ps_toks s' = map Tok pre ++ Tok t :: r' -> stuck (p_expression fuel s')) ->
  ~ viable (map tk_kind pre ++ [tk_kind t]).
Proof.
  intros D (more & e & Hr).
  pose (rest := Tok t :: map (fun k => Tok {| tk_kind := k; tk_pos := (0, 0) |}) more).
  unshelve epose proof (read_as_stream (map Tok pre ++ rest) _ e _ Hr) as (s' & E).
  { exists (pre ++ t :: map (fun k => {| tk_kind := k; tk_pos := (0, 0) |}) more). rewrite app_nil_r. unfold rest. split.
    - rewrite map_app. cbn. rewrite map_map. reflexivity.
    - rewrite map_app. cbn. rewrite map_map. cbn. rewrite map_id, <- app_assoc. reflexivity. }
  specialize (D {| ps_toks := map Tok pre ++ rest; ps_cur := None |} _ eq_refl).
  assert (E' : p_expression (parse_fuel (map Tok pre ++ rest)) {| ps_toks := map Tok pre ++ rest; ps_cur := None |} = POk e s').
  { unfold p_parse, p_peek in E. cbn [ps_toks] in E. destruct (map Tok pre ++ rest) as [|[x|] q] eqn:Eq; [|exact E|discriminate].
    destruct pre; discriminate. }
  set (f' := parse_fuel _) in *. set (s0 := {| ps_toks := _; ps_cur := None |}) in *.
  pose proof (proj1 (parser_more fuel (fuel + f') ltac:(lia)) s0) as M1. pose proof (proj1 (parser_more f' (fuel + f') ltac:(lia)) s0) as M2.
  destruct (p_expression fuel s0); try contradiction; rewrite M1, E' in M2 by discriminate; specialize (M2 ltac:(discriminate)); discriminate.
Qed.

Section Errors.
  Context {env : Env}.

  Lemma error_place w errs : regex_parse w = Val (ParseErr errs) ->
    exists e pre suf, errs = [e] /\ tokens_of w = map Tok pre ++ suf /\ breaks_at pre suf /\ reported (pe_kind e) (pe_pos e) pre suf.
  Proof.
    unfold regex_parse. destruct (p_parse _ _) as [|es| |] eqn:E; try discriminate. intros [= ->].
    pose proof E as E0. unfold p_parse, p_peek in E. cbn [ps_toks] in E.
    destruct (tokens_of w) as [|[t0|] r0] eqn:Ew; try discriminate. rewrite <- Ew in *.
    destruct (proj1 (bad_parser (parse_fuel (tokens_of w))) _ errs I E) as (e & pre & suf & -> & E1 & P & ((more & M) & _) & _ & D).
    cbn [ps_toks ps_cur] in *. exists e, pre, suf. split; [reflexivity|]. split; [exact E1|]. rewrite last_of_last in P. split.
    - split.
      + destruct M as (e' & He & Ho & M). exists more, e'. rewrite M. constructor; auto.
      + destruct suf as [|[t|] r].
        * intros e' Hr. rewrite app_nil_r in E1. unshelve epose proof (read_as_stream (tokens_of w) _ e' _ Hr) as (s' & E2).
          { exists pre. rewrite app_nil_r. auto. }
          congruence.
        * eapply not_viable. intros s' r' E3. apply (D s' _ E3). left. reflexivity.
        * unfold place in P. destruct (pe_kind e); try contradiction; try (destruct P; discriminate); try (destruct P as (? & ? & P & _); discriminate).
          destruct P as [(P & _)|[(? & P & _)|(? & ? & ? & P & _)]]; discriminate.
    - unfold place in P. unfold reported, end_of. destruct (pe_kind e); auto.
  Qed.

  (** Where the tokens break is determined. *)
  Lemma read_viable ks e : read_as ks e -> viable ks.
  Proof. intros H. exists [], e. rewrite app_nil_r. exact H. Qed.

  Lemma viable_prefix a b : viable (a ++ b) -> viable a.
  Proof. intros (more & e & H). exists (b ++ more), e. rewrite app_assoc. exact H. Qed.

  Lemma breaks_unique pre suf pre' suf' : map Tok pre ++ suf = map Tok pre' ++ suf' -> breaks_at pre suf -> breaks_at pre' suf' -> pre = pre' /\ suf = suf'.
  Proof.
    revert pre suf pre' suf'.
    assert (Hlt : forall x y (pre' : list token) suf suf', map Tok x ++ suf = map Tok (x ++ y :: pre') ++ suf' -> breaks_at x suf -> breaks_at (x ++ y :: pre') suf' -> False).
    { intros x y pre' suf suf' E (_ & H) (V & _). rewrite map_app, <- app_assoc in E. apply app_inv_head in E. cbn in E. subst suf.
      apply H. rewrite map_app in V. cbn in V. change (tk_kind y :: map tk_kind pre') with ([tk_kind y] ++ map tk_kind pre') in V.
      rewrite app_assoc in V. eapply viable_prefix. exact V. }
    intros pre suf pre' suf' E B B'.
    assert (pre = pre' \/ (exists y l, pre' = pre ++ y :: l) \/ (exists y l, pre = pre' ++ y :: l)) as [->|[(y & l & ->)|(y & l & ->)]].
    { clear B B'. revert pre' E. induction pre as [|t pre IH]; intros [|t' pre'] E; [auto|right; left; exists t', pre'; reflexivity|right; right; exists t, pre; reflexivity|].
      cbn in E. injection E as <- E. destruct (IH pre' E) as [->|[(y & l & ->)|(y & l & ->)]]; eauto; right; [left|right]; exists y, l; reflexivity. }
    - split; [reflexivity|]. apply app_inv_head in E. exact E.
    - destruct (Hlt _ _ _ _ _ E B B').
    - symmetry in E. destruct (Hlt _ _ _ _ _ E B' B).
  Qed.
End Errors.

(** ** Two misplaced errors *)
Definition tk k a b : token := {| tk_kind := k; tk_pos := (a, b) |}.

Lemma range_breaks : breaks_at [tk (TOp OLBracket) 0 1; tk (TMatch ($"a")) 1 2; tk (TOp OMinus) 2 3]
  [Tok (tk (TOp ORBracket) 3 4); Tok (tk (TMatch ($"b")) 4 5)].
Proof.
  split.
  - exists [TMatch ($"b"); TOp ORBracket], (ELit (LGroup false [GRange ($"a") ($"b")]) None).
    apply (read_all (ELit (LGroup false [GRange ($"a") ($"b")]) None)); [repeat constructor|]. apply (lit_ends _ None).
  - apply (not_viable _ _ 20). intros [ts cur] q E. cbn in E. subst ts.
    destruct q as [|[t|] q]; cbn; exact I.
Qed.

Lemma paren_breaks : breaks_at [tk (TMatch ($"a")) 0 1; tk (TMatch ($"b")) 1 2; tk (TOp OLParen) 2 3; tk (TMatch ($"c")) 3 4] [].
Proof.
  split.
  - exists [TOp ORParen], (EConcat [ELit (LMatch ($"a")) None; ELit (LMatch ($"b")) None; EGroup (ELit (LMatch ($"c")) None) None]).
    apply (read_all (EConcat [ELit (LMatch ($"a")) None; ELit (LMatch ($"b")) None; EGroup (ELit (LMatch ($"c")) None) None])).
    + apply loose_expr_sub, loose_sub_many; repeat constructor.
    + apply (items_end [ELit (LMatch ($"a")) None; ELit (LMatch ($"b")) None; EGroup (ELit (LMatch ($"c")) None) None]); [|discriminate].
      repeat constructor.
  - intros e H. apply (@read_as_parsed (ascii_env true) (str "ab(c"%string) _ e eq_refl) in H. discriminate.
Qed.

Lemma star_breaks : breaks_at [tk (TMatch ($"a")) 0 1; tk (TOp OVertical) 1 2] [Tok (tk (TQuant QAsterisk) 2 3); Tok (tk (TMatch ($"b")) 3 4)].
Proof.
  split.
  - exists [TMatch ($"b")], (EAlt (ELit (LMatch ($"a")) None) (ELit (LMatch ($"b")) None)).
    apply (read_all (EAlt (ELit (LMatch ($"a")) None) (ELit (LMatch ($"b")) None))).
    + apply loose_expr_alt; repeat constructor.
    + intros [H|(u & H)]; [discriminate|]. destruct u as [|a [|b [|c [|d u]]]]; discriminate.
  - apply (not_viable _ _ 20). intros [ts cur] q E. cbn in E. subst ts.
    cbn. exact I.
Qed.
