(** The functions of SpecTextbook.v are right. *)
From Verif Require Import Base GrammarModel CfsmModel SlrModel SpecCfg SpecWrap FirstProofs FollowProofs ItemProofs SlrNew WrapProofs
  SpecPossible PossibleFacts SpecExactness ExactnessProofs SpecBuildable BuildableProofs SpecRename RenameProofs SpecTextbook.

Section Textbook.
  Context {V T : Type} {dv : DecEq V} {dt : DecEq T}.
  Notation sym := (symbol V T).
  Notation dotted := (SpecCfg.dotted V T).
  Variable g : grammar V T.

  (** ** The end of a sentential form *)
  Lemma lasts_spec : In (g_start g) (lasts g) /\
    (forall h l u r, rule g h (l ++ Var u :: r) -> nullb g r -> In h (lasts g) -> In u (lasts g)) /\
    (forall v, In v (lasts g) -> exists l, steps g [Var (g_start g)] (l ++ [Var v])).
  Proof.
    destruct (saturated (fun l => flat_map (fun x : V * (V * list sym) => let '(h, (u, r)) := x in if memb h l && emptyb g r then [u] else []) (all_tails g))
      (g_start g :: body_vars g) [g_start g] (bits (S (length (body_vars g))))) as (H1 & H2 & H3).
    - repeat constructor. intros [].
    - intros x [<-|[]]. left. reflexivity.
    - intros l _ x Hx. apply in_flat_map in Hx. destruct Hx as ([h [u r]] & Hy & Hx). destruct (memb h l && emptyb g r); [|destruct Hx]. destruct Hx as [<-|[]]. right. eapply tail_var; eauto.
    - cbn [length]. apply bits_more.
    - fold (lasts g) in H1, H2, H3. split; [apply H1; left; reflexivity|]. split.
      + intros h l u r Hr Hn Hh. apply H2, in_flat_map. exists (h, (u, r)). split; [apply in_all_tails; eauto|].
        rewrite (proj2 (memb_in h (lasts g)) Hh), (proj2 (emptyb_null g r) Hn). left. reflexivity.
      + apply H3.
        * intros x [<-|[]]. exists []. constructor.
        * intros l Hl x Hx. apply in_flat_map in Hx. destruct Hx as ([h [u r]] & Hy & Hx). destruct (memb h l && emptyb g r) eqn:E; [|destruct Hx]. destruct Hx as [<-|[]].
          apply andb_true_iff in E. destruct E as (E1 & E2). apply memb_in in E1. destruct (Hl h E1) as (a & Ha). apply in_all_tails in Hy. destruct Hy as (b & Hy). exists (a ++ b).
          eapply steps_trans; [eapply steps_next; [exact Ha|]; exact (step_rule g a h _ [] Hy)|]. apply emptyb_null, null_steps in E2.
          pose proof (steps_ctx g (a ++ b ++ [Var u]) [] _ _ E2) as S. rewrite !app_nil_r in *. rewrite <- !app_assoc in *. exact S.
  Qed.
  Lemma last_form y : steps g [Var (g_start g)] y -> forall l v r, y = l ++ Var v :: r -> nullb g r -> In v (lasts g).
  Proof.
    destruct lasts_spec as (L1 & L2 & _). intros H. remember [Var (g_start g)] as z eqn:Ez. induction H as [z|z y w H IH Hs]; intros l v r E Hr.
    - subst z. destruct l as [|? [|]]; try discriminate. injection E as <- <-. exact L1.
    - specialize (IH Ez).
      assert (N : forall x x', step g x x' -> nullb g x' -> nullb g x).
      { intros x x' Hx Hn. apply null_steps. apply null_steps in Hn. eapply steps_trans; [apply step_steps; exact Hx|exact Hn]. }
      destruct Hs as [l0 u bd r0 Hu|l0 r0].
      + apply app_split_cons in E. destruct E as [(r1 & -> & ->)|(l1 & -> & E)].
        * apply (IH l v (r1 ++ Var u :: r0)); [rewrite <- app_assoc; reflexivity|]. eapply N; [|exact Hr]. constructor. exact Hu.
        * apply app_split_cons in E. destruct E as [(r1 & -> & ->)|(l2 & -> & E)].
          -- apply null_app in Hr. destruct Hr as (Hn & Hr). eapply L2; [exact Hu|exact Hn|]. exact (IH l0 u r0 eq_refl Hr).
          -- apply (IH (l0 ++ Var u :: l2) v r); [rewrite <- app_assoc; cbn; rewrite E; reflexivity|exact Hr].
      + apply app_split_cons in E. destruct E as [(r1 & -> & ->)|(l1 & -> & E)].
        * apply (IH l v (r1 ++ Eps :: r0)); [rewrite <- app_assoc; reflexivity|]. eapply N; [|exact Hr]. constructor.
        * apply (IH (l0 ++ Eps :: l1) v r); [rewrite <- app_assoc; cbn; rewrite E; reflexivity|exact Hr].
  Qed.
  Lemma lasts_ok v : In v (lasts g) <-> lookahead g v None.
  Proof. split; [apply lasts_spec|]. intros (l & H). eapply last_form; [exact H|reflexivity|constructor]. Qed.
  Lemma looks_ok v k : In k (looks g v) <-> lookahead g v k.
  Proof.
    unfold looks. rewrite in_app_iff. split.
    - intros [H|H].
      + apply in_map_iff in H. destruct H as (t & <- & H). apply follow_ok. exact H.
      + destruct (memb v (lasts g)) eqn:E; [|destruct H]. destruct H as [<-|[]]. apply memb_in in E. apply lasts_ok. exact E.
    - destruct k as [t|]; intros H; [left; apply in_map, follow_ok, H|right]. apply lasts_ok, memb_in in H. rewrite H. left. reflexivity.
  Qed.

  (** ** Conflicts *)
  Lemma conflictb_ok : conflictb g = true <-> slr_conflict g.
  Proof.
    unfold conflictb. rewrite existsb_exists. split.
    - intros ([[[h a] b] [[h' a'] b']] & Hx & H). cbn [fst snd] in H. apply twins_ok in Hx. destruct Hx as (w & L & L'). exists w.
      destruct b as [|[t|v|] b], b' as [|s b']; cbn [fights] in H; try discriminate.
      + right. apply andb_true_iff in H. destruct H as (H1 & H2). apply existsb_exists in H2. destruct H2 as (k & Hk & Hk'). apply memb_in in Hk'. apply looks_ok in Hk. apply looks_ok in Hk'.
        exists h, a, h', a', k. split; [|auto]. intros E. rewrite E, (proj2 (eqb_eq _ _) eq_refl) in H1. discriminate.
      + left. apply memb_in in H. exists h, a, t, b, h', a'. split; [exact L|]. split; [exact L'|]. apply follow_ok. exact H.
    - intros (w & [(h & a & t & r & h' & a' & L & L' & F)|(h & a & h' & a' & k & N & L & L' & F & F')]).
      + exists ((h, a, Ter t :: r), (h', a', [])). split; [apply twins_ok; eauto|]. cbn [fst snd fights]. apply memb_in, follow_ok. exact F.
      + exists ((h, a, []), (h', a', [])). split; [apply twins_ok; eauto|]. cbn [fst snd fights]. apply andb_true_iff. split.
        * apply negb_true_iff. destruct (eqb (h, a) (h', a')) eqn:E; [|reflexivity]. apply (eqb_eq (h, a) (h', a')) in E. destruct (N E).
        * apply existsb_exists. exists k. split; [apply looks_ok; exact F|]. apply memb_in, looks_ok. exact F'.
  Qed.

  (** ** The items after a word *)
  Lemma closes_dots e d : In d (closes g e) -> In d (all_dots g).
  Proof.
    destruct d as [[h a] b]. intros H. apply in_closes in H. destruct H as (h' & a' & r & bd & -> & Hr & Hs). apply in_dots.
    apply ItemProofs.skip_eps_app in Hs. rewrite Hs. exact Hr.
  Qed.
  Lemma closure_spec init : incl init (all_dots g) -> incl init (closure g init) /\ (forall e d, In e (closure g init) -> In d (closes g e) -> In d (closure g init)) /\
    (forall P : dotted -> Prop, (forall d, In d init -> P d) -> (forall e d, P e -> In d (closes g e) -> P d) -> forall d, In d (closure g init) -> P d).
  Proof.
    intros Hi. destruct (saturated (fun l => init ++ flat_map (closes g) l) (all_dots g) [] (bits (length (all_dots g)))) as (_ & H2 & H3).
    - constructor.
    - intros x [].
    - intros l _ x Hx. apply in_app_or in Hx. destruct Hx as [Hx|Hx]; [exact (Hi x Hx)|]. apply in_flat_map in Hx. destruct Hx as (e & _ & Hx). eapply closes_dots; eauto.
    - apply bits_more.
    - fold (closure g init) in H2, H3. split; [intros d Hd; apply H2, in_or_app; left; exact Hd|]. split.
      + intros e d He Hd. apply H2, in_or_app. right. apply in_flat_map. eauto.
      + intros P H4 H5. apply H3; [intros x []|]. intros l Hl x Hx. apply in_app_or in Hx. destruct Hx as [Hx|Hx]; [auto|]. apply in_flat_map in Hx. destruct Hx as (e & He & Hx). eauto.
  Qed.
  Lemma in_moved s d h a b : In (h, a, b) (moved s d) <-> exists x r, d = (h, x, s :: r) /\ skip_eps (x ++ [s : sym], r) (a, b).
  Proof.
    destruct d as [[h' x] [|s' r]]; cbn [moved]; [split; [intros []|intros (? & ? & E & _); discriminate]|]. destruct (eqb s s') eqn:E.
    - apply (eqb_eq s s') in E. subst s'. unfold dot. split.
      + intros [H|[]]. destruct (skip (x ++ [s]) r) as [a1 b1] eqn:E1. injection H as -> -> ->. exists x, r. split; [reflexivity|]. apply skip_ok. exact E1.
      + intros (y & z & E & H). injection E; intros; subst. apply skip_ok in H. rewrite H. left. reflexivity.
    - split; [intros []|]. intros (y & z & E1 & _). injection E1; intros; subst. rewrite (proj2 (eqb_eq s s) eq_refl) in E. discriminate.
  Qed.
  Lemma initial_dots v : incl (initials g v) (all_dots g).
  Proof. intros [[h a] b] H. apply in_initials in H. destruct H as (-> & bd & Hr & Hs). apply in_dots. apply ItemProofs.skip_eps_app in Hs. rewrite Hs. exact Hr. Qed.
  Lemma lr0_dots w d : lr0 g w d -> In d (all_dots g).
  Proof. intros H. apply lr0_rule in H. destruct d as [[h a] b]. apply in_dots. exact H. Qed.
  Lemma moved_dots l s : incl l (all_dots g) -> incl (flat_map (moved s) l) (all_dots g).
  Proof.
    intros Hl [[h a] b] H. apply in_flat_map in H. destruct H as (d & Hd & H). apply in_moved in H. destruct H as (x & r & -> & Hs). apply Hl, in_dots in Hd. apply in_dots.
    apply ItemProofs.skip_eps_app in Hs. rewrite Hs, <- app_assoc. exact Hd.
  Qed.
  Lemma items_ok w : forall d, In d (items g w) <-> lr0 g w d.
  Proof.
    assert (C : forall w e d, lr0 g w e -> In d (closes g e) -> lr0 g w d).
    { intros u e [[h a] b] L H. apply in_closes in H. destruct H as (h' & a' & r & bd & -> & Hr & Hs). eapply lr0_close; eauto. }
    induction w as [|s w IH] using rev_ind.
    - destruct (closure_spec (initials g (g_start g)) (initial_dots _)) as (H1 & H2 & H3). intros d. split.
      + apply H3; [|intros; eapply C; eauto]. intros [[h a] b] H. apply in_initials in H. destruct H as (-> & bd & Hr & Hs). eapply lr0_start; eauto.
      + change (items g []) with (closure g (initials g (g_start g))). intros L. remember [] as u eqn:Eu. induction L as [bd a b R S|u h a v r bd a' b' L IHL R S|u h a s r a' b' L _ S].
        * apply H1, in_initials. eauto.
        * apply (H2 _ _ (IHL Eu)). apply in_closes. exists h, a, r, bd. auto.
        * destruct u; discriminate.
    - unfold items in *. rewrite fold_left_app. cbn [fold_left]. set (l := fold_left _ w _) in *.
      assert (Hl : incl l (all_dots g)) by (intros d Hd; apply IH in Hd; eapply lr0_dots; eauto).
      destruct (closure_spec (flat_map (moved s) l) (moved_dots l s Hl)) as (H1 & H2 & H3). intros d. split.
      + apply H3; [|intros; eapply C; eauto]. intros [[h a] b] H. apply in_flat_map in H. destruct H as (e & He & H). apply in_moved in H. destruct H as (x & r & -> & Hs).
        apply IH in He. eapply lr0_goto; eauto.
      + intros L. remember (w ++ [s]) as u eqn:Eu. induction L as [bd a b R S|u h a v r bd a' b' L IHL R S|u h a s' r a' b' L _ S].
        * destruct w; discriminate.
        * apply (H2 _ _ (IHL Eu)). apply in_closes. exists h, a, r, bd. auto.
        * apply app_inj_tail in Eu. destruct Eu as (-> & ->). apply H1, in_flat_map. exists (h, a, s :: r). split; [apply IH; exact L|]. apply in_moved. exists a, r. auto.
  Qed.

  (** ** The textbook table *)
  Lemma asked_ok w d k : lr0 g w d -> In k (asked g d) <-> SpecWrap.asks g w d k.
  Proof.
    intros L. unfold SpecWrap.asks. destruct d as [[h a] [|[t|v|] r]]; cbn [asked].
    - rewrite looks_ok. destruct k; tauto.
    - split; [intros [<-|[]]; auto|]. intros (_ & H). destruct k as [t'|]; [subst; left; reflexivity|destruct H].
    - split; [intros []|]. intros (_ & H). destruct k; destruct H.
    - split; [intros []|]. intros (_ & H). destruct k; destruct H.
  Qed.
  Lemma textb_ok teq : textb g teq = true <-> textbook_clash g teq.
  Proof.
    unfold textb, textbook_clash. rewrite orb_true_iff. unfold twiceb. rewrite !existsb_exists. split; (intros [H|H]; [left|right]).
    - destruct H as ([d d'] & Hx & H). cbn [fst snd] in H. apply existsb_exists in H. destruct H as (k & Hk & H). apply existsb_exists in H. destruct H as (k' & Hk' & H).
      apply andb_true_iff in H. destruct H as (H1 & H2). apply negb_true_iff in H2. apply twins_ok in Hx. destruct Hx as (w & L & L'). exists w, d, k, d', k'.
      split; [apply asked_ok; auto|]. split; [apply asked_ok; auto|]. split; [|apply same_keyb_ok; exact H1].
      intros Q. rewrite Q, (proj2 (eqb_eq _ _) eq_refl) in H2. discriminate.
    - destruct H as ([[h a] b] & Hx & H). destruct b as [|s b]; [|discriminate]. apply items_ok in Hx. exists (h, a, []). split; [reflexivity|]. split; [exact Hx|].
      apply lasts_ok, memb_in. exact H.
    - destruct H as (w & d & k & d' & k' & W & W' & Hn & Hk). exists (d, d'). split; [apply twins_ok; exists w; split; [apply W|apply W']|]. cbn [fst snd].
      apply existsb_exists. exists k. split; [apply (asked_ok w d k); [apply W|exact W]|]. apply existsb_exists. exists k'. split; [apply (asked_ok w d' k'); [apply W'|exact W']|].
      apply andb_true_iff. split; [apply same_keyb_ok; exact Hk|]. apply negb_true_iff. destruct (eqb (d, k) (d', k')) eqn:Q; [|reflexivity]. apply (eqb_eq (d, k) (d', k')) in Q. destruct (Hn Q).
    - destruct H as ([[h a] b] & E & L & H). cbn [snd] in E. subst b. exists (h, a, []). split; [apply items_ok; exact L|]. apply memb_in, lasts_ok. exact H.
  Qed.
  Lemma cleanb_ok : cleanb g = true <-> clean g.
  Proof.
    unfold cleanb, clean. rewrite andb_true_iff, freeb_ok, forallb_forall. split.
    - intros (H1 & H2). split; [exact H1|]. split; intros v bd Hr; apply in_rules in Hr; apply H2 in Hr; cbn [fst] in Hr; apply andb_true_iff in Hr; destruct Hr as (R & P).
      + apply reachables_ok, memb_in. exact R.
      + apply productiveb_ok. exact P.
    - intros (H1 & H2 & H3). split; [exact H1|]. intros [v bd] Hr. apply in_rules in Hr. cbn [fst]. apply andb_true_iff. split.
      + apply memb_in, reachables_ok. eapply H2; eauto.
      + apply productiveb_ok. eapply H3; eauto.
  Qed.
  Lemma steadyb_ok : steadyb g = true <-> (entry_possible g (g_start g) -> entry_sure g (g_start g)).
  Proof.
    unfold steadyb. rewrite <- maybeb_ok, <- sureb_ok. destruct (maybeb g (g_start g)), (sureb g (g_start g)); cbn; split; auto; try discriminate; intros H; symmetry; apply eq_sym, H; reflexivity.
  Qed.
End Textbook.

(** ** The wrapped grammar *)
Lemma wrapped_decided {V T} {dv : DecEq V} {dt : DecEq T} {ho : HashOrder} (teq : T -> T -> bool) cs (g w : grammar V T) z e o p :
  lawful teq -> build (do_calls cs) = Val g -> build (do_calls (wrapped cs (g_start g) z e o)) = Val w ->
  fresh_variable g z -> fresh_terminal teq g e -> fresh_terminal teq g o -> teq o e = false ->
  exists n, (textb g teq = true /\ forall fuel, n <= fuel -> slr_new teq fuel p w = Panic) \/
    (textb g teq = false /\ exists tb, forall fuel, n <= fuel -> slr_new teq fuel p w = Val tb).
Proof.
  intros Ht Hg Hw Hz He Ho Hoe. destruct (wrapped_new teq Ht cs g w z e o p Hg Hw Hz He Ho Hoe) as (n & r & Hn & [(-> & H)|(tb & -> & H)]); exists n.
  - left. split; [apply textb_ok; exact H|exact Hn].
  - right. split; [|exists tb; exact Hn]. destruct (textb g teq) eqn:E; [|reflexivity]. apply textb_ok in E. destruct (H E).
Qed.
Lemma wrapped_sure {V T} {dv : DecEq V} {dt : DecEq T} {ho : HashOrder} (teq : T -> T -> bool) cs (g w : grammar V T) z e o p :
  lawful teq -> build (do_calls cs) = Val g -> build (do_calls (wrapped cs (g_start g) z e o)) = Val w ->
  fresh_variable g z -> fresh_terminal teq g e -> fresh_terminal teq g o -> teq o e = false -> cleanb g = true -> textb g teq = false ->
  exists n tb, (forall fuel, n <= fuel -> slr_new teq fuel p w = Val tb) /\ forall ts,
    (exists x m, parses g teq ts x /\ forall fuel, m <= fuel -> parse teq fuel tb (ts ++ [e]) = Val (Some (Node (Var z) [Node (Ter e) []; to_node x]))) \/
    ((forall x, ~ parses g teq ts x) /\ exists m, forall fuel, m <= fuel -> parse teq fuel tb (ts ++ [e]) = Val None).
Proof.
  intros Ht Hg Hw Hz He Ho Hoe Hc Hx. apply cleanb_ok in Hc.
  destruct (wrapped_decided teq cs g w z e o p Ht Hg Hw Hz He Ho Hoe) as (n & [(E & _)|(_ & tb & Hn)]); [rewrite E in Hx; discriminate|].
  exists n, tb. split; [exact Hn|]. intros ts. destruct (wrapped_parse teq Ht cs g w z e o n p tb ts Hg Hw Hz Hoe Hc (Hn n (le_n n))) as [(x & P & F)|(P & F)].
  - left. exists x. eexists. split; [exact P|exact F].
  - right. split; [exact P|]. eexists. exact F.
Qed.

(** ** The order *)
Lemma rename_symbol_same {V T} (s : symbol V T) : rename_symbol (fun v => v) (fun t => t) s = s.
Proof. destruct s; reflexivity. Qed.
Lemma rename_body_same {V T} (bd : list (symbol V T)) : rename_body (fun v => v) (fun t => t) bd = bd.
Proof. induction bd as [|s bd IH]; cbn; [reflexivity|]. unfold rename_body in IH. rewrite rename_symbol_same, IH. reflexivity. Qed.
Fixpoint rename_node_same {V T} (n : node V T) : rename_node (fun v => v) (fun t => t) n = n.
Proof.
  destruct n as [s cs]. cbn [rename_node]. rewrite rename_symbol_same. f_equal. induction cs as [|c cs IH]; cbn [map]; [reflexivity|]. rewrite IH, rename_node_same. reflexivity.
Qed.
Lemma steady_orders {V T} {dv : DecEq V} {dt : DecEq T} (teq : T -> T -> bool) (g : grammar V T) (ho ho' : HashOrder) p p' :
  lawful teq -> built g -> steadyb g = true ->
  exists n, forall fuel, n <= fuel ->
    (slr_new teq (ho := ho) fuel p g = Panic /\ slr_new teq (ho := ho') fuel p' g = Panic) \/
    exists tb tb', slr_new teq (ho := ho) fuel p g = Val tb /\ slr_new teq (ho := ho') fuel p' g = Val tb' /\
      forall ts, exists m, forall k, m <= k -> agree (parse teq k tb ts) (parse teq k tb' ts).
Proof.
  intros Ht Hb Hs. pose proof (proj1 (steadyb_ok g) Hs) as He.
  destruct (new_renamed (fun v : V => v) (fun t : T => t) (fun x y E => E) (fun x y E => E) teq teq Ht Ht (fun x y => eq_refl) g g Hb Hb) with (ho := ho) (ho' := ho') (p := p) (p' := p') as (n & Hn).
  - split; [reflexivity|]. intros v bd. split.
    + intros Hr. exists v, bd. rewrite rename_body_same. auto.
    + intros (v0 & bd0 & -> & -> & Hr). rewrite rename_body_same. exact Hr.
  - exact He.
  - exists n. intros fuel Hf. destruct (Hn fuel Hf) as [H|(tb & tb' & H1 & H2 & H3)]; [left; exact H|right]. exists tb, tb'. split; [exact H1|]. split; [exact H2|].
    intros ts. destruct (H3 ts) as (m & Hm). exists m. intros k Hk. specialize (Hm k Hk). rewrite map_id in Hm.
    replace (rename_result (fun v : V => v) (fun t : T => t) (parse teq k tb ts)) with (parse teq k tb ts) in Hm; [exact Hm|].
    destruct (parse teq k tb ts) as [[x|]| |]; cbn [rename_result]; try reflexivity. rewrite rename_node_same. reflexivity.
Qed.
