(** * Facts about exploration databases that share contexts and lists *)
From Verif Require Import Py Spec PyFacts SpecFacts DgSpec ContextModel ContextSpec ContextOps ContextFacts ContextFinal ClosureModel ClosureFacts
  DgModel DgFinal AiModel ExplModel ExplSpec ExplFacts ExplDb ExplFinal ShareModel ShareSpec.

Lemma db_view_Some w k d : db_view w k = Some d ↔
  ∃ b p L, sh_dbs w !! k = Some b ∧ sh_cxts w !! sd_cxt b = Some p ∧ sh_lists w !! sd_imps b = Some L ∧
    d = EDB p.1 L (sd_cond b) (sd_open b) p.2.
Proof.
  unfold db_view. destruct (sh_dbs w !! k) as [b|]; cbn; [|split; [done|by intros (?&?&?&?&_)]].
  destruct (sh_cxts w !! sd_cxt b) as [p|] eqn:E1; cbn; [|split; [done|]; intros (?&?&?&[= <-]&H&_); congruence].
  destruct (sh_lists w !! sd_imps b) as [L|] eqn:E2; cbn; [|split; [done|]; intros (?&?&?&[= <-]&_&H&_); congruence].
  split.
  - intros [= <-]. by exists b, p, L.
  - intros (?&?&?&[= <-]&H1&H2&->). congruence.
Qed.

Lemma dcond_dstep ords o d : dcond (dstep ords o d).1 = dcond d.
Proof.
  unfold dstep. destruct (djam d); [done|].
  assert (∀ r : upd edb (), dcond r.1 = dcond d → dcond (decorated ords r).1 = dcond d) as Hdec.
  { intros [d' [[]|e]] H; cbn in *; [|done]. unfold db_refresh. by destruct (compute_dg_basis _ _ _ _). }
  apply Hdec. destruct o as [i|i|o X|o|o old X|a X|a| |a old X]; cbn; try done.
  - by destruct (remove_imp i (dimps d)).
  - unfold db_add_example, guarded. destruct (check_intent _ _); [|done]. by case_bool_decide.
  - unfold db_edit_example. destruct (get_object_intent _ _) as [Y|]; [|done].
    set (r := if bool_decide _ then _ else _).
    assert (dcond r.1 = dcond d) as Hr. { unfold r. case_bool_decide; [|done]. unfold guarded. by destruct (check_intent _ _). }
    destruct r as [d1 [[]|e]]; cbn in *; [|done]. case_bool_decide; [|done]. by case_bool_decide.
  - unfold db_add_attribute. by case_bool_decide.
  - unfold db_edit_attribute. destruct (mapM _ _); [|done]. destruct (_ && _); [done|]. destruct (_ <? _)%nat; [done|].
    by destruct (set_attribute_extent _ _ _) as [c' [[]|e]].
Qed.
Lemma edb_eta d : EDB (dcxt d) (dimps d) (dcond d) (dopen d) (djam d) = d.
Proof. by destruct d. Qed.

(** The database a call is made on. *)
Lemma s_call_own w k ords o d : db_view w k = Some d →
  db_view (s_cmd w (SCall k ords o)).1 k = Some (dstep ords o d).1 ∧ (s_cmd w (SCall k ords o)).2 = (dstep ords o d).2.
Proof.
  intros Hd. pose proof Hd as (b & p & L & Hb & Hp & HL & E)%db_view_Some. cbn [s_cmd]. unfold s_call. rewrite Hb, Hd. cbn [fst snd]. split; [|done].
  apply db_view_Some. eexists _, _, _. cbn. rewrite list_lookup_insert by by eapply lookup_lt_Some.
  split; [done|]. cbn. rewrite !list_lookup_insert by by eapply lookup_lt_Some. split; [done|]. split; [done|]. cbn.
  assert (sd_cond b = dcond (dstep ords o d).1) as ->. { rewrite dcond_dstep. by subst d. } by rewrite edb_eta.
Qed.
(** Another database. *)
Lemma s_call_other w k ords o d k' b b' : k' ≠ k → db_view w k = Some d → sh_dbs w !! k = Some b → sh_dbs w !! k' = Some b' →
  let w' := (s_cmd w (SCall k ords o)).1 in
  sh_dbs w' !! k' = Some b' ∧
  sh_cxts w' = <[sd_cxt b := (dcxt (dstep ords o d).1, djam (dstep ords o d).1)]> (sh_cxts w) ∧
  sh_lists w' = <[sd_imps b := dimps (dstep ords o d).1]> (sh_lists w).
Proof. intros Hne Hd Hb Hb'. cbn [s_cmd]. unfold s_call. rewrite Hb, Hd. cbn. by rewrite list_lookup_insert_ne by done. Qed.

(** ** Separation *)
Lemma away_view w c k b d : sh_dbs w !! k = Some b → db_view w k = Some d → away (sd_cxt b) (sd_imps b) w c →
  sh_dbs (s_cmd w c).1 !! k = Some b ∧ db_view (s_cmd w c).1 k = Some d.
Proof.
  intros Hb Hd Ha. pose proof Hd as (b0 & p & L & Hb0 & Hp & HL & E)%db_view_Some. rewrite Hb in Hb0. injection Hb0 as <-.
  enough (sh_dbs (s_cmd w c).1 !! k = Some b ∧ sh_cxts (s_cmd w c).1 !! sd_cxt b = Some p ∧ sh_lists (s_cmd w c).1 !! sd_imps b = Some L) as (H1 & H2 & H3).
  { split; [done|]. apply db_view_Some. by exists b, p, L. }
  destruct c as [c|L'|ords x j cond|k' ords o|x o|j i|j i]; cbn in *.
  - split; [done|]. split; [|done]. by apply lookup_app_l_Some.
  - split; [done|]. split; [done|]. by apply lookup_app_l_Some.
  - unfold s_new. destruct (sh_cxts w !! x) as [[c [|]]|] eqn:E1; [by destruct (sh_lists w !! j)| |done].
    destruct (sh_lists w !! j) as [L'|]; [|done]. destruct (compute_dg_basis _ _ _ _); cbn.
    + split; [by apply lookup_app_l_Some|done].
    + split; [done|]. by rewrite list_lookup_insert_ne.
  - unfold s_call. destruct (sh_dbs w !! k') as [b'|] eqn:Eb'; [|done]. destruct (db_view w k') as [d'|]; [|done]. cbn.
    destruct (Ha b' eq_refl) as [H1 H2]. rewrite !list_lookup_insert_ne; try done. intros ->. congruence.
  - destruct (sh_cxts w !! x) as [[c [|]]|]; [done| |done]. cbn. by rewrite list_lookup_insert_ne.
  - destruct (sh_lists w !! j) as [L'|]; [|done]. cbn. by rewrite list_lookup_insert_ne.
  - destruct (sh_lists w !! j) as [L'|]; [|done]. destruct (remove_imp i L'); [|done]. cbn. by rewrite list_lookup_insert_ne.
Qed.
Lemma call_cells w k ords o b d : sh_dbs w !! k = Some b → db_view w k = Some d →
  ∃ b', sh_dbs (s_cmd w (SCall k ords o)).1 !! k = Some b' ∧ sd_cxt b' = sd_cxt b ∧ sd_imps b' = sd_imps b.
Proof.
  intros Hb Hd. cbn [s_cmd]. unfold s_call. rewrite Hb, Hd. cbn. rewrite list_lookup_insert by by eapply lookup_lt_Some. by eexists.
Qed.
Lemma separate_alone p w k b d : sh_dbs w !! k = Some b → db_view w k = Some d → separate k (sd_cxt b) (sd_imps b) w p →
  db_view (s_run w p).1 k = Some (alone (own k p) d).1 ∧ own_results k p (s_run w p).2 = (alone (own k p) d).2.
Proof.
  revert w b d. induction p as [|c p IH]; intros w b d Hb Hd Hs; [done|]. destruct Hs as [Hc Hs]. cbn [s_run].
  destruct (s_cmd w c) as [w1 r] eqn:E1. cbn in Hs. destruct (s_run w1 p) as [w2 rs] eqn:E2. cbn [fst snd].
  assert ((∃ ords o, c = SCall k ords o) ∨ ¬ (∃ ords o, c = SCall k ords o)) as [(ords & o & ->)|Hne].
  { destruct c as [| | |k' ords o| | |]; try (right; by intros (?&?&?)).
    destruct (decide (k' = k)) as [->|]; [left; by eauto|right; intros (?&?&[=]); congruence]. }
  all: cycle 1.
  - assert (away (sd_cxt b) (sd_imps b) w c) as Ha.
    { destruct Hc as [Hc|?]; [|done]. destruct c as [| | |k' ords o| | |]; try done. subst k'. exfalso. eauto. }
    destruct (away_view w c k b d Hb Hd Ha) as [H1 H2]. rewrite E1 in H1, H2. cbn in H1, H2.
    destruct (IH w1 b d H1 H2 Hs) as [H3 H4]. rewrite E2 in H3, H4. cbn in H3, H4.
    assert (own k (c :: p) = own k p ∧ own_results k (c :: p) (r :: rs) = own_results k p rs) as [-> ->]; [|split; assumption].
    unfold own, own_results. cbn. destruct c as [| | |k' ords o| | |]; try done.
    by rewrite !decide_False by (intros ->; eauto).
  - destruct (s_call_own w k ords o d Hd) as [H1 H2]. rewrite E1 in H1, H2. cbn [fst snd] in H1, H2.
    destruct (call_cells w k ords o b d Hb Hd) as (b' & H3 & H4 & H5). rewrite E1 in H3. cbn in H3. rewrite <-H4, <-H5 in Hs.
    destruct (IH w1 b' _ H3 H1 Hs) as [H6 H7]. rewrite E2 in H6, H7. cbn in H6, H7.
    assert (own k (SCall k ords o :: p) = (ords, o) :: own k p ∧ own_results k (SCall k ords o :: p) (r :: rs) = r :: own_results k p rs) as [-> ->].
    { unfold own, own_results. cbn. by rewrite !decide_True by done. }
    cbn [alone]. destruct (dstep ords o d) as [d1 r1]. cbn [fst snd] in *.
    destruct (alone (own k p) d1) as [d2 rs2]. cbn [fst snd] in *. split; [assumption|congruence].
Qed.

(** ** After [touch] a database is as if it had just been made *)
Lemma touch_new w k ords d w' : db_view w k = Some d → s_cmd w (SCall k ords DTouch) = (w', Ok tt) →
  ∃ d', db_view w' k = Some d' ∧ new_db ords (dcxt d) (dimps d) (dcond d) = Ok d'.
Proof.
  intros Hd E. destruct (s_call_own w k ords DTouch d Hd) as [H1 H2]. rewrite E in H1, H2. cbn in H1, H2. eexists. split; [exact H1|].
  revert H2. unfold dstep. destruct (djam d) eqn:Ej; [done|]. unfold decorated, db_refresh, new_db.
  destruct (compute_dg_basis (dcxt d) ords (Some (dimps d)) (dcond d)); [|done]. intros _. cbn [mbind res_bind fst]. by rewrite Ej.
Qed.
Lemma touch_ok w k ords d : lists_sets ords → db_view w k = Some d → dpre d →
  ∃ w' d', s_cmd w (SCall k ords DTouch) = (w', Ok tt) ∧ db_view w' k = Some d' ∧ dinv d' ∧ dcxt d' = dcxt d ∧ dimps d' = dimps d.
Proof.
  intros Ho Hd Hp. destruct (s_call_own w k ords DTouch d Hd) as [H1 H2].
  destruct (refresh_inv ords d Ho Hp) as (R & E & Hi).
  assert (dstep ords DTouch d = db_refresh ords d) as Ed. { unfold dstep. by rewrite (p_jam d Hp). }
  rewrite Ed, E in H1, H2. cbn [fst snd] in H1, H2. destruct (s_cmd w (SCall k ords DTouch)) as [w' r]. cbn [fst snd] in *. subst r. by eexists _, _.
Qed.

(** ** Teams *)
Lemma step_pre ords o d : lists_sets ords → dpre d →
  match o with DConfirm i => i ∈ dopen (dstep ords DTouch d).1 | _ => db_call d o end →
  dpre (dstep ords o d).1 ∧ (valid (abs (dcxt d)) (dimps d) → valid (abs (dcxt (dstep ords o d).1)) (dimps (dstep ords o d).1)).
Proof.
  intros Ho Hd Hc.
  assert (∀ r, outcome d r → dpre (decorated ords r).1 ∧
    (valid (abs (dcxt d)) (dimps d) → valid (abs (dcxt (decorated ords r).1)) (dimps (decorated ords r).1))) as Hout.
  { intros r [[e ->]|(d' & -> & Hp & Hv)]; [done|]. cbn. destruct (refresh_inv ords d' Ho Hp) as (R & -> & H). cbn. split; [by apply dinv_dpre|done]. }
  unfold dstep in *. rewrite (p_jam d Hd) in *. apply Hout. clear Hout.
  destruct o as [i|i|o X|o|o old X|a X|a| |a old X]; cbn in Hc.
  - destruct (refresh_inv ords d Ho Hd) as (R & E & Hi). rewrite E in Hc. cbn in Hc.
    destruct (confirm_outcome _ i Hi Hc) as [[e [=]]|(d' & [= <-] & Hp & Hv)]. cbn in *. right. eexists. split; [done|].
    split; [|done]. destruct Hp. by constructor.
  - by apply unconfirm_outcome.
  - by apply add_example_outcome.
  - left. by eexists.
  - by apply edit_example_outcome.
  - by apply db_add_attribute_outcome.
  - left. by eexists.
  - right. by exists d.
  - by apply edit_attribute_outcome.
Qed.

Record team_inv (w : share) : Prop := TeamInv {
  t_view : ∀ k b, sh_dbs w !! k = Some b → ∃ d, db_view w k = Some d;
  t_pre : ∀ k d, db_view w k = Some d → dpre d ∧ valid (abs (dcxt d)) (dimps d);
  t_pair : ∀ k k' b b', sh_dbs w !! k = Some b → sh_dbs w !! k' = Some b' → (sd_cxt b = sd_cxt b' ↔ sd_imps b = sd_imps b') }.

(** The view of a database whose cells are the same up to its open implications. *)
Lemma dpre_open d R : dpre d → dpre (EDB (dcxt d) (dimps d) (dcond d) R (djam d)).
Proof. intros []. by constructor. Qed.
Lemma team_frame w w' : team_inv w → sh_dbs w' = sh_dbs w →
  (∀ k b p, sh_dbs w !! k = Some b → sh_cxts w !! sd_cxt b = Some p → sh_cxts w' !! sd_cxt b = Some p) →
  (∀ k b L, sh_dbs w !! k = Some b → sh_lists w !! sd_imps b = Some L → ∃ L', sh_lists w' !! sd_imps b = Some L' ∧
     (∀ i, i ∈ L' → i ∈ L) ∧ (no_repeats L → no_repeats L')) →
  team_inv w'.
Proof.
  intros [h1 h2 h3] Ed Hc HL. constructor; rewrite ?Ed.
  - intros k b Hb. destruct (h1 k b Hb) as [d (b0 & p & L & Hb0 & Hp & HL0 & E)%db_view_Some]. rewrite Hb in Hb0. injection Hb0 as <-.
    destruct (HL k b L Hb HL0) as (L' & HL' & _). eexists. apply db_view_Some. exists b, p, L'. rewrite Ed. split; [done|]. split; [by eapply Hc|done].
  - intros k d (b & p & L & Hb & Hp & HL0 & E)%db_view_Some. rewrite Ed in Hb.
    destruct (h1 k b Hb) as [d0 Hd0]. pose proof Hd0 as (b0 & p0 & L0 & Hb0 & Hp0 & HL1 & E0)%db_view_Some. rewrite Hb in Hb0. injection Hb0 as <-.
    rewrite (Hc k b p0 Hb Hp0) in Hp. injection Hp as <-. destruct (HL k b L0 Hb HL1) as (L' & HL' & Hsub & Hrep).
    rewrite HL' in HL0. injection HL0 as <-. destruct (h2 k d0 Hd0) as [[] Hv]. subst d d0. cbn in *. split.
    + constructor; cbn; try done; [|by apply Hrep]. intros i Hi. by apply p_within, Hsub.
    + intros i Hi. by apply Hv, Hsub.
  - intros k k' b b' Hb Hb'. by eapply h3.
Qed.
Lemma team_run w c : team_inv w → team_cmd w c → team_inv (s_cmd w c).1.
Proof.
  intros Hw Hc. pose proof Hw as [h1 h2 h3].
  assert (∀ (L : list fimp), (∀ i, i ∈ L → i ∈ L) ∧ (no_repeats L → no_repeats L)) as Hid by done.
  destruct c as [c|L'|ords x j cond|k ords o|x o|j i|j i]; cbn in *.
  - eapply team_frame; [done|done| |]; cbn; [|by eauto]. intros k b p _ Hp. by apply lookup_app_l_Some.
  - eapply team_frame; [done|done| |]; cbn; [by eauto|]. intros k b L _ HL. exists L. split; [by apply lookup_app_l_Some|done].
  - destruct Hc as (Ho & Hcond & Hpair & Hfit). unfold s_new.
    destruct (sh_cxts w !! x) as [[c [|]]|] eqn:E1; [by destruct (sh_lists w !! j)| |done].
    destruct (sh_lists w !! j) as [L|] eqn:E2; [|done]. destruct (Hfit c false L eq_refl eq_refl) as (f1 & f2 & f3 & f4 & f5 & f6).
    destruct (dg_exact c f1 f2 L f4 (or_introl f3)) as (R & HR & _). subst cond.
    rewrite (dg_both c f1 f2 L f4 (or_introl f3) ords Ho f5), HR. cbn [fst].
    set (w' := Share _ _ _).
    assert (∀ k b, sh_dbs w' !! k = Some b → sh_dbs w !! k = Some b ∨ b = SDB x j (λ _, true) R) as Hcase.
    { intros k b Hb. cbn in Hb. apply lookup_app_Some in Hb as [?|[_ Hb]]; [by left|]. apply list_lookup_singleton_Some in Hb as [_ <-]. by right. }
    assert (∀ k b d, sh_dbs w' !! k = Some b → sh_dbs w !! k = Some b → db_view w' k = Some d ↔ db_view w k = Some d) as Hview.
    { intros k b d H H'. unfold db_view. by rewrite H, H'. }
    assert (∀ k, sh_dbs w' !! k = Some (SDB x j (λ _, true) R) → db_view w' k = Some (EDB c L (λ _, true) R false)) as Hnew.
    { intros k Hk. apply db_view_Some. eexists _, _, _. split; [exact Hk|]. cbn. by rewrite E1, E2. }
    constructor.
    + intros k b Hb. destruct (Hcase k b Hb) as [Hb'| ->]; [|by eauto]. destruct (h1 k b Hb') as [d Hd]. exists d. by eapply Hview.
    + intros k d Hd. pose proof Hd as (b & _ & _ & Hb & _)%db_view_Some. destruct (Hcase k b Hb) as [Hb'| ->].
      * eapply h2. by eapply (Hview k b d).
      * rewrite (Hnew k Hb) in Hd. injection Hd as <-. split; [by constructor|done].
    + intros k k' b b' Hb Hb'. destruct (Hcase k b Hb) as [Hb1| ->], (Hcase k' b' Hb') as [Hb1'| ->]; cbn; [by eapply h3|by eapply Hpair| |done].
      specialize (Hpair k' b' Hb1'). clear -Hpair. split; intros E; symmetry; by apply Hpair.
  - destruct Hc as [Ho Hcall]. destruct (sh_dbs w !! k) as [b|] eqn:Eb; [|unfold s_call; by rewrite Eb].
    destruct (h1 k b Eb) as [d Hd]. destruct (h2 k d Hd) as [Hp Hv].
    destruct (step_pre ords o d Ho Hp (Hcall d Hd)) as [Hp' Hv']. specialize (Hv' Hv).
    set (r := dstep ords o d) in *.
    assert (s_call w k ords o = (Share (<[sd_cxt b := (dcxt r.1, djam r.1)]> (sh_cxts w)) (<[sd_imps b := dimps r.1]> (sh_lists w))
             (<[k := SDB (sd_cxt b) (sd_imps b) (sd_cond b) (dopen r.1)]> (sh_dbs w)), r.2)) as E. { unfold s_call. by rewrite Eb, Hd. }
    rewrite E. cbn [fst]. set (w' := Share _ _ _).
    assert (∀ k' b', sh_dbs w' !! k' = Some b' → ∃ b0, sh_dbs w !! k' = Some b0 ∧ sd_cxt b' = sd_cxt b0 ∧ sd_imps b' = sd_imps b0 ∧ sd_cond b' = sd_cond b0) as Hcase.
    { intros k' b' Hb'. cbn in Hb'. apply list_lookup_insert_Some in Hb' as [(-> & <- & _)|[_ ?]]; [by exists b|by exists b']. }
    pose proof Hd as (b0 & p & L & Hb0 & Hpp & HL & E0)%db_view_Some. rewrite Eb in Hb0. injection Hb0 as <-.
    assert (∀ k' b', sh_dbs w' !! k' = Some b' → ∃ d', db_view w' k' = Some d' ∧ dpre d' ∧ valid (abs (dcxt d')) (dimps d')) as Hall.
    { intros k' b' Hb'. destruct (Hcase k' b' Hb') as (b0 & Hb0 & e1 & e2 & e3).
      destruct (h1 k' b0 Hb0) as [d0 Hd0]. destruct (h2 k' d0 Hd0) as [Hp0 Hv0].
      pose proof Hd0 as (b1 & p1 & L1 & Hb1 & Hpp1 & HL1 & E1)%db_view_Some. rewrite Hb0 in Hb1. injection Hb1 as <-.
      destruct (decide (sd_cxt b = sd_cxt b0)) as [Hs|Hs].
      - assert (sd_imps b = sd_imps b0) as Hs' by by eapply h3. exists (EDB (dcxt r.1) (dimps r.1) (sd_cond b') (sd_open b') (djam r.1)).
        split; [|split; [|done]].
        + apply db_view_Some. eexists b', _, _. split; [done|]. cbn. rewrite e1, e2, <-Hs, <-Hs'.
          rewrite !list_lookup_insert by by eapply lookup_lt_Some. done.
        + destruct Hp', Hp0. constructor; cbn; try done. rewrite e3. by subst d0.
      - assert (sd_imps b ≠ sd_imps b0) as Hs'. { intros Hs'. apply Hs. by eapply h3. }
        exists (EDB (dcxt d0) (dimps d0) (dcond d0) (sd_open b') (djam d0)). split; [|split; [by apply dpre_open|done]].
        apply db_view_Some. exists b', p1, L1. split; [done|]. cbn. rewrite e1, e2, e3, !list_lookup_insert_ne by done. by subst d0. }
    constructor.
    + intros k' b' Hb'. destruct (Hall k' b' Hb') as (d' & ? & _). by exists d'.
    + intros k' d' Hd'. pose proof Hd' as (b' & _ & _ & Hb' & _)%db_view_Some. destruct (Hall k' b' Hb') as (d2 & Hd2 & ?).
      rewrite Hd' in Hd2. by injection Hd2 as <-.
    + intros k1 k2 b1 b2 Hb1 Hb2. destruct (Hcase k1 b1 Hb1) as (c1 & ? & -> & -> & _), (Hcase k2 b2 Hb2) as (c2 & ? & -> & -> & _). by eapply h3.
  - destruct (sh_cxts w !! x) as [[c [|]]|]; [done| |done]. cbn. eapply team_frame; [done|done| |]; cbn; [|by eauto].
    intros k b p Hb Hp. rewrite list_lookup_insert_ne; [done|]. intros ->. by apply (Hc k b).
  - destruct (sh_lists w !! j) as [L|]; [|done]. cbn. eapply team_frame; [done|done| |]; cbn; [by eauto|].
    intros k b L0 Hb HL0. exists L0. split; [|done]. rewrite list_lookup_insert_ne; [done|]. intros ->. by apply (Hc k b).
  - destruct (sh_lists w !! j) as [L|] eqn:EL; [|done]. destruct (remove_imp i L) as [L'|e] eqn:Er; [|done]. cbn.
    eapply team_frame; [done|done| |]; cbn; [by eauto|]. intros k b L0 Hb HL0. destruct (decide (sd_imps b = j)) as [Ej|Ej].
    + subst j. rewrite list_lookup_insert by by eapply lookup_lt_Some. rewrite EL in HL0. injection HL0 as <-. exists L'. split; [done|].
      by eapply remove_imp_sub.
    + exists L0. by rewrite list_lookup_insert_ne.
Qed.
Lemma team_start_inv : team_inv (Share [] [] []).
Proof. constructor; [done| |done]. intros k d (b & _ & _ & Hb & _)%db_view_Some. done. Qed.
Lemma team_all w : team w → team_inv w.
Proof. induction 1 as [|w c H IH Hc]; [apply team_start_inv|by apply team_run]. Qed.

Lemma team_touch w k ords d : team w → lists_sets ords → db_view w k = Some d →
  ∃ w' d', s_cmd w (SCall k ords DTouch) = (w', Ok tt) ∧ team w' ∧ db_view w' k = Some d' ∧ dcxt d' = dcxt d ∧ dimps d' = dimps d ∧
    (∀ i, i ∈ dopen d' → holds (abs (dcxt d')) i) ∧
    (∀ R1 i R2, dopen d' = R1 ++ i :: R2 → ¬ entails (R1 ++ R2 ++ dimps d') i) ∧
    ∀ i, i.1 ⊆ fM (abs (dcxt d')) → i.2 ⊆ fM (abs (dcxt d')) → holds (abs (dcxt d')) i → entails (dopen d' ++ dimps d') i.
Proof.
  intros Hw Ho Hd. destruct (t_pre w (team_all w Hw) k d Hd) as [Hp Hv].
  destruct (touch_ok w k ords d Ho Hd Hp) as (w' & d' & E & Hd' & Hi & E1 & E2). exists w', d'. split; [done|]. split.
  { replace w' with (s_cmd w (SCall k ords DTouch)).1 by by rewrite E. apply team_step; [done|]. split; [done|]. by intros. }
  split; [done|]. split; [done|]. split; [done|]. destruct (open_facts d' Hi) as (H1 & _ & H3 & H4). done.
Qed.
Lemma shared_call w k k' b b' ords o d : k' ≠ k → sh_dbs w !! k = Some b → sh_dbs w !! k' = Some b' → db_view w k = Some d →
  let w' := (s_cmd w (SCall k ords o)).1 in let d1 := (dstep ords o d).1 in
  sh_dbs w' !! k' = Some b' ∧
  sh_cxts w' = <[sd_cxt b := (dcxt d1, djam d1)]> (sh_cxts w) ∧ sh_lists w' = <[sd_imps b := dimps d1]> (sh_lists w) ∧
  (sd_cxt b' = sd_cxt b → sd_imps b' = sd_imps b →
     db_view w' k' = Some (EDB (dcxt d1) (dimps d1) (sd_cond b') (sd_open b') (djam d1))).
Proof.
  intros Hne Hb Hb' Hd w' d1. destruct (s_call_other w k ords o d k' b b' Hne Hd Hb Hb') as (H1 & H2 & H3).
  fold w' d1 in H1, H2, H3. split; [done|]. split; [done|]. split; [done|]. intros e1 e2.
  pose proof Hd as (b0 & p & L & Hb0 & Hp & HL & _)%db_view_Some. rewrite Hb in Hb0. injection Hb0 as <-.
  apply db_view_Some. eexists b', _, _. split; [done|]. rewrite H2, H3, e1, e2.
  rewrite !list_lookup_insert by by eapply lookup_lt_Some. done.
Qed.
Lemma client_seen w k b d : sh_dbs w !! k = Some b → db_view w k = Some d →
  (∀ o, djam d = false → db_view (s_cmd w (SMut (sd_cxt b) o)).1 k = Some (with_cxt d (step (dcxt d) o).1)) ∧
  (∀ i, db_view (s_cmd w (SAppend (sd_imps b) i)).1 k = Some (with_imps d (dimps d ++ [i]))).
Proof.
  intros Hb (b0 & [c jam] & L & Hb0 & Hp & HL & ->)%db_view_Some. rewrite Hb in Hb0. injection Hb0 as <-. split.
  - cbn. intros o ->. rewrite Hp. cbn. apply db_view_Some. eexists b, _, _. split; [done|]. cbn.
    rewrite list_lookup_insert by by eapply lookup_lt_Some. done.
  - intros i. cbn. rewrite HL. cbn. apply db_view_Some. eexists b, _, _. split; [done|]. cbn.
    rewrite list_lookup_insert by by eapply lookup_lt_Some. done.
Qed.
Lemma s_new_keeps w ords x j cond : map fst (sh_cxts (s_new w ords x j cond).1) = map fst (sh_cxts w) ∧
  sh_lists (s_new w ords x j cond).1 = sh_lists w.
Proof.
  unfold s_new. destruct (sh_cxts w !! x) as [[c [|]]|] eqn:E; [by destruct (sh_lists w !! j)| |done].
  destruct (sh_lists w !! j) as [L|]; [|done]. destruct (compute_dg_basis c ords (Some L) cond); [done|]. cbn. split; [|done].
  change (map ?f ?l) with (f <$> l). rewrite list_fmap_insert. apply list_insert_id. rewrite list_lookup_fmap, E. done.
Qed.
