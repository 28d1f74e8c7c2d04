(** * Facts about ExplorationDB, AttributeExploration and ExplorationSession *)
From Verif Require Import Py Spec PyFacts SpecFacts DgSpec ContextModel ContextSpec ContextOps ContextFacts ContextInit ContextMut ContextMisc ContextEffects
  ContextFinal ClosureModel ClosureFacts DgModel DgFacts DgMain DgCons DgCxt DgFinal AiModel AiFacts AiRound AiFinal ExplModel ExplSpec ExplFacts.

Record dinv (d : edb) : Prop := DInv {
  d_good : good (dcxt d);
  d_cmp : comparable (atts (dcxt d)) = true;
  d_objs : objs (dcxt d) ≠ [];
  d_jam : djam d = false;
  d_cond : dcond d = (λ _, true);
  d_within : within (abs (dcxt d)) (dimps d);
  d_distinct : no_repeats (dimps d);
  d_open : compute_dg_basis_simple (dcxt d) (Some (dimps d)) (λ _, true) = Ok (dopen d) }.

(** Everything but the open implications. *)
Record dpre (d : edb) : Prop := DPre {
  p_good : good (dcxt d);
  p_cmp : comparable (atts (dcxt d)) = true;
  p_objs : objs (dcxt d) ≠ [];
  p_jam : djam d = false;
  p_cond : dcond d = (λ _, true);
  p_within : within (abs (dcxt d)) (dimps d);
  p_distinct : no_repeats (dimps d) }.
Lemma dinv_dpre d : dinv d → dpre d.
Proof. by intros []. Qed.

Lemma refresh_inv ords d : lists_sets ords → dpre d →
  ∃ R, db_refresh ords d = (EDB (dcxt d) (dimps d) (dcond d) R (djam d), Ok tt) ∧ dinv (EDB (dcxt d) (dimps d) (dcond d) R (djam d)).
Proof.
  intros Ho [h1 h2 h3 h4 h5 h6 h7]. destruct (dg_exact (dcxt d) h1 h2 (dimps d) h6 (or_introl h3)) as (R & HR & _).
  exists R. unfold db_refresh. rewrite h5. rewrite (dg_both (dcxt d) h1 h2 (dimps d) h6 (or_introl h3) ords Ho h7), HR. split; [done|].
  by constructor.
Qed.
Lemma open_facts d : dinv d →
  valid (abs (dcxt d)) (dopen d) ∧ within (abs (dcxt d)) (dopen d) ∧ complete (abs (dcxt d)) (dopen d ++ dimps d) ∧
  (∀ R1 i R2, dopen d = R1 ++ i :: R2 → ¬ entails (R1 ++ R2 ++ dimps d) i).
Proof.
  intros [h1 h2 h3 h4 h5 h6 h7 h8]. destruct (dg_sound_complete (dcxt d) h1 h2 (dimps d) h6 (or_introl h3) _ h8) as (H1 & H2 & H3).
  split; [intros i Hi; by apply H1|]. split; [|done]. intros i Hi. by destruct (H1 i Hi) as (? & ? & _).
Qed.
Lemma open_new d i : dinv d → i ∈ dopen d → ¬ entails (dimps d) i.
Proof.
  intros Hd Hi He. destruct (open_facts d Hd) as (_ & _ & _ & H). apply elem_of_list_split in Hi as (R1 & R2 & E).
  apply (H R1 i R2 E). eapply entails_sub, He. intros j Hj. rewrite !elem_of_app. tauto.
Qed.
Lemma no_repeats_snoc L i : no_repeats L → (∀ j, j ∈ L → imp_eqb j i = false) → no_repeats (L ++ [i]).
Proof.
  intros HL Hi p q x y Hp Hq Hpq.
  assert (∀ z, imp_eqb i z = imp_eqb z i) as Hsym.
  { intros z. apply eq_true_iff_eq. rewrite !imp_eqb_spec. intuition congruence. }
  apply lookup_app_Some in Hp as [Hp|[Hp1 Hp2]], Hq as [Hq|[Hq1 Hq2]].
  - by apply (HL p q).
  - apply list_lookup_singleton_Some in Hq2 as [_ <-]. apply Hi. by eapply elem_of_list_lookup_2.
  - apply list_lookup_singleton_Some in Hp2 as [_ <-]. rewrite Hsym. apply Hi. by eapply elem_of_list_lookup_2.
  - apply list_lookup_singleton_Some in Hp2 as [? _], Hq2 as [? _]. lia.
Qed.
Lemma no_repeats_cons i L : no_repeats (i :: L) ↔ (∀ j, j ∈ L → imp_eqb i j = false) ∧ no_repeats L.
Proof.
  split.
  - intros H. split.
    + intros j [q Hq]%elem_of_list_lookup. by apply (H 0 (S q)).
    + intros p q x y Hp Hq Hpq. apply (H (S p) (S q)); [done|done|lia].
  - intros [H1 H2] p q x y Hp Hq Hpq.
    assert (∀ z, imp_eqb i z = imp_eqb z i) as Hsym.
    { intros z. apply eq_true_iff_eq. rewrite !imp_eqb_spec. intuition congruence. }
    destruct p as [|p], q as [|q]; cbn in Hp, Hq; [lia| | |].
    + injection Hp as <-. apply H1. by eapply elem_of_list_lookup_2.
    + injection Hq as <-. rewrite <-Hsym. apply H1. by eapply elem_of_list_lookup_2.
    + apply (H2 p q); [done|done|lia].
Qed.
Lemma remove_imp_sub i L L' : remove_imp i L = Ok L' → (∀ j, j ∈ L' → j ∈ L) ∧ (no_repeats L → no_repeats L').
Proof.
  revert L'. induction L as [|k L IH]; intros L'; cbn; [done|]. destruct (imp_eqb k i).
  - intros H. apply Ok_eq in H as <-. rewrite no_repeats_cons. split; [|tauto]. intros j Hj. by right.
  - destruct (remove_imp i L) as [L''|e]; cbn [mbind res_bind]; [|done]. intros H. apply Ok_eq in H as <-.
    destruct (IH L'' eq_refl) as [H1 H2]. split.
    + intros j Hj. apply elem_of_cons in Hj as [->|Hj]; [by left|right; by apply H1].
    + rewrite !no_repeats_cons. intros [H3 H4]. split; [|by apply H2]. intros j Hj. apply H3. by apply H1.
Qed.
Lemma rename_object_imps c c' old o : old ∈ objs c → objs c' = map (λ x, if decide (x = old) then o else x) (objs c) →
  (∀ g m, incident c' g m ↔ (g = o ∧ incident c old m) ∨ (g ≠ o ∧ g ≠ old ∧ incident c g m)) →
  ∀ i, holds (abs c) i → holds (abs c') i.
Proof.
  intros Hold Ho HI i Hh g Hg Hp m Hm. apply in_objs in Hg. rewrite Ho in Hg. apply elem_of_list_fmap in Hg as (x & -> & Hx).
  destruct (decide (x = old)) as [->|Hne].
  - apply elem_of_fI, HI. left. split; [done|]. apply elem_of_fI. apply (Hh old); [by apply in_objs| |done].
    intros m' Hm'. apply Hp in Hm'. rewrite elem_of_fI, HI in Hm'. apply elem_of_fI. tauto.
  - apply elem_of_fI. destruct (decide (x = o)) as [->|Hne2].
    + apply HI. left. split; [done|]. apply elem_of_fI. apply (Hh old); [by apply in_objs| |done].
      intros m' Hm'. apply Hp in Hm'. rewrite elem_of_fI, HI in Hm'. apply elem_of_fI. tauto.
    + apply HI. right. split; [done|]. split; [done|]. apply elem_of_fI. apply (Hh x); [by apply in_objs| |done].
      intros m' Hm'. apply Hp in Hm'. rewrite elem_of_fI, HI in Hm'. apply elem_of_fI. tauto.
Qed.
Lemma check_intent_ok L X : check_intent L X = Ok tt ↔ ∀ j, j ∈ L → respects X j.
Proof.
  unfold check_intent. destruct (forallb (λ i, is_respected i X) L) eqn:E.
  - split; [|done]. intros _ j Hj. apply is_respected_spec. rewrite forallb_forall in E. apply E. by apply elem_of_list_In.
  - split; [done|]. intros H. apply not_true_iff_false in E. exfalso. apply E. apply forallb_forall. intros j Hj%elem_of_list_In.
    apply is_respected_spec. by apply H.
Qed.

(** A call that leaves the database alone and raises, or gives a state to be refreshed. *)
Definition outcome (d : edb) (r : upd edb ()) : Prop :=
  (∃ e, r = (d, Err e)) ∨
  (∃ d', r = (d', Ok tt) ∧ dpre d' ∧ (valid (abs (dcxt d)) (dimps d) → valid (abs (dcxt d')) (dimps d'))).
Lemma decorated_inv ords d r : lists_sets ords → dinv d → outcome d r →
  dinv (decorated ords r).1 ∧ (valid (abs (dcxt d)) (dimps d) → valid (abs (dcxt (decorated ords r).1)) (dimps (decorated ords r).1)).
Proof.
  intros Ho Hd [[e ->]|(d' & -> & Hp & Hv)]; [done|]. cbn. destruct (refresh_inv ords d' Ho Hp) as (R & -> & H). cbn. done.
Qed.
Lemma dpre_cxt d c : dpre d → good c → comparable (atts c) = true → objs c ≠ [] → within (abs c) (dimps d) → dpre (with_cxt d c).
Proof. intros [] ????. by constructor. Qed.
Lemma within_sub K K' L : fM K ⊆ fM K' → within K L → within K' L.
Proof. intros H HL i Hi. destruct (HL i Hi) as [e1 e2]. split; [by rewrite e1|by rewrite e2]. Qed.

Lemma confirm_outcome d i : dinv d → i ∈ dopen d → outcome d (with_imps d (dimps d ++ [i]), Ok tt).
Proof.
  intros Hd Hi. destruct (open_facts d Hd) as (H1 & H2 & _). right. eexists. split; [done|]. split.
  - pose proof (open_new d i Hd Hi) as Hn. destruct Hd as [h1 h2 h3 h4 h5 h6 h7 h8]. constructor; cbn; try done.
    + intros j Hj. apply elem_of_app in Hj as [Hj|Hj]; [by apply h6|]. apply elem_of_list_singleton in Hj as ->. by apply H2.
    + apply no_repeats_snoc; [done|]. intros j Hj. apply not_true_iff_false. intros E. apply Hn.
      intros X HX. apply (imp_eqb_respects _ _ X E). by apply HX.
  - cbn. intros Hv j Hj. apply elem_of_app in Hj as [Hj|Hj]; [by apply Hv|]. apply elem_of_list_singleton in Hj as ->. by apply H1.
Qed.
Lemma unconfirm_outcome d i : dpre d →
  outcome d (match remove_imp i (dimps d) with Err e => (d, Err e) | Ok L => (with_imps d L, Ok tt) end).
Proof.
  intros [h1 h2 h3 h4 h5 h6 h7]. destruct (remove_imp i (dimps d)) as [L|e] eqn:E; [|left; by exists e]. right. eexists. split; [done|].
  destruct (remove_imp_sub _ _ _ E) as [H1 H2]. split.
  - constructor; cbn; try done; [|by apply H2]. intros j Hj. by apply h6, H1.
  - cbn. intros Hv j Hj. by apply Hv, H1.
Qed.
Lemma add_example_outcome d o X : dpre d → outcome d (db_add_example o X d).
Proof.
  intros Hd. unfold db_add_example.
  destruct (guarded_cases (check_intent (dimps d) X) d (λ d, if bool_decide (o ∈ objs (dcxt d)) then (d, Err NotUniqueObjectName)
    else on_cxt d (add_object_with_intent (dcxt d) X o))) as [[Hc ->]|(e & _ & ->)]; [|left; by exists e].
  case_bool_decide as Hn; [left; by eexists|]. rewrite check_intent_ok in Hc.
  destruct (add_object_imps (dcxt d) X o) as (c' & E & Hg & Ho & Ha & H1 & _ & _); [apply Hd|apply Hd|done|].
  right. unfold on_cxt. rewrite E. cbn. eexists. split; [done|]. split.
  - apply dpre_cxt; [done|done|rewrite Ha; apply Hd|rewrite Ho; by destruct (objs (dcxt d))|].
    apply (within_sub (abs (dcxt d))); [cbn; by rewrite Ha|apply Hd].
  - cbn. intros Hv j Hj. apply H1; [by apply (p_within d Hd)|by apply Hc|by apply Hv].
Qed.
Lemma set_intent_outcome d old X : dpre d → (∀ j, j ∈ dimps d → respects X j) →
  (∃ e, on_cxt d (set_object_intent (dcxt d) (elements X) old) = (d, Err e)) ∨
  (∃ c', set_object_intent (dcxt d) (elements X) old = (c', Ok tt) ∧ objs c' = objs (dcxt d) ∧ dpre (with_cxt d c') ∧
     (valid (abs (dcxt d)) (dimps d) → valid (abs c') (dimps d))).
Proof.
  intros Hd HX. destruct (set_object_intent_cases (dcxt d) X old) as [[e E]|(_ & _ & c' & E & Hg & Ho & Ha & HI)]; [apply Hd|apply Hd| |].
  - left. exists e. unfold on_cxt. rewrite E. cbn. by destruct d.
  - right. exists c'. split; [done|]. split; [done|]. split.
    + apply dpre_cxt; [done|done|rewrite Ha; apply Hd|rewrite Ho; apply Hd|].
      apply (within_sub (abs (dcxt d))); [cbn; by rewrite Ha|apply Hd].
    + intros Hv j Hj. apply (edit_object_imps (dcxt d) c' X old Ho HI); [by apply HX|by apply Hv].
Qed.
Lemma rename_outcome d old o : dpre d → old ∈ objs (dcxt d) → o ∉ objs (dcxt d) →
  ∃ d', on_cxt d (rename_object (dcxt d) old o) = (d', Ok tt) ∧ dpre d' ∧
    (valid (abs (dcxt d)) (dimps d) → valid (abs (dcxt d')) (dimps d')).
Proof.
  intros Hd Hold Hn. destruct (rename_object_effect (dcxt d) old o) as (c' & E & Hg & Ho & Ha & HI);
    [apply Hd|apply Hd|apply Hd|done|by left|].
  unfold on_cxt. rewrite E. cbn. eexists. split; [done|]. split.
  - apply dpre_cxt; [done|done|rewrite Ha; apply Hd|rewrite Ho; intros Hnil%map_eq_nil; by apply (p_objs d Hd)|].
    apply (within_sub (abs (dcxt d))); [cbn; by rewrite Ha|apply Hd].
  - cbn. intros Hv j Hj. apply (rename_object_imps (dcxt d) c' old o Hold Ho HI). by apply Hv.
Qed.
Lemma edit_example_outcome d o old X : dpre d → o = old ∨ o ∉ objs (dcxt d) → outcome d (db_edit_example o old X d).
Proof.
  intros Hd Hn. unfold db_edit_example.
  destruct (decide (old ∈ objs (dcxt d))) as [Hold|Hold]; cycle 1.
  { left. exists KeyError. unfold get_object_intent. assert (oind (dcxt d) old = Err KeyError) as -> by (by apply oind_Err; [apply Hd|]). done. }
  rewrite (get_object_intent_spec (dcxt d)) by (done || apply Hd).
  assert (∀ d1, dpre d1 → objs (dcxt d1) = objs (dcxt d) → dimps d1 = dimps d →
    (valid (abs (dcxt d)) (dimps d) → valid (abs (dcxt d1)) (dimps d1)) →
    outcome d (if bool_decide (old ≠ o) then if bool_decide (o ∈ objs (dcxt d1)) then (d1, Err NotUniqueObjectName)
               else on_cxt d1 (rename_object (dcxt d1) old o) else (d1, Ok tt))) as Hren.
  { intros d1 Hd1 Eo Ei Hv. case_bool_decide as Hne; [|right; exists d1; done].
    destruct Hn as [->|Hn]; [done|]. rewrite bool_decide_false by by rewrite Eo.
    destruct (rename_outcome d1 old o) as (d' & -> & H1 & H2); [done|by rewrite Eo|by rewrite Eo|]. right. exists d'. split; [done|]. split; [done|]. auto. }
  destruct (bool_decide (X ≠ up (abs (dcxt d)) {[old]})); [|by apply Hren].
  destruct (guarded_cases (check_intent (dimps d) X) d (λ d, on_cxt d (set_object_intent (dcxt d) (elements X) old)))
    as [[Hc ->]|(e & _ & ->)]; [|left; by exists e].
  rewrite check_intent_ok in Hc. destruct (set_intent_outcome d old X Hd Hc) as [[e ->]|(c' & E & Ho & H1 & H2)]; [left; by exists e|].
  unfold on_cxt at 1. rewrite E. cbn [fst snd]. by apply Hren.
Qed.
Lemma db_add_attribute_outcome d a X : dpre d → comparable (a :: atts (dcxt d)) = true → outcome d (db_add_attribute a X d).
Proof.
  intros Hd Hc. unfold db_add_attribute. case_bool_decide as Hn; [left; by eexists|].
  destruct (add_attribute_imps (dcxt d) X a) as (c' & E & Hg & Ho & Ha & _ & _ & H1); [apply Hd|apply Hd|apply Hd|done|].
  right. unfold on_cxt. rewrite E. cbn. eexists. split; [done|]. split.
  - apply dpre_cxt; [done|done|rewrite Ha; by apply comparable_snoc|rewrite Ho; apply Hd|].
    apply (within_sub (abs (dcxt d))); [|apply Hd]. intros m. rewrite !in_atts, Ha, elem_of_app. tauto.
  - cbn. intros Hv j Hj. apply H1; [by apply (p_within d Hd)|by apply Hv].
Qed.
Lemma edit_attribute_type_error d a old X : good (dcxt d) → objs (dcxt d) ≠ [] → dimps d ≠ [] →
  db_edit_attribute a old X d = (d, Err TypeError).
Proof.
  intros Hg Ho Hi. unfold db_edit_attribute.
  destruct (mapM_is_ok (get_object_intent (dcxt d)) (objs (dcxt d))) as [l ->].
  { intros g Hg'. rewrite (get_object_intent_spec (dcxt d)) by (done || apply Hg). by eexists. }
  by rewrite !bool_decide_false.
Qed.
Lemma py_count_nodup (a : name) l : NoDup l → py_count a l ≤ 1.
Proof.
  intros H. unfold py_count. destruct (filter (λ y, y = a) l) as [|x [|y k]] eqn:E; cbn; [lia|lia|].
  assert (NoDup (filter (λ y, y = a) l)) as Hnd by by apply NoDup_filter.
  assert (x = a ∧ y = a) as [-> ->].
  { split; [assert (x ∈ filter (λ y, y = a) l) as [? _]%elem_of_list_filter by (rewrite E; left); done|].
    assert (y ∈ filter (λ y, y = a) l) as [? _]%elem_of_list_filter by (rewrite E; right; left); done. }
  rewrite E in Hnd. apply NoDup_cons in Hnd as [Hn _]. exfalso. apply Hn. left.
Qed.
Lemma edit_attribute_outcome d a old X : dpre d → a = old ∨ (a ∉ atts (dcxt d) ∧ comparable (a :: atts (dcxt d)) = true) →
  outcome d (db_edit_attribute a old X d).
Proof.
  intros Hd Hn. destruct (decide (dimps d = [])) as [Hi|Hi]; cycle 1.
  { left. exists TypeError. apply edit_attribute_type_error; [apply Hd..|done]. }
  unfold db_edit_attribute. destruct (mapM_is_ok (get_object_intent (dcxt d)) (objs (dcxt d))) as [l ->].
  { intros g Hg. rewrite (get_object_intent_spec (dcxt d)) by (done || apply Hd). by eexists. }
  rewrite (bool_decide_true (dimps d = [])) by done. cbn [negb]. rewrite andb_false_r.
  rewrite (proj2 (Nat.ltb_ge 1 (py_count a (atts (dcxt d))))) by (apply py_count_nodup, Hd).
  destruct (set_attribute_extent_cases (dcxt d) X old) as [[e E]|(Hold & _ & c' & E & Hg & Ho & Ha & HI)]; [apply Hd|apply Hd|apply Hd| |]; rewrite E.
  { left. exists e. by destruct d. }
  destruct (rename_attribute_effect c' old a) as (c2 & E2 & Hg2 & Ho2 & Ha2 & _); [apply Hg|apply Hg|apply Hg|by rewrite Ha| |].
  { rewrite Ha. destruct Hn as [->|[? _]]; [by right|by left]. }
  unfold on_cxt. rewrite E2. cbn. right. eexists. split; [done|]. split.
  - destruct Hd as [h1 h2 h3 h4 h5 h6 h7]. constructor; cbn; try done.
    + eapply (comparable_sub (a :: atts (dcxt d))).
      * intros x. rewrite Ha2, Ha. intros (y & -> & Hy)%elem_of_list_fmap. case_decide; [left|by right].
      * destruct Hn as [->|[_ ?]]; [|done]. eapply comparable_sub, h2. intros y Hy. apply elem_of_cons in Hy as [->|]; done.
    + by rewrite Ho2, Ho.
    + rewrite Hi. by intros ? ?%elem_of_nil.
  - cbn. rewrite Hi. intros _ ? ?%elem_of_nil. done.
Qed.

Lemma step_db ords o d : lists_sets ords → dinv d → db_call d o →
  dinv (dstep ords o d).1 ∧ (valid (abs (dcxt d)) (dimps d) → valid (abs (dcxt (dstep ords o d).1)) (dimps (dstep ords o d).1)).
Proof.
  intros Ho Hd Hc. unfold dstep. rewrite (d_jam d Hd). apply decorated_inv; [done|done|]. pose proof (dinv_dpre d Hd) as Hp.
  destruct o as [i|i|o X|o|o old X|a X|a| |a old X]; cbn in Hc.
  - by apply confirm_outcome.
  - by apply unconfirm_outcome.
  - by apply add_example_outcome.
  - left. by eexists.
  - by apply edit_example_outcome.
  - by apply db_add_attribute_outcome.
  - left. by eexists.
  - right. by exists d.
  - by apply edit_attribute_outcome.
Qed.
Lemma new_db_inv ords c L d : lists_sets ords → good c → comparable (atts c) = true → objs c ≠ [] → within (abs c) L → no_repeats L →
  new_db ords c L (λ _, true) = Ok d → dinv d ∧ dcxt d = c ∧ dimps d = L.
Proof.
  intros Ho Hg Hc Hob Hw Hd H. destruct (dg_exact c Hg Hc L Hw (or_introl Hob)) as (R & HR & _). unfold new_db in H.
  rewrite (dg_both c Hg Hc L Hw (or_introl Hob) ords Ho Hd), HR in H. cbn [mbind res_bind] in H. apply Ok_eq in H as <-.
  split; [by constructor|done].
Qed.
Lemma dreach_inv c0 L0 d : good c0 → comparable (atts c0) = true → objs c0 ≠ [] → within (abs c0) L0 → no_repeats L0 →
  dreach c0 L0 d → dinv d ∧ (valid (abs c0) L0 → valid (abs (dcxt d)) (dimps d)).
Proof.
  intros Hg Hc Ho Hw Hd. induction 1 as [ords d Hl H|ords d o Hl Hr [IH1 IH2] Hal].
  - destruct (new_db_inv ords c0 L0 d Hl Hg Hc Ho Hw Hd H) as (? & -> & ->). done.
  - destruct (step_db ords o d Hl IH1 Hal) as [H1 H2]. split; [done|]. auto.
Qed.

(** ** AttributeExploration *)
Lemma add_object_back c c' (X : gset name) o i : wf c → distinct c → o ∉ objs c → add_object_with_intent c X o = (c', Ok tt) →
  holds (abs c') i → holds (abs c) i.
Proof.
  intros Hw Hd Hn E Hh. destruct (add_object_with_intent_effect c X o Hw Hd Hn) as (c2 & E2 & _ & Ho & _ & HI).
  rewrite E in E2. injection E2 as <-. apply (holds_keep (abs c')); [done|]. intros g Hg. left. apply in_objs in Hg. split.
  - apply in_objs. rewrite Ho. apply elem_of_app. by left.
  - intros m _. rewrite !elem_of_fI, HI. split; [tauto|]. intros [?|(-> & _)]; done.
Qed.
Lemma add_example_ok ords o X d d' : lists_sets ords → dinv d → dstep ords (DAddExample o X) d = (d', Ok tt) →
  o ∉ objs (dcxt d) ∧ (∀ j, j ∈ dimps d → respects X j) ∧ add_object_with_intent (dcxt d) X o = (dcxt d', Ok tt) ∧
  dimps d' = dimps d ∧ dinv d'.
Proof.
  intros Ho Hd E. destruct (step_db ords (DAddExample o X) d Ho Hd I) as [Hd' _]. rewrite E in Hd'. revert E.
  unfold dstep. rewrite (d_jam d Hd). unfold db_add_example.
  destruct (guarded_cases (check_intent (dimps d) X) d (λ d, if bool_decide (o ∈ objs (dcxt d)) then (d, Err NotUniqueObjectName)
    else on_cxt d (add_object_with_intent (dcxt d) X o))) as [[Hc ->]|(e & _ & ->)]; [|done].
  case_bool_decide as Hn; [done|]. rewrite check_intent_ok in Hc.
  destruct (add_object_imps (dcxt d) X o) as (c' & E & _); [apply Hd|apply Hd|done|].
  unfold on_cxt. rewrite E. cbn. unfold db_refresh. destruct (compute_dg_basis _ _ _ _) as [R|e]; [|done].
  intros [= <-]. done.
Qed.
Lemma ae_add_keeps ords es Xs d d' i : (∀ n, lists_sets (ords n)) → dinv d → ae_add ords es Xs d = (d', Ok tt) →
  dinv d' ∧ (¬ holds (abs (dcxt d)) i → ¬ holds (abs (dcxt d')) i).
Proof.
  revert ords Xs d. induction es as [|o es IH]; intros ords Xs d Ho Hd; cbn.
  { intros [= <-]. done. }
  destruct Xs as [|X Xs]; [done|]. destruct (dstep (ords 0) (DAddExample o X) d) as [d1 [[]|e]] eqn:E; [|done].
  destruct (add_example_ok _ _ _ _ _ (Ho 0) Hd E) as (Hn & _ & E1 & _ & Hd1). intros H.
  destruct (IH _ _ _ (λ n, Ho (S n)) Hd1 H) as [H1 H2]. split; [done|]. intros Hh. apply H2. intros Hh'. apply Hh.
  by eapply add_object_back; [apply Hd|apply Hd|exact Hn|exact E1|].
Qed.
Lemma ae_reject_refutes ords i o es Xs d d' : (∀ n, lists_sets (ords n)) → dinv d → over (fM (abs (dcxt d))) i →
  ae_reject ords i (o :: es) Xs d = (d', Ok tt) → ¬ holds (abs (dcxt d')) i ∧ dinv d'.
Proof.
  intros Ho Hd Hi. unfold ae_reject. destruct Xs as [|X Xs]; [done|]. destruct (is_respected i X) eqn:Er; [done|]. cbn.
  destruct (dstep (ords 0) (DAddExample o X) d) as [d1 [[]|e]] eqn:E; [|done].
  destruct (add_example_ok _ _ _ _ _ (Ho 0) Hd E) as (Hn & _ & E1 & _ & Hd1). intros H.
  destruct (ae_add_keeps _ _ _ _ _ i (λ n, Ho (S n)) Hd1 H) as [H1 H2]. split; [|done]. apply H2.
  destruct (add_object_imps (dcxt d) X o) as (c' & E' & _ & _ & _ & _ & Hb & _); [apply Hd|apply Hd|done|].
  rewrite E1 in E'. injection E' as <-. apply Hb; [done|]. rewrite <-is_respected_spec. by rewrite Er.
Qed.
(** ** edit_example with a name in use *)
Lemma edit_example_used ords o old X d : dinv d → old ∈ objs (dcxt d) → o ∈ objs (dcxt d) → o ≠ old →
  (∀ a, a ∈ X → a ∈ atts (dcxt d)) → (∀ j, j ∈ dimps d → respects X j) → X ≠ up (abs (dcxt d)) {[old]} →
  ∃ d', dstep ords (DEditExample o old X) d = (d', Err NotUniqueObjectName) ∧ dopen d' = dopen d ∧
    up (abs (dcxt d')) {[old]} = X ∧ objs (dcxt d') = objs (dcxt d).
Proof.
  intros Hd Hold Ho Hne HX HB HXY. unfold dstep. rewrite (d_jam d Hd). unfold db_edit_example.
  rewrite (get_object_intent_spec (dcxt d)) by (done || apply Hd). rewrite bool_decide_true by done.
  apply check_intent_ok in HB. unfold guarded. rewrite HB.
  destruct (set_object_intent_effect (dcxt d) (elements X) old) as (c' & E & Hg & Eo & Ea & HI); [apply Hd|apply Hd|done|by setoid_rewrite elem_of_elements|].
  unfold on_cxt. rewrite E. cbn [fst snd with_cxt dcxt]. rewrite bool_decide_true by done. rewrite bool_decide_true by by rewrite Eo.
  cbn. eexists. split; [done|]. split; [done|]. cbn. split; [|done]. apply set_eq. intros m. rewrite elem_of_up, in_atts, Ea.
  setoid_rewrite elem_of_singleton. setoid_rewrite elem_of_fI. setoid_rewrite HI. setoid_rewrite elem_of_elements. split.
  - intros [_ H]. destruct (H old eq_refl) as [[? _]|[_ ?]]; done.
  - intros Hm. split; [by apply HX|]. intros g ->. by right.
Qed.

(** ** Sessions *)
Lemma add_object_rows c (X : gset name) o : wf c → NoDup (atts c) →
  ∃ c', add_object_with_intent c X o = (c', Ok tt) ∧ wf c' ∧ atts c' = atts c ∧
    np c' = np c ++ [map (λ a, bool_decide (a ∈ X)) (atts c)].
Proof.
  intros Hw Hd. unfold add_object_with_intent, add_object.
  assert (∀ t z, length t = S (length (objs c)) → (∀ r, r ∈ t → length r = length (atts c)) →
    ∃ c', reinit c t z (objs c ++ [o]) (atts c) = (c', Ok tt) ∧ wf c' ∧ atts c' = atts c ∧ np c' = t) as Hr.
  { intros t z Hl Hr. destruct (mk_context_ok t z (objs c ++ [o]) (atts c)) as [c' Hc']; [rewrite app_length; cbn; lia|done|].
    exists c'. unfold reinit. rewrite Hc'. split; [done|]. split; [by eapply mk_context_wf|].
    apply mk_context_Ok in Hc' as (_ & _ & _ & Ha & Hn & _). split; [|done]. rewrite Ha. by apply uniquify_NoDup. }
  assert (∀ r, r ∈ np c → length r = length (atts c)) as Hlen.
  { intros r [i Hi]%elem_of_list_lookup. by eapply wf_cols. }
  pose proof (wf_rows c Hw) as Hrows.
  destruct (np c) as [|r0 t] eqn:E.
  - apply Hr; [cbn in *; lia|]. intros r Hr'. apply elem_of_list_singleton in Hr' as ->. by rewrite map_length.
  - rewrite map_length, (Hlen r0) by left. rewrite Nat.eqb_refl. cbn [negb]. apply Hr.
    + rewrite app_length. cbn in *. lia.
    + intros r Hr'. apply elem_of_app in Hr' as [Hr'|Hr']; [by apply Hlen|]. apply elem_of_list_singleton in Hr' as ->. by rewrite map_length.
Qed.
Lemma row_set_intent ats (X : gset name) : row_set ats (map (λ a, bool_decide (a ∈ X)) ats) = X ∩ list_to_set ats.
Proof.
  unfold row_set. apply set_eq. intros m. rewrite elem_of_list_to_set, elem_of_intersection, elem_of_list_to_set, elem_of_list_fmap.
  setoid_rewrite elem_of_list_filter. split.
  - intros ([a b] & -> & Hb & Hz). cbn in *. subst b. rewrite <-(map_id ats) in Hz at 1.
    rewrite zip_with_fmap_l, zip_with_fmap_r in Hz. apply elem_of_lookup_zip_with in Hz as (k & x & y & [= -> Hy] & Hx & Hy').
    rewrite Hx in Hy'. injection Hy' as ->. symmetry in Hy. apply bool_decide_eq_true in Hy. split; [done|]. by eapply elem_of_list_lookup_2.
  - intros [HX Hm]. exists (m, true). split; [done|]. split; [done|]. apply elem_of_list_lookup in Hm as [k Hk].
    apply elem_of_lookup_zip_with. exists k, m, true. split; [done|]. split; [done|]. rewrite list_lookup_fmap, Hk. cbn. by rewrite bool_decide_true.
Qed.
Lemma respects_inter X U i : over U i → respects (X ∩ U) i ↔ respects X i.
Proof. intros [H1 H2]. unfold respects. set_solver. Qed.

Lemma forallb_false {A} (f : A → bool) l : forallb f l = false → ∃ x, x ∈ l ∧ f x = false.
Proof.
  induction l as [|x l IH]; cbn; [done|]. destruct (f x) eqn:E; cbn.
  - intros (y & Hy & Hf)%IH. exists y. split; [by right|done].
  - intros _. exists x. split; [by left|done].
Qed.
Definition xinv (x : xpl) : Prop := wf (xcxt x) ∧ NoDup (atts (xcxt x)).
Lemma x_add_object_cases o X x : xinv x → 
  (∃ L, (p ← xcur x; xbases x !! p) = Some L ∧ (∀ i, i ∈ L → respects X i) ∧
     ∃ c', x_add_object o X x = (Xpl c' (xbases x) (xcur x), Ok tt) ∧ wf c' ∧ atts c' = atts (xcxt x) ∧
       add_object_with_intent (xcxt x) X o = (c', Ok tt) ∧
       np c' = np (xcxt x) ++ [map (λ a, bool_decide (a ∈ X)) (atts (xcxt x))]) ∨
  (∃ L i, (p ← xcur x; xbases x !! p) = Some L ∧ i ∈ L ∧ ¬ respects X i ∧ x_add_object o X x = (x, Err IllegalContextModification)) ∨
  ((p ← xcur x; xbases x !! p) = None ∧ x_add_object o X x = (x, Err AttributeError)).
Proof.
  intros [Hw Hd]. unfold x_add_object. destruct (p ← xcur x; xbases x !! p) as [L|]; [|by right; right].
  destruct (forallb _ L) eqn:Ef.
  - left. exists L. split; [done|]. split.
    { intros i Hi. apply is_respected_spec. rewrite forallb_forall in Ef. by apply Ef, elem_of_list_In. }
    destruct (add_object_rows (xcxt x) X o Hw Hd) as (c' & E & H1 & H2 & H3). exists c'. rewrite E. done.
  - right. left. apply forallb_false in Ef as (i & Hi & Hr). exists L, i. split; [done|]. split; [done|]. split; [|done].
    intros H%is_respected_spec. by rewrite H in Hr.
Qed.
Lemma xstep_single o x s L : xinv x → xcur x = Some s → xbases x !! s = Some L → no_create o →
  let x' := (xstep o x).1 in
  xinv x' ∧ xcur x' = Some s ∧ atts (xcxt x') = atts (xcxt x) ∧ (∃ L', xbases x' !! s = Some (L ++ L')) ∧
  ∃ rows, np (xcxt x') = np (xcxt x) ++ rows ∧
    ∀ i r, i ∈ L → over (list_to_set (atts (xcxt x))) i → r ∈ rows → respects (row_set (atts (xcxt x)) r) i.
Proof.
  intros Hx Hc HL Ho.
  assert (∀ o X, let x' := (x_add_object o X x).1 in
  xinv x' ∧ xcur x' = Some s ∧ atts (xcxt x') = atts (xcxt x) ∧ (∃ L', xbases x' !! s = Some (L ++ L')) ∧
  ∃ rows, np (xcxt x') = np (xcxt x) ++ rows ∧
    ∀ i r, i ∈ L → over (list_to_set (atts (xcxt x))) i → r ∈ rows → respects (row_set (atts (xcxt x)) r) i) as Hadd.
  { intros g X. destruct (x_add_object_cases g X x Hx) as [(L2 & HL2 & HR & c' & -> & Hw' & Ha' & _ & Hn')|[(L2 & i & _ & _ & _ & ->)|[_ ->]]]; cbn.
    - rewrite Hc in HL2. cbn in HL2. rewrite HL in HL2. injection HL2 as <-. destruct Hx as [Hw Hd].
      split; [by split; cbn; rewrite ?Ha'|]. split; [done|]. split; [done|]. split; [exists []; by rewrite app_nil_r|].
      eexists. split; [exact Hn'|]. intros i r Hi Hov Hr. apply elem_of_list_singleton in Hr as ->.
      rewrite row_set_intent. rewrite respects_inter by done. by apply HR.
    - split; [done|]. split; [done|]. split; [done|]. split; [exists []; by rewrite app_nil_r|]. exists []. rewrite app_nil_r. split; [done|].
      intros ? ? _ _ H. by apply not_elem_of_nil in H.
    - split; [done|]. split; [done|]. split; [done|]. split; [exists []; by rewrite app_nil_r|]. exists []. rewrite app_nil_r. split; [done|].
      intros ? ? _ _ H. by apply not_elem_of_nil in H. }
  assert (xinv x ∧ xcur x = Some s ∧ atts (xcxt x) = atts (xcxt x) ∧ (∃ L', xbases x !! s = Some (L ++ L')) ∧
  ∃ rows, np (xcxt x) = np (xcxt x) ++ rows ∧
    ∀ i r, i ∈ L → over (list_to_set (atts (xcxt x))) i → r ∈ rows → respects (row_set (atts (xcxt x)) r) i) as Hsame.
  { split; [done|]. split; [done|]. split; [done|]. split; [exists []; by rewrite app_nil_r|]. exists []. rewrite app_nil_r. split; [done|].
      intros ? ? _ _ H. by apply not_elem_of_nil in H. }
  destruct o as [|t i|t i g X|g X]; [done| | |apply Hadd].
  - cbn. destruct (xbases x !! t) as [Lt|] eqn:Et; [|done]. cbn. destruct Hsame as (H1 & H2 & H3 & _ & H5).
    split; [done|]. split; [done|]. split; [done|]. split; [|done]. destruct (decide (s = t)) as [<-|Hn].
    + exists [i]. rewrite HL in Et. injection Et as <-. rewrite list_lookup_insert; [done|]. by eapply lookup_lt_Some.
    + exists []. rewrite list_lookup_insert_ne by done. by rewrite app_nil_r.
  - cbn. destruct (xbases x !! t) as [Lt|] eqn:Et; [|done]. destruct (is_respected i X); [done|]. apply Hadd.
Qed.
Lemma xrun_single l x s L : xinv x → xcur x = Some s → xbases x !! s = Some L → Forall no_create l →
  let x' := xrun l x in
  xinv x' ∧ xcur x' = Some s ∧ atts (xcxt x') = atts (xcxt x) ∧ (∃ L', xbases x' !! s = Some (L ++ L')) ∧
  ∃ rows, np (xcxt x') = np (xcxt x) ++ rows ∧
    ∀ i r, i ∈ L → over (list_to_set (atts (xcxt x))) i → r ∈ rows → respects (row_set (atts (xcxt x)) r) i.
Proof.
  intros Hx Hc HL Hl. revert x L Hx Hc HL. induction Hl as [|o l Ho Hl IH]; intros x L Hx Hc HL; cbn.
  - split; [done|]. split; [done|]. split; [done|]. split; [exists []; by rewrite app_nil_r|]. exists []. rewrite app_nil_r. split; [done|].
      intros ? ? _ _ H. by apply not_elem_of_nil in H.
  - destruct (xstep_single o x s L Hx Hc HL Ho) as (H1 & H2 & H3 & (L1 & H4) & rows & H5 & H6).
    destruct (IH _ _ H1 H2 H4) as (J1 & J2 & J3 & (L2 & J4) & rows2 & J5 & J6).
    split; [done|]. split; [done|]. split; [by rewrite J3|]. split; [exists (L1 ++ L2); by rewrite J4, <-app_assoc|].
    exists (rows ++ rows2). split; [by rewrite J5, H5, app_assoc|]. intros i r Hi Hov Hr. apply elem_of_app in Hr as [Hr|Hr]; [by apply H6|].
    rewrite H3 in J6. apply J6; [|done|done]. apply elem_of_app. by left.
Qed.
Lemma xstep_xinv o x : xinv x → xinv (xstep o x).1.
Proof.
  intros Hx. assert (∀ g X, xinv (x_add_object g X x).1) as Hadd.
  { intros g X. destruct (x_add_object_cases g X x Hx) as [(L2 & _ & _ & c' & -> & Hw' & Ha' & _)|[(L2 & i & _ & _ & _ & ->)|[_ ->]]]; cbn; try done.
    destruct Hx as [? ?]. split; cbn; by rewrite ?Ha'. }
  destruct o as [|t i|t i g X|g X]; cbn; [done| | |apply Hadd].
  - by destruct (xbases x !! t).
  - destruct (xbases x !! t); [|done]. destruct (is_respected i X); [done|]. apply Hadd.
Qed.
Lemma xrun_xinv l x : xinv x → xinv (xrun l x).
Proof. revert x. induction l as [|o l IH]; intros x Hx; [done|]. cbn. apply IH. by apply xstep_xinv. Qed.
Lemma fresh_session x g X : xinv x → let x1 := (xstep XCreate x).1 in
  ∃ c', xstep (XAddObject g X) x1 = (Xpl c' (xbases x1) (xcur x1), Ok tt) ∧
    np c' = np (xcxt x) ++ [map (λ a, bool_decide (a ∈ X)) (atts (xcxt x))].
Proof.
  intros Hx x1. assert ((p ← xcur x1; xbases x1 !! p) = Some []) as E.
  { cbn. rewrite lookup_app_r by done. by rewrite Nat.sub_diag. }
  destruct (x_add_object_cases g X x1 (xstep_xinv XCreate x Hx)) as [(L2 & _ & _ & c' & H & _ & _ & _ & Hn)|[(L2 & i & E2 & Hi & _)|[E2 _]]].
  - by exists c'.
  - rewrite E in E2. injection E2 as <-. by apply not_elem_of_nil in Hi.
  - by rewrite E in E2.
Qed.
