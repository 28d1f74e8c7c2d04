(** * Exploration over partial contexts with a truthful expert *)
From Verif Require Import Py Spec PyFacts SpecFacts DgSpec ContextModel ContextSpec ContextFacts ClosureModel ClosureFacts DgModel DgFacts DgMain DgCxt DgCond
  ExplModel ExplFacts ExploreFacts FilterFacts PartialModel PartialSpec PartialFacts PExploreModel PExploreSpec.

Lemma size_list_to_set_le (l : list name) : size (list_to_set l : gset name) ≤ length l.
Proof.
  induction l as [|x l IH]; cbn [list_to_set length]; [by rewrite size_empty|]. rewrite size_union_alt, size_singleton.
  assert (size ((list_to_set l : gset name) ∖ {[x]}) ≤ size (list_to_set l : gset name)); [|lia]. apply subseteq_size. set_solver.
Qed.
Lemma size_map_le (f : name → name) (X : gset name) : size (set_map f X : gset name) ≤ size X.
Proof. unfold set_map. etrans; [apply size_list_to_set_le|]. rewrite fmap_length. done. Qed.

Section pexplore.
  Context (ms : list name) (Hms : NoDup ms) (Hcmp : comparable ms = true).
  Local Notation M := (list_to_set ms : gset name).
  Context (cl : gset name → gset name) (Hcl : closure_op M cl) (s : name → name) (Hs : symmetry M cl s).
  Local Notation mir := (mirror s).

  (** ** The symmetry on sets *)
  Lemma elem_mir X m : X ⊆ M → m ∈ M → m ∈ mir X ↔ s m ∈ X.
  Proof.
    intros HX Hm. unfold mirror. rewrite elem_of_map. split.
    - intros (y & -> & Hy). rewrite (sy_twice _ _ _ Hs); [done|by apply HX].
    - intros H. exists (s m). split; [by rewrite (sy_twice _ _ _ Hs)|done].
  Qed.
  Lemma mir_sub X : X ⊆ M → mir X ⊆ M.
  Proof. intros HX m (y & -> & Hy)%elem_of_map. apply (sy_in _ _ _ Hs). by apply HX. Qed.
  Lemma mir_mono X Y : X ⊆ Y → mir X ⊆ mir Y.
  Proof. intros H m (y & -> & Hy)%elem_of_map. apply elem_of_map. exists y. split; [done|by apply H]. Qed.
  Lemma mir_mir X : X ⊆ M → mir (mir X) = X.
  Proof.
    intros HX. apply set_eq. intros m. split.
    - intros (y & -> & (z & -> & Hz)%elem_of_map)%elem_of_map. rewrite (sy_twice _ _ _ Hs); [done|by apply HX].
    - intros Hm. apply elem_of_map. exists (s m). split; [rewrite (sy_twice _ _ _ Hs); [done|by apply HX]|].
      apply elem_of_map. by exists m.
  Qed.
  Lemma mir_sub_l X Y : X ⊆ M → Y ⊆ M → mir X ⊆ Y ↔ X ⊆ mir Y.
  Proof.
    intros HX HY. split; intros H.
    - rewrite <-(mir_mir X HX). by apply mir_mono.
    - rewrite <-(mir_mir Y HY). by apply mir_mono.
  Qed.
  Lemma mir_size X : X ⊆ M → size (mir X) = size X.
  Proof.
    intros HX. apply (anti_symm (≤)).
    - apply size_map_le.
    - rewrite <-(mir_mir X HX) at 1. apply size_map_le.
  Qed.

  (** ** Contexts and implications that are true of the domain *)
  Record cxt_ok (p : pcontext) : Prop := CxtOk {
    k_ok : partial_ok p;
    k_atts : p_atts p = ms;
    k_ne : p_objs p ≠ [];
    k_bounds : ∀ X, X ∈ rows p → bounds M cl X }.
  Definition imps_ok (L : list fimp) : Prop := ∀ j, j ∈ L → j.1 ⊆ M ∧ j.2 ⊆ M ∧ j.2 ⊆ cl j.1.
  Lemma elem_rows p X : X ∈ rows p ↔ ∃ g, g ∈ p_objs p ∧ X = prow p g.
  Proof. unfold rows. rewrite elem_of_list_fmap. naive_solver. Qed.
  Lemma in_xq p A m : partial_ok p → p_atts p = ms → m ∈ xq p A ↔ m ∈ M ∧ ∀ X, X ∈ rows p → A ⊆ X.1 → m ∈ X.2.
  Proof.
    intros Hp Ha. rewrite (elem_of_xq p Hp), Ha, elem_of_list_to_set. split; intros [H1 H2]; (split; [done|]).
    - intros X (g & Hg & ->)%elem_rows. by apply H2.
    - intros g Hg. apply (H2 (prow p g)). apply elem_rows. eauto.
  Qed.
  Lemma model_valid L Y : imps_ok L → Y ⊆ M → cl Y = Y → model_of L Y.
  Proof.
    intros HL HY E j Hj Hp. destruct (HL j Hj) as (_ & _ & H). rewrite <-E. etrans; [exact H|]. by apply (cl_mono _ _ Hcl).
  Qed.
  Lemma hashable_over (i : fimp) : i.1 ⊆ M → i.2 ⊆ M → hashable i = true.
  Proof.
    intros H1 H2. apply hashable_final. pose proof Hcmp as Hc. apply comparable_spec in Hc.
    assert (∀ x, x ∈ M → x ∈ ms) as H by (intros x; by rewrite elem_of_list_to_set). destruct Hc as [Hc|Hc].
    - split; left; eauto.
    - split; right; eauto.
  Qed.
  Lemma valid_hashable L : imps_ok L → ∀ j, j ∈ L → hashable j = true.
  Proof. intros HL j Hj. destruct (HL j Hj) as (H1 & H2 & _). by apply (hashable_over). Qed.
  Lemma below_xq p X : cxt_ok p → X ⊆ M → cl X ⊆ xq p X.
  Proof.
    intros [Hp Ha _ Hb] HX m Hm. apply (in_xq p X m Hp Ha). split; [by apply (cl_sub _ _ Hcl X)|].
    intros R HR HXR. destruct (Hb R HR) as (HP & Y & H1 & H2 & E). apply H2. rewrite <-E.
    apply (cl_mono _ _ Hcl X); [by etrans|by etrans|done].
  Qed.
  Lemma refresh_ok p L cond : cxt_ok p → imps_ok L →
    ∃ R, compute_partial_dg_basis p (Some L) cond = Ok R ∧ cpost ms (xq p) L cond R.
  Proof.
    intros [Hp Ha Hne _] HL. unfold compute_partial_dg_basis. rewrite Ha.
    apply (dg_cond_spec ms Hms (xq p)).
    - rewrite <-Ha. by apply xq_growing.
    - intros X HX. apply xq_aclosure_spec; [done|done|by rewrite Ha].
    - intros i Hi. by apply HL.
    - intros R X HR _. apply simple_closure_spec. intros i [Hi|Hi]%elem_of_app; [destruct (HR i Hi)|destruct (HL i Hi) as (? & ? & _)]; by apply (hashable_over).
  Qed.

  (** ** Symmetric implications and rows *)
  Lemma mirrored_model L X : imps_ok L → mirrored_imps s L → X ⊆ M → model_of L X → model_of L (mir X).
  Proof.
    intros HL Hm HX H j Hj Hp. destruct (HL j Hj) as (H1 & H2 & _). destruct (Hm j Hj) as (j' & Hj' & E1 & E2).
    apply mir_sub_l; [done|done|]. apply mir_sub_l in Hp; [|done|done]. rewrite <-E1 in Hp. pose proof (H j' Hj' Hp).
    etrans; [exact E2|]. set_solver.
  Qed.
  Lemma mirrored_xq p X : cxt_ok p → mirrored_pairs s (rows p) → X ⊆ M → mir (xq p X) ⊆ xq p (mir X).
  Proof.
    intros [Hp Ha _ Hb] Hm HX m (y & -> & Hy)%elem_of_map. apply (in_xq p _ _ Hp Ha) in Hy as [Hy Hr].
    apply (in_xq p _ _ Hp Ha). split; [by apply (sy_in _ _ _ Hs)|]. intros R HR HXR.
    destruct (Hb R HR) as (HR2 & Y & HY1 & HY2 & _). assert (R.1 ⊆ M) as HR1 by (etrans; [exact HY1|]; by etrans).
    apply (elem_mir R.2 y); [done|done|]. apply (Hr _ (Hm R HR)). cbn. by apply mir_sub_l.
  Qed.
  Lemma fills_mir L C P Y : imps_ok L → mirrored_imps s L → P ⊆ M → fills L C P Y → fills L (mir C) (mir P) (mir Y).
  Proof.
    intros HL Hm HP (H1 & H2 & H3). split; [by apply mir_mono|]. split; [by apply mir_mono|].
    apply mirrored_model; [done|done|by etrans|done].
  Qed.
  Lemma completed_mir L C P C' P' D Q : imps_ok L → mirrored_imps s L → P ⊆ M → C ⊆ P → (∃ Y, fills L C P Y) →
    completed L C P C' P' → completed L (mir C) (mir P) D Q → D = mir C' ∧ Q = mir P'.
  Proof.
    intros HL Hm HP HC (Z & HZ) H1 H2. assert (C ⊆ M) as HCM by by etrans.
    assert (∀ Y, fills L (mir C) (mir P) Y → fills L C P (mir Y)) as Hback.
    { intros Y HY. apply fills_mir in HY; [|done|done|by apply mir_sub]. by rewrite !mir_mir in HY. }
    assert (C' ⊆ M) as HC'. { intros m Hm'. apply HP. pose proof HZ as (_ & HZ' & _). apply HZ'. by apply (proj1 (proj1 (H1 m)) Hm'). }
    assert (P' ⊆ M) as HP'. { intros m Hm'. apply (proj2 (H1 m)) in Hm' as (Y & (_ & HY & _) & Hm'). by apply HP, HY. }
    assert (∀ Y, fills L (mir C) (mir P) Y → Y ⊆ M) as HYM.
    { intros Y (_ & HY & _). etrans; [exact HY|]. by apply mir_sub. }
    split; apply set_eq; intros m.
    - rewrite (proj1 (H2 m)). split.
      + intros H. assert (m ∈ M) as HmM. { apply (HYM (mir Z)); [|apply H]; by apply fills_mir. }
        apply elem_mir; [done|done|]. apply (proj1 (H1 (s m))). intros Y HY.
        assert (Y ⊆ M) as HY' by (destruct HY as (_ & ? & _); by etrans).
        apply elem_mir; [done|done|]. apply H. by apply fills_mir.
      + intros Hm' Y HY. assert (m ∈ M) as HmM by by apply (mir_sub C').
        apply elem_mir in Hm'; [|done|done]. pose proof (proj1 (proj1 (H1 (s m))) Hm' (mir Y) (Hback Y HY)) as H.
        rewrite <-(mir_mir Y) by by apply HYM. apply elem_mir; [apply mir_sub; by apply HYM|done|done].
    - rewrite (proj2 (H2 m)). split.
      + intros (Y & HY & HmY). assert (m ∈ M) as HmM by by apply (HYM Y HY). apply elem_mir; [done|done|].
        apply (proj2 (H1 (s m))). exists (mir Y). split; [by apply Hback|]. apply elem_mir; [by apply HYM|by apply (sy_in _ _ _ Hs)|].
        by rewrite (sy_twice _ _ _ Hs).
      + intros Hm'. assert (m ∈ M) as HmM by by apply (mir_sub P'). apply elem_mir in Hm'; [|done|done].
        apply (proj2 (H1 (s m))) in Hm' as (Y & HY & HmY). exists (mir Y). split; [by apply fills_mir|].
        apply elem_mir; [destruct HY as (_ & ? & _); by etrans|done|done].
  Qed.

  (** ** The steps *)
  Lemma confirm_steps l d : cxt_ok (pd_cxt d) → imps_ok (pd_imps d ++ l) → l ≠ [] →
    ∃ R, pae_steps (map PDConfirm l) d = (PDB (pd_cxt d) (pd_imps d ++ l) (pd_cond d) R, Ok tt) ∧
      cpost ms (xq (pd_cxt d)) (pd_imps d ++ l) (pd_cond d) R.
  Proof.
    revert d. induction l as [|i l IH]; intros d Hc HL Hne; [done|]. cbn [map pae_steps]. unfold pdstep, pdecorated, pd_refresh. cbn [pd_cxt pd_imps pd_cond pd_open].
    destruct (refresh_ok (pd_cxt d) (pd_imps d ++ [i]) (pd_cond d)) as (R & HR & HRp); [done| |].
    { intros j Hj. apply HL. rewrite elem_of_app, elem_of_cons in *. rewrite elem_of_nil in Hj. tauto. }
    unfold fimp in *. rewrite HR. destruct l as [|i' l].
    - exists R. done.
    - destruct (IH (PDB (pd_cxt d) (pd_imps d ++ [i]) (pd_cond d) R)) as (R' & HR' & HRp'); [done| |done|].
      + cbn. by rewrite <-app_assoc.
      + cbn [pd_cxt pd_imps pd_cond] in *. rewrite <-app_assoc in *. eauto.
  Qed.
  Lemma check_partial_ok L X : imps_ok L → bounds M cl X → check_partial L X = Ok tt.
  Proof.
    intros HL (HP & Y & H1 & H2 & E). unfold check_partial. rewrite (proj2 (forallb_forall _ _)); [done|]. intros i Hi%elem_of_list_In.
    unfold is_respected_partial. apply orb_true_iff. destruct (decide (i.1 ⊆ X.1)) as [Hp|Hp]; [left|right; by rewrite bool_decide_false].
    apply bool_decide_eq_true. trans Y; [|done]. unfold conclusion. trans i.2; [set_solver|].
    apply (model_valid L Y HL); [by etrans|done|done|by etrans].
  Qed.
  Lemma add_steps es Xs d : cxt_ok (pd_cxt d) → imps_ok (pd_imps d) → NoDup es → (∀ o, o ∈ es → o ∉ p_objs (pd_cxt d)) → length es = length Xs →
    (∀ X, X ∈ Xs → bounds M cl X) → es ≠ [] →
    ∃ p R, pae_add es Xs d = (PDB p (pd_imps d) (pd_cond d) R, Ok tt) ∧ cxt_ok p ∧ p_objs p = p_objs (pd_cxt d) ++ es ∧
      rows p = rows (pd_cxt d) ++ Xs ∧ (∀ g, g ∈ p_objs (pd_cxt d) → prow p g = prow (pd_cxt d) g) ∧
      cpost ms (xq p) (pd_imps d) (pd_cond d) R.
  Proof.
    revert Xs d. induction es as [|o es IH]; intros [|X Xs] d Hc HL Hnd Hfr Hlen Hb Hne; [done..|]. cbn [pae_add].
    assert (bounds M cl X) as HX by (apply Hb; left). pose proof HX as (HP & Y & H1 & H2 & _).
    assert (o ∉ p_objs (pd_cxt d)) as Ho by (apply Hfr; left).
    destruct (p_add_spec (pd_cxt d) X.1 X.2 o) as (p & Ep & Hp & Eo & Ea & Ex & Eq & Hold); [apply Hc|by etrans|by rewrite (k_atts _ Hc)|done|].
    assert (∀ g, g ∈ p_objs (pd_cxt d) → prow p g = prow (pd_cxt d) g) as Hrow.
    { intros g Hg. unfold prow. destruct (Hold g) as [-> ->]; [by intros ->|done]. }
    assert (rows p = rows (pd_cxt d) ++ [X]) as Hrows.
    { unfold rows. rewrite Eo, map_app. f_equal.
      - apply map_ext_in. intros g Hg%elem_of_list_In. by apply Hrow.
      - cbn. unfold prow. rewrite Ex, Eq. by destruct X. }
    assert (cxt_ok p) as Hcp.
    { split; [done|by rewrite Ea, (k_atts _ Hc)|rewrite Eo; by destruct (p_objs (pd_cxt d))|].
      intros Z HZ. rewrite Hrows in HZ. apply elem_of_app in HZ as [HZ| ->%elem_of_list_singleton]; [by apply (k_bounds _ Hc)|done]. }
    destruct (refresh_ok p (pd_imps d) (pd_cond d) Hcp HL) as (R & HR & HRp).
    assert (pdstep (PDAddExample o X) d = (PDB p (pd_imps d) (pd_cond d) R, Ok tt)) as Estep.
    { unfold pdstep, pd_add_example. rewrite (check_partial_ok _ _ HL HX). cbn [guarded]. rewrite bool_decide_false by done.
      assert (p_add_object_with_intent (pd_cxt d) X o = (p, Ok tt)) as Ep' by (by destruct X). rewrite Ep'. cbn [fst snd]. unfold pdecorated, pd_refresh. cbn [pd_cxt pd_imps pd_cond]. by rewrite HR. }
    rewrite Estep. destruct es as [|o' es].
    - destruct Xs; [|done]. exists p, R. done.
    - destruct (IH Xs (PDB p (pd_imps d) (pd_cond d) R)) as (p' & R' & E' & Hc' & Eo' & Er' & Hrow' & HR').
      + done.
      + done.
      + by inversion Hnd.
      + intros o1 Ho1. cbn [pd_cxt]. rewrite Eo, elem_of_app, elem_of_list_singleton. intros [H| ->].
        * revert H. apply Hfr. by right.
        * by inversion Hnd.
      + cbn in *. lia.
      + intros Z HZ. apply Hb. by right.
      + done.
      + cbn [pd_cxt pd_imps pd_cond] in *. exists p', R'. split; [done|]. split; [done|]. split; [by rewrite Eo', Eo, <-app_assoc|].
        split; [by rewrite Er', Hrows, <-app_assoc|]. split; [|done]. intros g Hg. rewrite Hrow', Hrow; [done|done|].
        rewrite Eo. apply elem_of_app. by left.
  Qed.
  (** Completion with true implications. *)
  Lemma complete_step p L : cxt_ok p → imps_ok L → mirrored_pairs s (rows p) → mirrored_imps s L →
    ∃ p', p_complete L p = (p', Ok tt) ∧ cxt_ok p' ∧ mirrored_pairs s (rows p') ∧ p_objs p' = p_objs p ∧
      (∀ g, g ∈ p_objs p → completed L (prow p g).1 (prow p g).2 (prow p' g).1 (prow p' g).2) ∧
      (∀ A, xq p' A ⊆ xq p A).
  Proof.
    intros Hc HL Hmp Hml. pose proof Hc as [Hp Ha Hne Hb].
    assert (∀ g, g ∈ p_objs p → bounds M cl (prow p g)) as Hbg by (intros g Hg; apply Hb, elem_rows; eauto).
    assert (∀ g, g ∈ p_objs p → ∃ Y, fills L (row (px p) g) (row (pq p) g) Y ∧ Y ⊆ M ∧ cl Y = Y) as Hf.
    { intros g Hg. destruct (Hbg g Hg) as (HP & Y & H1 & H2 & E). exists Y. assert (Y ⊆ M) by by etrans. split; [|done].
      split; [done|]. split; [done|]. by apply model_valid. }
    destruct (p_complete_all L p Hp (valid_hashable L HL)) as (p' & E & Hp' & Eo & Ea & Hcomp).
    { intros o Ho. destruct (Hf o Ho) as (Y & HY & _). eauto. }
    exists p'. split; [done|].
    assert (∀ g, g ∈ p_objs p → bounds M cl (prow p' g)) as Hb'.
    { intros g Hg. destruct (Hf g Hg) as (Y & HY & HYM & EY). split.
      - intros m Hm. apply (proj2 (Hcomp g Hg m)) in Hm as (Z & (_ & HZ & _) & Hm). by apply (Hbg g Hg), HZ.
      - exists Y. apply (completed_fills _ _ _ _ _ (Hcomp g Hg)) in HY as (H1 & H2 & _); [done|eauto]. }
    assert (∀ g, g ∈ p_objs p → (prow p g).1 ⊆ (prow p' g).1 ∧ (prow p' g).2 ⊆ (prow p g).2) as Hmon.
    { intros g Hg. split; intros m Hm.
      - apply (proj1 (Hcomp g Hg m)). intros Y (H & _). by apply H.
      - apply (proj2 (Hcomp g Hg m)) in Hm as (Y & (_ & H & _) & Hm). by apply H. }
    split; [|split; [|split; [done|split; [done|]]]].
    - split; [done|by rewrite Ea|by rewrite Eo|]. intros X (g & Hg & ->)%elem_rows. rewrite Eo in Hg. by apply Hb'.
    - intros X (g & Hg & ->)%elem_rows. rewrite Eo in Hg.
      assert (prow p g ∈ rows p) as HX by (apply elem_rows; eauto). apply Hmp in HX as (g' & Hg' & E')%elem_rows.
      apply elem_rows. exists g'. rewrite Eo. split; [done|]. pose proof (Hcomp g Hg) as H1. pose proof (Hcomp g' Hg') as H2.
      unfold prow in *. cbn [fst snd] in *. injection E' as E1 E2. rewrite <-E1, <-E2 in H2.
      destruct (Hbg g Hg) as (HPM & Y & HY1 & HY2 & _). cbn [fst snd] in *.
      assert (row (px p) g ⊆ row (pq p) g) as HCP by by etrans. assert (∃ Y, fills L (row (px p) g) (row (pq p) g) Y) as HYY.
      { destruct (Hf g Hg) as (? & ? & _). eauto. }
      destruct (completed_mir L _ _ _ _ _ _ HL Hml HPM HCP HYY H1 H2) as [-> ->]. done.
    - intros A m. rewrite !in_xq by (first [done|by rewrite Ea]). intros [Hm H]. split; [done|].
      intros X (g & Hg & ->)%elem_rows HA. destruct (Hmon g Hg) as [Hm1 Hm2]. apply Hm2. apply H; [apply elem_rows; exists g; by rewrite Eo|].
      etrans; [exact HA|exact Hm1].
  Qed.

  (** ** Progress *)
  Definition msr (p : pcontext) (L : list fimp) : nat :=
    length (List.filter (λ X, forallb (λ i, is_respected i X) L) (subs_l ms)) +
    sum_list (map (λ A, size (xq p A)) (subs_l ms)).
  Lemma sum_le {A} (f g : A → nat) l : (∀ x, x ∈ l → f x ≤ g x) → sum_list (map f l) ≤ sum_list (map g l).
  Proof.
    induction l as [|x l IH]; intros H; [done|]. cbn. assert (f x ≤ g x) by (apply H; left).
    assert (sum_list (map f l) ≤ sum_list (map g l)); [|lia]. apply IH. intros y Hy. apply H. by right.
  Qed.
  Lemma sum_lt {A} (f g : A → nat) l x : (∀ x, x ∈ l → f x ≤ g x) → x ∈ l → f x < g x → sum_list (map f l) < sum_list (map g l).
  Proof.
    induction l as [|y l IH]; intros H Hx Hlt; [by apply elem_of_nil in Hx|]. cbn. assert (f y ≤ g y) by (apply H; left).
    assert (∀ x, x ∈ l → f x ≤ g x) as H' by (intros z Hz; apply H; by right). pose proof (sum_le f g l H').
    apply elem_of_cons in Hx as [->|Hx]; [lia|]. pose proof (IH H' Hx Hlt). lia.
  Qed.
  Lemma sum_bound {A} (f : A → nat) n l : (∀ x, x ∈ l → f x ≤ n) → sum_list (map f l) ≤ n * length l.
  Proof.
    induction l as [|x l IH]; intros H; cbn [map sum_list length foldr]; [cbn; lia|]. assert (f x ≤ n) by (apply H; left).
    assert (sum_list (map f l) ≤ n * length l) as H1 by (apply IH; intros y Hy; apply H; by right).
    rewrite Nat.mul_succ_r, Nat.add_comm. by apply Nat.add_le_mono.
  Qed.
  Lemma msr_bound p L : cxt_ok p → msr p L ≤ S (length ms) * 2 ^ length ms.
  Proof.
    intros [Hp Ha _ _]. unfold msr. rewrite <-subs_l_length.
    pose proof (filter_count_all (λ X, forallb (λ i, is_respected i X) L) (subs_l ms)).
    assert (sum_list (map (λ A, size (xq p A)) (subs_l ms)) ≤ length ms * length (subs_l ms)); [|lia].
    apply sum_bound. intros A _. rewrite <-(size_list_to_set (C := gset name) ms) by done. apply subseteq_size. intros m Hm.
    by apply (in_xq p A m Hp Ha) in Hm as [? _].
  Qed.
  Lemma msr_confirm p p0 L l i : (∀ A, xq p A ⊆ xq p0 A) → i.1 ⊆ M → model_of L i.1 → ¬ i.2 ⊆ i.1 → i ∈ l →
    msr p (L ++ l) < msr p0 L.
  Proof.
    intros Hxq Hi Hm Hn Hl. unfold msr. apply Nat.add_lt_le_mono.
    - apply (filter_count_lt _ _ _ i.1).
      + intros X _. rewrite !model_dec. intros H%model_of_app. tauto.
      + by apply elem_of_subs_l.
      + apply not_true_iff_false. rewrite model_dec. intros H. apply Hn, (H i); [apply elem_of_app; by right|done].
      + by rewrite model_dec.
    - apply sum_le. intros A _. by apply subseteq_size.
  Qed.
  Lemma msr_reject p p0 L A B : (∀ A, xq p A ⊆ xq p0 A) → A ⊆ M → B ⊆ xq p0 A → ¬ B ⊆ xq p A → msr p L < msr p0 L.
  Proof.
    intros Hxq HA HB Hn. unfold msr. apply Nat.add_le_lt_mono; [done|]. apply (sum_lt _ _ _ A).
    - intros Z _. by apply subseteq_size.
    - by apply elem_of_subs_l.
    - apply subset_size. split; [done|]. intros H. apply Hn. by etrans.
  Qed.

  (** ** The loop *)
  Context (cond : gset name → bool) (Hcond : ∀ X, X ⊆ M → cond X = true ∨ cond (mir X) = true).
  (** [p0] is the context the open implications were computed from. *)
  Record pstate (d : pdb) (p0 : pcontext) : Prop := PSt {
    t_cxt : cxt_ok (pd_cxt d);
    t_mir : mirrored_pairs s (rows (pd_cxt d));
    t_imps : imps_ok (pd_imps d);
    t_mimps : mirrored_imps s (pd_imps d);
    t_cond : pd_cond d = cond;
    t_cxt0 : cxt_ok p0;
    t_mir0 : mirrored_pairs s (rows p0);
    t_xq : ∀ A, xq (pd_cxt d) A ⊆ xq p0 A;
    t_open : cpost ms (xq p0) (pd_imps d) cond (pd_open d) }.
  Lemma mirrored_app L l : mirrored_imps s L → mirrored_imps s l → mirrored_imps s (L ++ l).
  Proof.
    intros H1 H2 j [Hj|Hj]%elem_of_app; [destruct (H1 j Hj) as (j' & Hj' & H)|destruct (H2 j Hj) as (j' & Hj' & H)];
      exists j'; (split; [apply elem_of_app; tauto|done]).
  Qed.
  Lemma mirrored_pairs_app l l' : mirrored_pairs s l → mirrored_pairs s l' → mirrored_pairs s (l ++ l').
  Proof. intros H1 H2 X [HX|HX]%elem_of_app; apply elem_of_app; auto. Qed.
  Lemma question d p0 i R : pstate d p0 → pd_open d = i :: R → i.1 ⊆ M ∧ i.2 ⊆ M ∧ i.2 = xq p0 i.1 ∧ i.1 ⊆ i.2 ∧ i.1 ≠ i.2 ∧ model_of (pd_imps d) i.1.
  Proof.
    intros H E. pose proof (t_open _ _ H) as ([Hf _] & Hp & _). rewrite E in Hf, Hp. destruct (Hf i) as (H1 & H2 & H3 & _); [left|].
    pose proof (xq_growing p0 (k_ok _ (t_cxt0 _ _ H))) as Hg. rewrite (k_atts _ (t_cxt0 _ _ H)) in Hg.
    split; [done|]. unfold fimp in *. rewrite H2. split; [by apply (gr_sub _ _ Hg)|]. split; [done|]. split; [by apply (gr_ext _ _ Hg)|].
    split; [done|]. apply Hp. left.
  Qed.
  (** What is kept from round to round: the closed sets between the bounds of an object. *)
  Definition same_fills (p p' : pcontext) : Prop :=
    ∀ g, g ∈ p_objs p → g ∈ p_objs p' ∧ ∀ Y, Y ⊆ M → cl Y = Y →
      ((prow p g).1 ⊆ Y ∧ Y ⊆ (prow p g).2 ↔ (prow p' g).1 ⊆ Y ∧ Y ⊆ (prow p' g).2).
  Definition settled (L : list fimp) (p : pcontext) : Prop :=
    ∀ g, g ∈ p_objs p → completed L (prow p g).1 (prow p g).2 (prow p g).1 (prow p g).2.
  Lemma same_fills_refl p : same_fills p p.
  Proof. intros g Hg. split; [done|]. tauto. Qed.
  Lemma same_fills_trans p1 p2 p3 : same_fills p1 p2 → same_fills p2 p3 → same_fills p1 p3.
  Proof.
    intros H1 H2 g Hg. destruct (H1 g Hg) as [Hg2 E1]. destruct (H2 g Hg2) as [Hg3 E2]. split; [done|].
    intros Y HY EY. by rewrite E1, E2.
  Qed.
  Lemma completed_same L p p' : cxt_ok p → imps_ok L → p_objs p' = p_objs p →
    (∀ g, g ∈ p_objs p → completed L (prow p g).1 (prow p g).2 (prow p' g).1 (prow p' g).2) → same_fills p p' ∧ settled L p'.
  Proof.
    intros Hc HL Eo H. assert (∀ g, g ∈ p_objs p → ∃ Y, fills L (prow p g).1 (prow p g).2 Y) as Hf.
    { intros g Hg. destruct (k_bounds _ Hc (prow p g)) as (HP & Y & H1 & H2 & E); [apply elem_rows; eauto|]. exists Y. split; [done|]. split; [done|].
      apply model_valid; [done|by etrans|done]. }
    split.
    - intros g Hg. split; [by rewrite Eo|]. intros Y HY EY. pose proof (completed_fills _ _ _ _ _ (H g Hg) (Hf g Hg) Y) as HE.
      unfold fills in HE. pose proof (model_valid L Y HL HY EY). tauto.
    - intros g Hg m. rewrite Eo in Hg. pose proof (H g Hg) as Hm. pose proof (completed_fills _ _ _ _ _ (H g Hg) (Hf g Hg)) as HE.
      setoid_rewrite HE. apply Hm.
  Qed.
  Lemma pstep d p0 i R a : pstate d p0 → pd_open d = i :: R → panswers M cl s (p_objs (pd_cxt d)) i a →
    ∃ d' p1, match a with PValid l => pae_confirm l d | PCounter es Xs => pae_reject i es Xs d end = (d', Ok tt) ∧
      pstate d' p1 ∧ msr p1 (pd_imps d') < msr p0 (pd_imps d) ∧ same_fills (pd_cxt d) (pd_cxt d') ∧ settled (pd_imps d') (pd_cxt d').
  Proof.
    intros Hst Eo Ha. destruct (question d p0 i R Hst Eo) as (Q1 & Q2 & Q3 & Q4 & Q5 & Q6).
    pose proof Hst as [T1 T2 T3 T4 T5 T6 T7 T8 T9]. destruct a as [l|es Xs].
    - destruct Ha as (Hi & Hl & Hml). assert (imps_ok (pd_imps d ++ l)) as HL.
      { intros j [Hj|Hj]%elem_of_app; [by apply T3|by apply Hl]. }
      destruct (confirm_steps l d T1 HL) as (R' & E & HR'); [by intros ->; apply elem_of_nil in Hi|].
      pose proof (mirrored_app _ _ T4 Hml) as HmL.
      destruct (complete_step (pd_cxt d) (pd_imps d ++ l) T1 HL T2 HmL) as (p' & E' & Hc' & Hm' & Eo' & Hcomp & Hxq).
      destruct (completed_same _ _ _ T1 HL Eo' Hcomp) as [Hsame Hset].
      exists (PDB p' (pd_imps d ++ l) (pd_cond d) R'), (pd_cxt d). split; [|split; [|split; [|by split]]].
      + unfold pae_confirm. rewrite E. cbn [then_complete]. unfold pd_complete. cbn [pd_cxt pd_imps pd_cond pd_open]. by rewrite E'.
      + rewrite T5 in *. by split.
      + cbn [pd_imps]. apply (msr_confirm _ _ _ _ i); [done..| |done]. intros H. apply Q5. by apply (anti_symm (⊆)).
    - destruct Ha as (Hnd & Hfr & Hlen & Hb & Hmp & X & Xs' & -> & Hp & Hn).
      assert (is_respected_partial i X = false) as Hresp.
      { unfold is_respected_partial. rewrite (bool_decide_true (i.1 ⊆ X.1)) by done. rewrite bool_decide_false; [done|].
        unfold conclusion. intros H. apply Hn. intros m Hm. destruct (decide (m ∈ i.1)) as [Hm1|Hm1]; [|apply H; set_solver].
        destruct (Hb X) as (_ & Y & H1 & H2 & _); [left|]. by apply H2, H1, Hp. }
      destruct (add_steps es (X :: Xs') d T1 T3 Hnd Hfr Hlen Hb) as (p1 & R' & E & Hc1 & Eo1 & Er1 & Hrow1 & HR'); [by destruct es|].
      assert (mirrored_pairs s (rows p1)) as Hm1 by (rewrite Er1; by apply mirrored_pairs_app).
      destruct (complete_step p1 (pd_imps d) Hc1 T3 Hm1 T4) as (p' & E' & Hc' & Hm' & Eo' & Hcomp & Hxq).
      destruct (completed_same _ _ _ Hc1 T3 Eo' Hcomp) as [Hsame Hset].
      exists (PDB p' (pd_imps d) (pd_cond d) R'), p1. split; [|split; [|split; [|split; [|done]]]].
      + unfold pae_reject. rewrite Hresp, E. cbn [then_complete]. unfold pd_complete. cbn [pd_cxt pd_imps pd_cond pd_open]. by rewrite E'.
      + rewrite T5 in *. by split.
      + cbn [pd_imps]. apply (msr_reject _ _ _ i.1 i.2).
        * intros A. trans (xq (pd_cxt d) A); [|apply T8]. intros m. rewrite !in_xq by (first [apply T1|apply Hc1]).
          intros [Hm H]. split; [done|]. intros Z HZ. apply H. rewrite Er1. apply elem_of_app. by left.
        * done.
        * by rewrite Q3.
        * intros H. apply Hn. intros m Hm. apply H in Hm. apply in_xq in Hm as [_ Hm]; [|apply Hc1|apply Hc1]. apply (Hm X); [|done].
          rewrite Er1. apply elem_of_app. right. left.
      + apply (same_fills_trans _ p1); [|done]. intros g Hg. split; [rewrite Eo1; apply elem_of_app; by left|]. rewrite (Hrow1 g Hg). tauto.
  Qed.
  (** With nothing open, every set respecting the base is closed. *)
  Lemma end_closed d p0 : pstate d p0 → pd_open d = [] → ∀ X, X ⊆ M → model_of (pd_imps d) X → xq p0 X = X.
  Proof.
    intros [T1 T2 T3 T4 T5 T6 T7 T8 (_ & _ & T9)] E. specialize (T9 E). intros X. induction (well_founded_ltof _ (λ X : gset name, size X) X) as [X _ IH].
    unfold ltof in IH. intros HX Hm. assert (∀ Q, Q ⊂ X → model_of (pd_imps d) Q → xq p0 Q = Q) as Hsub.
    { intros Q HQ HmQ. apply IH; [by apply subset_size|destruct HQ; by etrans|done]. }
    assert (∀ Q, Q ⊂ mir X → model_of (pd_imps d) Q → xq p0 Q = Q) as Hsub'.
    { intros Q HQ HmQ. apply IH; [apply subset_size in HQ; by rewrite mir_size in HQ|destruct HQ as [HQ _]; etrans; [exact HQ|by apply mir_sub]|done]. }
    destruct (Hcond X HX) as [Hc|Hc]; [by apply T9|].
    assert (xq p0 (mir X) = mir X) as Hx. { apply T9; [by apply mir_sub|by apply mirrored_model|done|done]. }
    pose proof (xq_growing p0 (k_ok _ T6)) as Hg. rewrite (k_atts _ T6) in Hg.
    apply (anti_symm (⊆)); [|by apply (gr_ext _ _ Hg)]. assert (xq p0 X ⊆ M) as HxM by by apply (gr_sub _ _ Hg).
    rewrite <-(mir_mir X HX) at 2. apply mir_sub_l; [done|by apply mir_sub|]. rewrite <-Hx. by apply mirrored_xq.
  Qed.
  Lemma end_exact d p0 : pstate d p0 → pd_open d = [] → ∀ i, i.1 ⊆ M → i.2 ⊆ M → (entails (pd_imps d) i ↔ i.2 ⊆ cl i.1).
  Proof.
    intros Hst E i H1 H2. pose proof (end_closed d p0 Hst E) as Hend. pose proof Hst as [T1 T2 T3 T4 T5 T6 T7 T8 T9]. split.
    - intros H. apply (H (cl i.1)); [|by apply (cl_ext _ _ Hcl)]. apply model_valid; [done|by apply (cl_sub _ _ Hcl)|by apply (cl_idem _ _ Hcl)].
    - intros H X HX Hp. assert (model_of (pd_imps d) (X ∩ M)) as Hm.
      { intros j Hj Hpj. destruct (T3 j Hj) as (_ & Hj2 & _). assert (j.2 ⊆ X) by (apply (HX j Hj); set_solver). set_solver. }
      assert (xq p0 (X ∩ M) = X ∩ M) as Hx by (apply Hend; [set_solver|done]).
      assert (i.2 ⊆ X ∩ M); [|set_solver]. rewrite <-Hx. etrans; [exact H|]. etrans; [|apply below_xq; [done|set_solver]].
      apply (cl_mono _ _ Hcl); set_solver.
  Qed.

  Context (expert : nat → pdb → fimp → res panswer) (Hexp : ptruthful M cl s expert).
  Lemma pexplore_loop fuel k d p0 : pstate d p0 → msr p0 (pd_imps d) ≤ fuel →
    ∃ d' p1, pexplore fuel k expert d = (d', Ok tt) ∧ pstate d' p1 ∧ pd_open d' = [] ∧ same_fills (pd_cxt d) (pd_cxt d') ∧
      (settled (pd_imps d) (pd_cxt d) ∨ pd_open d ≠ [] → settled (pd_imps d') (pd_cxt d')).
  Proof.
    revert k d p0. induction fuel as [|fuel IH]; intros k d p0 Hst Hf.
    - destruct (pd_open d) as [|i R] eqn:E.
      + exists d, p0. unfold pexplore. rewrite E. split; [done|]. split; [done|]. split; [done|]. split; [apply same_fills_refl|]. by intros [?|?].
      + exfalso. destruct (question d p0 i R Hst E) as (H1 & _ & _ & _ & _ & H6). unfold msr in Hf.
        assert (0 < length (List.filter (λ X, forallb (λ i, is_respected i X) (pd_imps d)) (subs_l ms))); [|lia].
        destruct (List.filter _ _) as [|Z l] eqn:EF; [|cbn; lia]. assert (i.1 ∈ List.filter (λ X, forallb (λ i, is_respected i X) (pd_imps d)) (subs_l ms)) as Hin.
        { apply elem_of_list_In, List.filter_In. split; [by apply elem_of_list_In, elem_of_subs_l|by apply model_dec]. }
        rewrite EF in Hin. by apply elem_of_nil in Hin.
    - cbn [pexplore]. destruct (pd_open d) as [|i R] eqn:E.
      + exists d, p0. split; [done|]. split; [done|]. split; [done|]. split; [apply same_fills_refl|]. by intros [?|?].
      + destruct (question d p0 i R Hst E) as (H1 & H2 & _). destruct (Hexp k d i H1 H2) as (a & Ea & Ha). rewrite Ea.
        destruct (pstep d p0 i R a Hst E Ha) as (d' & p1 & Es & Hst' & Hlt & Hsame & Hset). rewrite Es.
        destruct (IH (S k) d' p1 Hst') as (d2 & p2 & E2 & Hst2 & Ho2 & Hsame2 & Hset2); [lia|].
        exists d2, p2. split; [done|]. split; [done|]. split; [done|]. split; [by eapply same_fills_trans|]. intros _. apply Hset2. by left.
  Qed.
  Lemma pexplore_final p L : cxt_ok p → mirrored_pairs s (rows p) → imps_ok L → mirrored_imps s L →
    ∃ d, new_pdb p L cond = Ok d ∧ ∀ fuel, S (length ms) * 2 ^ length ms ≤ fuel → ∃ d', pexplore fuel 0 expert d = (d', Ok tt) ∧
      pd_open d' = [] ∧ (∀ i, i.1 ⊆ M → i.2 ⊆ M → (entails (pd_imps d') i ↔ i.2 ⊆ cl i.1)) ∧ partial_ok (pd_cxt d') ∧
      (∀ g, g ∈ p_objs (pd_cxt d') → bounds M cl (prow (pd_cxt d') g)) ∧ same_fills p (pd_cxt d') ∧
      (pd_open d ≠ [] → ∀ g m, g ∈ p_objs (pd_cxt d') →
         (m ∈ (prow (pd_cxt d') g).1 ↔ ∀ Y, (prow (pd_cxt d') g).1 ⊆ Y → Y ⊆ (prow (pd_cxt d') g).2 → cl Y = Y → m ∈ Y) ∧
         (m ∈ (prow (pd_cxt d') g).2 ↔ ∃ Y, (prow (pd_cxt d') g).1 ⊆ Y ∧ Y ⊆ (prow (pd_cxt d') g).2 ∧ cl Y = Y ∧ m ∈ Y)).
  Proof.
    intros Hc Hmp HL Hml. destruct (refresh_ok p L cond Hc HL) as (R & HR & HRp). exists (PDB p L cond R).
    unfold new_pdb. rewrite HR. split; [done|]. intros fuel Hf.
    assert (pstate (PDB p L cond R) p) as Hst by by split.
    destruct (pexplore_loop fuel 0 _ p Hst) as (d' & p1 & E & Hst' & Eo & Hsame & Hset).
    { cbn [pd_imps]. pose proof (msr_bound p L Hc). lia. }
    exists d'. split; [done|]. split; [done|]. pose proof (end_exact d' p1 Hst' Eo) as Hex. split; [done|].
    pose proof Hst' as [T1 T2 T3 T4 T5 T6 T7 T8 T9]. split; [apply T1|].
    assert (∀ g, g ∈ p_objs (pd_cxt d') → bounds M cl (prow (pd_cxt d') g)) as Hb by (intros g Hg; apply T1, elem_rows; eauto).
    split; [done|]. split; [done|]. intros Hopen g m Hg. destruct (Hset (or_intror Hopen) g Hg m) as [S1 S2].
    assert (∀ Y, fills (pd_imps d') (prow (pd_cxt d') g).1 (prow (pd_cxt d') g).2 Y ↔
      (prow (pd_cxt d') g).1 ⊆ Y ∧ Y ⊆ (prow (pd_cxt d') g).2 ∧ cl Y = Y) as HY.
    { destruct (Hb g Hg) as (HM & _). intros Y. unfold fills. split; intros (H1 & H2 & H3); (split; [done|split; [done|]]).
      - assert (Y ⊆ M) as HYM by by etrans. apply (anti_symm (⊆)); [|by apply (cl_ext _ _ Hcl)].
        rewrite <-(end_closed d' p1 Hst' Eo Y HYM H3) at 2. by apply below_xq.
      - apply model_valid; [done|by etrans|done]. }
    rewrite S1, S2. setoid_rewrite HY. clear. naive_solver.
  Qed.
End pexplore.

(** ** Without symmetry *)
Lemma mirror_id X : mirror (λ m, m) X = X.
Proof. apply set_eq. intros m. unfold mirror. rewrite elem_of_map. naive_solver. Qed.
Lemma symmetry_id M cl : symmetry M cl (λ m, m).
Proof. split; [done|done|]. intros X _. by rewrite mirror_id. Qed.
Lemma mirrored_pairs_id l : mirrored_pairs (λ m, m) l.
Proof. intros [C P] HX. cbn [fst snd]. by rewrite !mirror_id. Qed.
Lemma mirrored_imps_id l : mirrored_imps (λ m, m) l.
Proof. intros j Hj. exists j. rewrite !mirror_id. split; [done|]. split; [done|]. set_solver. Qed.
Lemma pexplore_plain p L cl expert : let M : gset name := list_to_set (p_atts p) in
  partial_ok p → comparable (p_atts p) = true → p_objs p ≠ [] → closure_op M cl →
  (∀ g, g ∈ p_objs p → ∃ Y, row (px p) g ⊆ Y ∧ Y ⊆ row (pq p) g ∧ cl Y = Y) →
  (∀ j, j ∈ L → j.1 ⊆ M ∧ j.2 ⊆ M ∧ j.2 ⊆ cl j.1) →
  (∀ k d i, i.1 ⊆ M → i.2 ⊆ M → ∃ a, expert k d i = Ok a ∧
     match a with
     | PValid l => l = [i] ∧ i.2 ⊆ cl i.1
     | PCounter es Xs => ∃ o X, es = [o] ∧ Xs = [X] ∧ o ∉ p_objs (pd_cxt d) ∧ bounds M cl X ∧ i.1 ⊆ X.1 ∧ ¬ i.2 ⊆ X.2
     end) →
  ∃ d, new_pdb p L (λ _, true) = Ok d ∧
    ∀ fuel, S (length (p_atts p)) * 2 ^ length (p_atts p) ≤ fuel → ∃ d', pexplore fuel 0 expert d = (d', Ok tt) ∧
      pd_open d' = [] ∧ ∀ i, i.1 ⊆ M → i.2 ⊆ M → (entails (pd_imps d') i ↔ i.2 ⊆ cl i.1).
Proof.
  intros M Hp Hc Hne Hcl Hb HL Hexp.
  destruct (pexplore_final (p_atts p) (partial_NoDup p Hp) Hc cl Hcl (λ m, m) (symmetry_id _ _) (λ _, true) ltac:(by left) expert) with (p := p) (L := L)
    as (d & Hd & Hend).
  - intros k d i H1 H2. destruct (Hexp k d i H1 H2) as (a & Ea & Ha). exists a. split; [done|]. destruct a as [l|es Xs].
    + destruct Ha as (-> & Ha). split; [left|]. split; [|apply mirrored_imps_id]. by intros j ->%elem_of_list_singleton.
    + destruct Ha as (o & X & -> & -> & Ho & HX & H3 & H4). split; [apply NoDup_singleton|]. split; [by intros ? ->%elem_of_list_singleton|].
      split; [done|]. split; [by intros ? ->%elem_of_list_singleton|]. split; [apply mirrored_pairs_id|]. exists X, []. done.
  - split; [done|done|done|]. intros X (g & Hg & ->)%elem_rows. split; [|by apply Hb]. intros m Hm%row_atts. rewrite (ok_qa _ Hp) in Hm.
    by apply elem_of_list_to_set.
  - apply mirrored_pairs_id.
  - done.
  - apply mirrored_imps_id.
  - exists d. split; [done|]. intros fuel Hf. destruct (Hend fuel Hf) as (d' & H1 & H2 & H3 & _). eauto.
Qed.

(** ** A truthful expert *)
Section knows.
  Context (ms : list name) (cl : gset name → gset name).
  Local Notation M := (list_to_set ms : gset name).
  Context (Hcl : closure_op M cl) (s : name → name) (Hs : symmetry M cl s).
  Lemma mirror_valid A B : A ⊆ M → B ⊆ M → B ⊆ cl A → mirror s B ⊆ cl (mirror s A).
  Proof.
    intros HA HB H. set (Z := cl (mirror s A)). pose proof (mir_sub ms cl s Hs A HA) as HmA.
    assert (Z ⊆ M) as HZ by by apply (cl_sub _ _ Hcl). assert (cl Z = Z) as EZ by by apply (cl_idem _ _ Hcl).
    apply (mir_sub_l ms cl s Hs); [done|done|]. etrans; [exact H|]. rewrite <-(sy_cl _ _ _ Hs Z HZ EZ).
    apply (cl_mono _ _ Hcl); [|by apply (mir_sub ms cl s Hs)]. apply (mir_sub_l ms cl s Hs); [done|done|]. by apply (cl_ext _ _ Hcl).
  Qed.
  Lemma mirror_bounds C P : bounds M cl (C, P) → bounds M cl (mirror s C, mirror s P).
  Proof.
    intros (HP & Y & H1 & H2 & E). cbn [fst snd] in *. split; [by apply (mir_sub ms cl s Hs)|]. exists (mirror s Y).
    split; [by apply mir_mono|]. split; [by apply mir_mono|]. apply (sy_cl _ _ _ Hs); [by etrans|done].
  Qed.
  (** The partial example of bi_unars.py: only the attributes of the implication are decided. *)
  Lemma partial_bounds A B : A ⊆ M → B ⊆ M → bounds M cl (cl A ∩ (A ∪ B), (M ∖ (A ∪ B)) ∪ (cl A ∩ (A ∪ B))).
  Proof.
    intros HA HB. pose proof (cl_sub _ _ Hcl A HA) as Hc. split; cbn [fst snd]; [set_solver|]. exists (cl A).
    split; [set_solver|]. split; [|by apply (cl_idem _ _ Hcl)]. intros m Hm. destruct (decide (m ∈ A ∪ B)); set_solver.
  Qed.
End knows.

(** ** Adding an example *)
Lemma partial_respects i (X : gset name * gset name) : X.1 ⊆ X.2 →
  is_respected_partial i X = true ↔ ∃ Y, X.1 ⊆ Y ∧ Y ⊆ X.2 ∧ respects Y i.
Proof.
  intros HX. unfold is_respected_partial. rewrite orb_true_iff, negb_true_iff, bool_decide_eq_true, bool_decide_eq_false. unfold conclusion. split.
  - intros [H|H].
    + exists X.2. split; [done|]. split; [done|]. intros Hp m Hm. destruct (decide (m ∈ i.1)); [by apply Hp|]. apply H. set_solver.
    + exists X.1. split; [done|]. split; [done|]. by intros ?.
  - intros (Y & H1 & H2 & H3). destruct (decide (i.1 ⊆ X.1)) as [H|H]; [left|by right].
    assert (i.2 ⊆ Y) by (apply H3; by etrans). set_solver.
Qed.
Lemma pd_add_refused o X d : X.1 ⊆ X.2 → (∃ i, i ∈ pd_imps d ∧ ∀ Y, X.1 ⊆ Y → Y ⊆ X.2 → ¬ respects Y i) →
  pdstep (PDAddExample o X) d = (d, Err IllegalContextModification).
Proof.
  intros HX (i & Hi & H). unfold pdstep, pd_add_example, check_partial. destruct (forallb _ _) eqn:E; [|done]. exfalso.
  rewrite forallb_forall in E. apply elem_of_list_In in Hi. apply E in Hi. apply partial_respects in Hi as (Y & H1 & H2 & H3); [|done]. by apply (H Y).
Qed.
Lemma check_partial_spec L X : X.1 ⊆ X.2 → (∀ i, i ∈ L → ∃ Y, X.1 ⊆ Y ∧ Y ⊆ X.2 ∧ respects Y i) → check_partial L X = Ok tt.
Proof.
  intros HX H. unfold check_partial. rewrite (proj2 (forallb_forall _ _)); [done|]. intros i Hi%elem_of_list_In. apply partial_respects; auto.
Qed.
Lemma pd_add_taken o X d : X.1 ⊆ X.2 → (∀ i, i ∈ pd_imps d → ∃ Y, X.1 ⊆ Y ∧ Y ⊆ X.2 ∧ respects Y i) → o ∈ p_objs (pd_cxt d) →
  pdstep (PDAddExample o X) d = (d, Err NotUniqueObjectName).
Proof.
  intros HX H Ho. unfold pdstep, pd_add_example. rewrite check_partial_spec by done. cbn [guarded]. by rewrite bool_decide_true.
Qed.
Lemma pd_add_ok o X d : let M : gset name := list_to_set (p_atts (pd_cxt d)) in
  partial_ok (pd_cxt d) → comparable (p_atts (pd_cxt d)) = true → (∀ i, i ∈ pd_imps d → i.1 ⊆ M ∧ i.2 ⊆ M) →
  X.1 ⊆ X.2 → X.2 ⊆ M → (∀ i, i ∈ pd_imps d → ∃ Y, X.1 ⊆ Y ∧ Y ⊆ X.2 ∧ respects Y i) → o ∉ p_objs (pd_cxt d) →
  ∃ d', pdstep (PDAddExample o X) d = (d', Ok tt) ∧ partial_ok (pd_cxt d') ∧ p_objs (pd_cxt d') = p_objs (pd_cxt d) ++ [o] ∧
    p_atts (pd_cxt d') = p_atts (pd_cxt d) ∧ rows (pd_cxt d') = rows (pd_cxt d) ++ [X] ∧ pd_imps d' = pd_imps d ∧ pd_cond d' = pd_cond d ∧
    compute_partial_dg_basis (pd_cxt d') (Some (pd_imps d')) (pd_cond d') = Ok (pd_open d').
Proof.
  intros M Hp Hcmp HL HX HM H Ho. destruct (p_add_spec (pd_cxt d) X.1 X.2 o) as (p & Ep & Hp' & Eo & Ea & Ex & Eq & Hold); [done..|].
  assert (p_add_object_with_intent (pd_cxt d) X o = (p, Ok tt)) as Ep' by (by destruct X).
  destruct (partial_basis_cond p Hp' ltac:(rewrite Eo; by destruct (p_objs (pd_cxt d))) ltac:(by rewrite Ea) (pd_imps d) ltac:(by rewrite Ea) (pd_cond d)) as (R & HR & _).
  exists (PDB p (pd_imps d) (pd_cond d) R). split.
  { unfold pdstep, pd_add_example. rewrite check_partial_spec by done. cbn [guarded]. rewrite bool_decide_false by done.
    rewrite Ep'. cbn [fst snd]. unfold pdecorated, pd_refresh. cbn [pd_cxt pd_imps pd_cond]. by rewrite HR. }
  cbn [pd_cxt pd_imps pd_cond pd_open]. split; [done|]. split; [done|]. split; [done|]. split; [|done].
  unfold rows. rewrite Eo, map_app. f_equal.
  - apply map_ext_in. intros g Hg%elem_of_list_In. unfold prow. destruct (Hold g) as [-> ->]; [by intros ->|done].
  - cbn. unfold prow. rewrite Ex, Eq. by destruct X.
Qed.
