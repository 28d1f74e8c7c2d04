(** * minimize turns a complete list with full conclusions into the canonical basis *)
From Verif Require Import Py Spec PyFacts SpecFacts DgSpec ContextModel ContextSpec ContextFacts ClosureModel ClosureFacts CoverSpec CoverModel CoverFacts
  AiRound AiFinal.

(** The conclusion together with the premise. *)
Definition full (i : fimp) : fimp := (i.1, i.1 ∪ i.2).
Lemma respects_full X i : respects X (full i) ↔ respects X i.
Proof. unfold respects, full. cbn [fst snd]. set_solver. Qed.
Lemma model_full L X : model_of (map full L) X ↔ model_of L X.
Proof.
  unfold model_of. split.
  - intros H j Hj. apply respects_full, H. apply elem_of_list_fmap. by exists j.
  - intros H j Hj. apply elem_of_list_fmap in Hj as (i & -> & Hi). apply respects_full. by apply H.
Qed.
Lemma map_fst_full L : map fst (map full L) = map fst L.
Proof. rewrite map_map. by apply map_ext. Qed.

(** Closed under the other implications and without superfluous ones. *)
Lemma saturated_family M cl (R : list fimp) : closure_op M cl →
  (∀ i, i ∈ R → i.1 ⊆ M ∧ cl i.1 = i.1 ∪ i.2) → (∀ X, X ⊆ M → model_of R X → cl X = X) →
  (∀ k i, R !! k = Some i → ¬ entails (delete k R) i) → (∀ k i, R !! k = Some i → model_of (delete k R) i.1) →
  NoDup (map fst R) ∧ pseudo_family M cl [] (λ P, P ∈ map fst R).
Proof.
  intros Hcl Hx Hc Hirr Hsat.
  assert (∀ k l i j, R !! k = Some i → R !! l = Some j → k ≠ l → j ∈ delete k R) as Hdel.
  { intros k l i j Hk Hl Hn. apply elem_of_list_lookup. destruct (decide (l < k)).
    - exists l. by rewrite lookup_delete_lt.
    - exists (pred l). rewrite lookup_delete_ge by lia. by replace (S (pred l)) with l by lia. }
  assert (∀ k l i j, R !! k = Some i → R !! l = Some j → k ≠ l → j.1 ⊆ i.1 → j.2 ⊆ i.1) as Hq.
  { intros k l i j Hk Hl Hn Hs. by apply (Hsat k i Hk j (Hdel k l i j Hk Hl Hn)). }
  assert (∀ k i, R !! k = Some i → ¬ i.2 ⊆ i.1) as Hne.
  { intros k i Hk Hs. apply (Hirr k i Hk). intros X _ Hp. set_solver. }
  split.
  - apply NoDup_alt. intros k l P Hk Hl. rewrite list_lookup_fmap in Hk, Hl.
    apply fmap_Some in Hk as (i & Hk & ->), Hl as (j & Hl & E). destruct (decide (k = l)); [done|exfalso].
    apply (Hne l j Hl). rewrite <-E. apply (Hq k l i j Hk Hl); [done|by rewrite E].
  - rewrite <-map_fst_full. apply quasi_family; [done| | |].
    + intros i' Hi. apply elem_of_list_fmap in Hi as (i & -> & Hi). destruct (Hx i Hi) as [H1 H2]. cbn [full fst snd].
      split; [done|]. split; [done|]. apply elem_of_list_lookup in Hi as (k & Hk). intros E. apply (Hne k i Hk). set_solver.
    + intros X HX Hm. apply Hc; [done|]. by apply model_full.
    + intros i' j' Hi Hj Hs. apply elem_of_list_fmap in Hi as (i & -> & Hi), Hj as (j & -> & Hj). cbn [full fst snd] in *.
      apply elem_of_list_lookup in Hi as (k & Hk), Hj as (l & Hl). assert (k ≠ l).
      { intros ->. rewrite Hk in Hl. injection Hl as ->. by destruct Hs as [_ []]. }
      pose proof (Hq k l i j Hk Hl ltac:(done) ltac:(apply Hs)). destruct Hs as [Hs _]. set_solver.
Qed.

Section canon.
  Context (M : gset name) (HM : comparable (elements M) = true) (cl : gset name → gset name) (Hcl : closure_op M cl).
  Lemma minimize_canon cover h : NoDup cover →
    (∀ r, r ∈ cover → (h r).1 ⊆ M ∧ cl (h r).1 = (h r).1 ∪ (h r).2) →
    (∀ X, X ⊆ M → model_of (map h cover) X → cl X = X) →
    ∃ cover' h', minimize cover h = Ok (cover', h') ∧ NoDup (map fst (map h' cover')) ∧
      pseudo_family M cl [] (λ P, P ∈ map fst (map h' cover')) ∧
      (∀ i, i ∈ map h' cover' → i.1 ⊆ M ∧ cl i.1 = i.1 ∪ i.2).
  Proof using HM Hcl.
    intros Hnd Hh Hc.
    assert (∀ r, r ∈ cover → (h r).1 ⊆ M ∧ (h r).2 ⊆ M) as Hov.
    { intros r Hr. destruct (Hh r Hr) as [H1 H2]. split; [done|]. pose proof (cl_sub _ _ Hcl _ H1). set_solver. }
    destruct (minimize_main M HM cover h Hnd Hov) as (cover' & h' & E & Hsl & Hmd & Hirr & Hsat & Hlow & _).
    exists cover', h'. split; [done|].
    assert (∀ X, X ⊆ M → cl X = X → model_of (map h cover) X) as Hm.
    { intros X HX EX j Hj Hs. apply elem_of_list_fmap in Hj as (r & -> & Hr). destruct (Hh r Hr) as [H1 H2].
      pose proof (cl_mono _ _ Hcl _ _ Hs HX). rewrite EX in H. set_solver. }
    assert (∀ i, i ∈ map h' cover' → i.1 ⊆ M ∧ cl i.1 = i.1 ∪ i.2) as Hx.
    { intros i Hi. apply elem_of_list_fmap in Hi as (r & -> & Hr). assert (r ∈ cover) as Hr' by by eapply elem_of_submseteq, sublist_submseteq.
      destruct (Hh r Hr') as [H1 H2]. destruct (Hlow r) as (-> & H3 & H4).
      pose proof (cl_sub _ _ Hcl _ H1) as H5. pose proof (cl_ext _ _ Hcl _ H1) as H6.
      assert ((h' r).1 ⊆ cl (h r).1) as H7.
      { apply H4; [|done]. apply Hm; [done|]. by apply (cl_idem _ _ Hcl). }
      split; [by etrans|]. apply (anti_symm (⊆)).
      - pose proof (cl_mono _ _ Hcl _ _ H7 H5) as H8. rewrite (cl_idem _ _ Hcl) in H8 by done. set_solver.
      - assert ((h' r).1 ⊆ M) as H9 by by etrans. pose proof (cl_mono _ _ Hcl _ _ H3 H9). pose proof (cl_ext _ _ Hcl _ H9). set_solver. }
    destruct (saturated_family M cl (map h' cover') Hcl Hx) as [H1 H2]; [|done|done|done].
    intros X HX HmX. apply Hc; [done|]. by apply Hmd.
  Qed.
End canon.
