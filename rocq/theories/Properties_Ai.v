(** * The attribute-incremental basis: the final statements (C51) *)
From Verif Require Import Py Spec PyFacts SpecFacts DgSpec ContextModel ContextSpec ContextOps ContextFacts ContextInit
  ContextFinal ClosureModel ClosureFacts DgModel DgFacts DgMain DgCons DgCxt DgFinal AiModel AiFacts AiRound AiFinal
  Properties_Context Properties_Closure Properties_Dg.

(** [srt i] is whatever [list.sort] makes of the list in round [i]. *)
Theorem C51_sound_complete c srt : good c → comparable (atts c) = true → objs c ≠ [] → (∀ i l, srt i l ≡ₚ l) →
  ∃ R, compute_canonical_basis srt c = Ok R ∧
    (∀ i, i ∈ R → i.1 ⊆ fM (abs c) ∧ i.2 = acl (abs c) i.1 ∧ i.1 ≠ i.2 ∧ holds (abs c) i) ∧
    NoDup (map fst R) ∧
    (∀ i, i.1 ⊆ fM (abs c) → i.2 ⊆ fM (abs c) → holds (abs c) i → entails R i).
Proof.
  intros Hg Hc Ho Hs. destruct (canonical_ok c Hg Hc Ho srt Hs) as (R & H1 & H2 & H3 & H4 & _).
  exists R. split; [exact H1|]. split; [|split; [exact H3|exact (canonical_entails _ R H2 H4)]].
  intros [P C] Hi. destruct (H2 _ Hi) as (e1 & e2 & e3). cbn in *. repeat (split; [done|]). subst C. apply acl_holds; [done|apply acl_sub|done].
Qed.
Print Assumptions C51_sound_complete.

(** When no list sorted on the way has a set before a proper subset of it, the
    result is the Duquenne-Guigues basis. *)
Theorem C51_canonical c srt : good c → comparable (atts c) = true → objs c ≠ [] → (∀ i l, srt i l ≡ₚ l) →
  (∀ i l a b p q, srt i l !! a = Some p → srt i l !! b = Some q → a < b → ¬ pset q ⊂ pset p) →
  ∃ R R', compute_canonical_basis srt c = Ok R ∧ compute_dg_basis c elts (Some []) always = Ok R' ∧ R ≡ₚ R' ∧
    pseudo_family (fM (abs c)) (acl (abs c)) [] (λ P, P ∈ map fst R).
Proof.
  intros Hg Hc Ho Hs Ht. destruct (canonical_ok c Hg Hc Ho srt Hs) as (R & H1 & H2 & H3 & H4 & H5).
  destruct (C23_dg_basis c elts Hg Hc elts_perm) as (R' & h1 & _ & h2 & h3 & h4).
  assert (quasi R) as Hq.
  { apply H5. intros i l a b X Y Ha Hb. rewrite list_lookup_fmap in Ha. rewrite list_lookup_fmap in Hb.
    apply fmap_Some in Ha as (p & Ha & ->), Hb as (q & Hb & ->). by apply (Ht i l a b). }
  pose proof (quasi_family _ _ R (acl_closure_op (abs c)) H2 H4 Hq) as Hf.
  exists R, R'. split; [exact H1|]. split; [exact h1|]. split; [|exact Hf].
  apply (exact_perm (abs c)); [exact H3| | |exact h2|].
  - clear -h4. induction h4 as [|P l HS IH HP]; [constructor|]. constructor; [|done].
    intros H. rewrite Forall_forall in HP. by eapply lectic_irrefl, HP.
  - intros i Hi. by destruct (H2 i Hi) as (_ & ? & _).
  - intros P. exact (pseudo_family_unique _ _ _ _ _ P Hf h3).
Qed.
Print Assumptions C51_canonical.

(** Python compares the sets by proper inclusion, which is a partial order, and
    [list.sort] leaves a set before its subset: for some contexts the result is not
    the Duquenne-Guigues basis and has an implication following from the others. *)
Definition aix_table := [[true; true; false; true; false]; [false; false; false; true; false]; [true; false; true; true; true]].
Definition aix := get_ok empty_cxt (mk_context aix_table None [o1; o2; o3] [sa; sb; sc; sd; se]).
Example aix_built : mk_context aix_table None [o1; o2; o3] [sa; sb; sc; sd; se] = Ok aix.
Proof. reflexivity. Qed.
Example aix_good : good aix.
Proof.
  eapply (mk_context_good aix_table None); [apply aix_built| | |done]; by apply (bool_decide_unpack _).
Qed.
Definition cpython_sort : nat → list pre → list pre := λ _, short_sort pre_lt.
Definition aix_basis : list fimp :=
  [(∅, {[sd]}); ({[sb; sd]}, {[sa; sb; sd]}); ({[sd; se]}, {[sa; sc; sd; se]}); ({[sa; sc; sd]}, {[sa; sc; sd; se]});
   ({[sc; sd]}, {[sa; sc; sd; se]})].
Definition aix_dg : list fimp :=
  [(∅, {[sd]}); ({[sd; se]}, {[sa; sc; sd; se]}); ({[sc; sd]}, {[sa; sc; sd; se]}); ({[sb; sd]}, {[sa; sb; sd]})].
Lemma cpython_sort_perm i l : cpython_sort i l ≡ₚ l.
Proof. exact (short_sort_perm pre_lt l). Qed.
Theorem C51_canonical_refuted : ∃ c R R', good c ∧ comparable (atts c) = true ∧
  compute_canonical_basis cpython_sort c = Ok R ∧ compute_dg_basis c elts (Some []) always = Ok R' ∧
  length R' < length R ∧ ∃ R1 i R2, R = R1 ++ i :: R2 ∧ entails (R1 ++ R2) i.
Proof.
  exists aix, aix_basis, aix_dg. split; [exact aix_good|]. split; [reflexivity|]. split; [dec|]. split; [dec|]. split; [vm_compute; lia|].
  exists (take 3 aix_basis), ({[sa; sc; sd]}, {[sa; sc; sd; se]}), (drop 4 aix_basis). split; [reflexivity|].
  intros X HX Hs. cbn in Hs. assert (({[sc; sd]} : gset name, {[sa; sc; sd; se]} : gset name) ∈ take 3 aix_basis ++ drop 4 aix_basis) as Hi.
  { cbn. rewrite !elem_of_cons. tauto. }
  apply (HX _ Hi). cbn. set_solver.
Qed.
Print Assumptions C51_canonical_refuted.

(** A context with attributes and without objects: [IndexError], whatever the order,
    where [compute_dg_basis] answers; without attributes there is nothing to do. *)
Theorem C51_no_objects ms srt c : mk_context [] None [] ms = Ok c → ms ≠ [] →
  compute_canonical_basis srt c = Err IndexError.
Proof. exact (canonical_no_objects ms srt c). Qed.
Print Assumptions C51_no_objects.
Theorem C51_no_attributes srt c : atts c = [] → compute_canonical_basis srt c = Ok [].
Proof. intros H. unfold compute_canonical_basis. by rewrite H. Qed.
Print Assumptions C51_no_attributes.

(** Concrete cases: the example of [C23], sorted by CPython, and by size. *)
Example C51_case : comparable (atts dgx) = true ∧ objs dgx ≠ [] ∧ (∀ i l, cpython_sort i l ≡ₚ l) ∧
  ∃ R, compute_canonical_basis cpython_sort dgx = Ok R ∧ length R = 6 ∧ ∀ i, i ∈ dgx_basis → i ∈ R.
Proof.
  split; [reflexivity|]. split; [done|]. split; [exact cpython_sort_perm|].
  exists (get_ok [] (compute_canonical_basis cpython_sort dgx)). split; [apply get_ok_eq; vm_compute; done|].
  split; [dec|]. apply Forall_forall. dec.
Qed.
Definition size_le (p q : pre) : Prop := size (pset p) ≤ size (pset q).
Global Instance size_le_dec : RelDecision size_le.
Proof. unfold size_le. solve_decision. Defined.
Example C51_by_size : ∃ srt : nat → list pre → list pre, (∀ i l, srt i l ≡ₚ l) ∧
  ∀ i l a b p q, srt i l !! a = Some p → srt i l !! b = Some q → a < b → ¬ pset q ⊂ pset p.
Proof.
  exists (λ _, merge_sort size_le). split; [intros _ l; apply merge_sort_Permutation|].
  intros _ l a b p q Ha Hb Hab Hs.
  assert (StronglySorted size_le (merge_sort size_le l)) as HS.
  { apply StronglySorted_merge_sort; [intros ???; unfold size_le; lia|intros ??; unfold size_le; lia]. }
  assert (size (pset p) ≤ size (pset q)) as Hle.
  { revert a b Ha Hb Hab. induction HS as [|x k HS IH HF]; intros a b Ha Hb Hab; [done|]. destruct a as [|a], b as [|b]; cbn in *; try lia.
    - injection Ha as ->. rewrite Forall_forall in HF. apply HF. by eapply elem_of_list_lookup_2.
    - apply (IH a b); [done|done|lia]. }
  apply subset_size in Hs. lia.
Qed.
