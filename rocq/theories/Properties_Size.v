(** * How many concepts and implications there are: the final statements (C131) *)
From Verif Require Import Py Spec PyFacts SpecFacts ContextModel ContextSpec ContextOps ContextFacts ContextInit
  ContextMisc ContextReduce ContextFinal ClosureModel ClosureFacts DgSpec DgModel DgFacts DgMain DgCons DgCxt DgFinal LatticeSpec LatticeModel
  NorrisFacts LatticeFacts FilterModel FilterFacts CrossFacts SizeFacts
  Properties_Context Properties_Closure Properties_Dg Properties_Lattice Properties_Cross Properties_Cross2.
Local Open Scope nat_scope.

(** The concepts are at most as many as the sets of objects and the sets of attributes;
    together with the implications of the basis at most as many as the sets of attributes. *)
Theorem C131_bounds c ords : good c → comparable (atts c) = true → (∀ s L k X, ords s L k X ≡ₚ elements X) →
  ∃ cs R, norris c = Ok cs ∧ compute_dg_basis c ords (Some []) always = Ok R ∧
    length cs ≤ 2 ^ length (objs c) ∧ length cs + length R ≤ 2 ^ length (atts c).
Proof.
  intros Hg Hc Ho. destruct (C31_norris c Hg) as (cs & Hcs & _).
  destruct (C23_dg_basis c ords Hg Hc Ho) as (R & HR & _ & _ & HP & HS).
  exists cs, R. split; [done|]. split; [done|]. split; [by apply norris_bounds|].
  assert (length cs + length R = length (map snd cs ++ map fst R)) as -> by by rewrite app_length, !map_length.
  apply subsets_le.
  - apply NoDup_app. split; [by eapply concepts_snd|]. split.
    + intros S ([A B] & -> & HC)%elem_of_list_fmap HF. apply (proj2 (norris_of c cs Hg Hcs)) in HC. simpl in HF.
      apply HP in HF as (_ & _ & HN & _). apply HN. symmetry. apply concept_intent. by exists A.
    + clear -HS. destruct (C23_lectic_strict (atts c)) as [_ Hirr].
      induction HS as [|P L _ IH HF]; [constructor|]. constructor; [|done].
      intros HPL. rewrite Forall_forall in HF. by apply (Hirr P), HF.
  - intros S [([A B] & -> & HC)%elem_of_list_fmap|HF]%elem_of_app.
    + apply (proj2 (norris_of c cs Hg Hcs)) in HC. by destruct HC as (_ & HB & _).
    + by apply HP in HF as [HM _].
Qed.
Print Assumptions C131_bounds.

(** A new object or attribute at most doubles the number of concepts; the number of concepts stays
    the same exactly if the row was an intent already (the column an extent). *)
Theorem C131_added_object c J o : good c → o ∉ objs c →
  ∃ c' cs cs', add_object_with_intent c J o = (c', Ok tt) ∧ norris c = Ok cs ∧ norris c' = Ok cs' ∧
    length cs ≤ length cs' ≤ 2 * length cs ∧
    (length cs' = length cs ↔ J ∩ fM (abs c) ∈ map snd cs).
Proof.
  intros Hg Ho. destruct (C123_added_object c J o Hg Ho) as (c' & E & Hg' & (cs & cs' & H1 & H2 & HB & _) & _).
  exists c', cs, cs'. split; [done|]. split; [done|]. split; [done|].
  pose proof (concepts_snd c cs Hg H1) as N1. pose proof (concepts_snd c' cs' Hg' H2) as N2.
  assert (∀ B, B ∈ map snd cs → B ⊆ fM (abs c) ∧ acl (abs c) B = B) as HI.
  { intros B ([A B'] & -> & HC)%elem_of_list_fmap. apply (proj2 (norris_of c cs Hg H1)) in HC. apply concept_intent. by exists A. }
  assert (∀ B, B ⊆ fM (abs c) → acl (abs c) B = B → B ∈ map snd cs) as HI'.
  { intros B HB1 HB2. destruct (proj2 (concept_intent (abs c) B) (conj HB1 HB2)) as [A HA].
    apply elem_of_list_fmap. exists (A, B). split; [done|]. by apply (proj2 (norris_of c cs Hg H1)). }
  assert (map snd cs ⊆+ map snd cs') as Hsub.
  { apply NoDup_submseteq; [done|]. intros B H. apply HB. by left. }
  rewrite <-(map_length snd cs), <-(map_length snd cs'). split; [split|].
  - by apply submseteq_length.
  - apply (twice_le (λ B, B ∩ J)); [done|]. intros B H. by apply HB.
  - pose proof (acl_closure_op (abs c)) as Hop. split.
    + intros Hl. pose proof (submseteq_Permutation_length_eq _ _ Hl Hsub) as Hp.
      rewrite Hp. apply HB. right. exists (fM (abs c)). split; [|set_solver].
      apply HI'; [done|]. apply (anti_symm (⊆)); [by apply (cl_sub _ _ Hop)|by apply (cl_ext _ _ Hop)].
    + intros HJ. apply Permutation_length. apply NoDup_Permutation; [done..|]. intros B. rewrite HB. split; [|by left].
      intros [?|(B0 & HB0 & ->)]; [done|]. destruct (HI B0 HB0) as [S0 C0]. destruct (HI _ HJ) as [S1 C1].
      assert (B0 ∩ J = B0 ∩ (J ∩ fM (abs c))) as -> by set_solver.
      apply HI'; [set_solver|]. apply (anti_symm (⊆)).
      * apply intersection_greatest.
        -- transitivity (acl (abs c) B0); [|by rewrite C0]. apply (cl_mono _ _ Hop); [clear; set_solver|done].
        -- transitivity (acl (abs c) (J ∩ fM (abs c))); [|by rewrite C1]. apply (cl_mono _ _ Hop); [clear; set_solver|done].
      * apply (cl_ext _ _ Hop). clear -S0. set_solver.
Qed.
Print Assumptions C131_added_object.

Theorem C131_added_attribute c X a : good c → objs c ≠ [] → a ∉ atts c →
  ∃ c' cs cs', add_attribute_with_extent c X a = (c', Ok tt) ∧ norris c = Ok cs ∧ norris c' = Ok cs' ∧
    length cs ≤ length cs' ≤ 2 * length cs.
Proof.
  intros Hg Hne Ha. destruct (C123_added_attribute c X a Hg Hne Ha) as (c' & E & Hg' & (cs & cs' & H1 & H2 & HA) & _).
  exists c', cs, cs'. split; [done|]. split; [done|]. split; [done|].
  pose proof (concepts_fst c cs Hg H1) as N1. pose proof (concepts_fst c' cs' Hg' H2) as N2.
  rewrite <-(map_length fst cs), <-(map_length fst cs'). split.
  - apply submseteq_length, NoDup_submseteq; [done|]. intros A H. apply HA. by left.
  - apply (twice_le (λ B, B ∩ X)); [done|]. intros B H. by apply HA.
Qed.
Print Assumptions C131_added_attribute.

(** Deleting an object at most halves the number of concepts, deleting [k] attributes
    leaves at least one in [2 ^ k]. *)
Theorem C131_deleted_object c o : good c → o ∈ objs c →
  ∃ c' cs cs', delete_object c o = (c', Ok tt) ∧ norris c = Ok cs ∧ norris c' = Ok cs' ∧
    length cs' ≤ length cs ≤ 2 * length cs'.
Proof.
  intros Hg Ho. destruct (C124_deleted_object c o Hg Ho) as (c' & J & E & Hg' & _ & (cs & cs' & H1 & H2 & HA & HB) & _).
  exists c', cs, cs'. split; [done|]. split; [done|]. split; [done|]. split.
  - rewrite <-(map_length snd cs), <-(map_length snd cs'). apply submseteq_length, NoDup_submseteq; [exact (concepts_snd c' cs' Hg' H2)|].
    intros B ([A B'] & -> & HC)%elem_of_list_fmap. apply HB in HC as (A0 & HC & _).
    apply elem_of_list_fmap. by exists (A0, B').
  - rewrite <-(map_length fst cs), <-(map_length fst cs').
    transitivity (length (map (λ A, (A, true)) (map fst cs') ++ map (λ A, (A, false)) (map fst cs')));
      [|rewrite app_length, !map_length; lia].
    apply (image_le (λ A, (A ∖ {[o]}, bool_decide (o ∈ A)))); [exact (concepts_fst c cs Hg H1)| |].
    + intros A A' _ _ Heq. pose proof (f_equal fst Heq) as E1. pose proof (f_equal snd Heq) as E2. cbn [fst snd] in E1, E2. clear Heq.
      assert (o ∈ A ↔ o ∈ A') as E2' by (rewrite <-(bool_decide_eq_true (o ∈ A)), <-(bool_decide_eq_true (o ∈ A')); by rewrite E2). apply set_eq. intros g.
      destruct (decide (g = o)) as [->|]; [done|]. clear -E1 n. set_solver.
    + intros A H. assert (A ∖ {[o]} ∈ map fst cs') as H' by (apply HA; by exists A).
      apply elem_of_app. case_bool_decide; [left|right]; apply elem_of_list_fmap; by exists (A ∖ {[o]}).
Qed.
Print Assumptions C131_deleted_object.

Theorem C131_deleted_attributes c ns : good c → objs c ≠ [] → NoDup ns → (∀ a, a ∈ ns → a ∈ atts c) →
  ∃ c' cs cs', delete_attributes c ns = (c', Ok tt) ∧ norris c = Ok cs ∧ norris c' = Ok cs' ∧
    length cs' ≤ length cs ≤ 2 ^ length ns * length cs'.
Proof.
  intros Hg Hne Hn Hns. destruct (C124_deleted_attributes c ns Hg Hne Hn Hns) as (c' & E & Hg' & (cs & cs' & H1 & H2 & HB & HA) & _).
  exists c', cs, cs'. split; [done|]. split; [done|]. split; [done|]. split.
  - rewrite <-(map_length fst cs), <-(map_length fst cs'). apply submseteq_length, NoDup_submseteq; [exact (concepts_fst c' cs' Hg' H2)|].
    intros A ([A' B] & -> & HC)%elem_of_list_fmap. apply HA in HC as (B0 & HC & _).
    apply elem_of_list_fmap. by exists (A', B0).
  - rewrite <-(map_length snd cs), <-(map_length snd cs'), <-length_subs, <-prod_length.
    apply (image_le (λ B, (B ∩ list_to_set ns, B ∖ list_to_set ns))); [exact (concepts_snd c cs Hg H1)| |].
    + intros B B' _ _ Heq. pose proof (f_equal fst Heq) as E1. pose proof (f_equal snd Heq) as E2. cbn [fst snd] in E1, E2. clear Heq. apply set_eq. intros m.
      destruct (decide (m ∈ (list_to_set ns : gset name))); [clear -E1 e|clear -E2 n]; set_solver.
    + intros B H. apply elem_of_list_In, in_prod; apply elem_of_list_In.
      * apply elem_of_subs_l. set_solver.
      * apply HB. by exists B.
Qed.
Print Assumptions C131_deleted_attributes.

(** ** Cases: the bounds are reached *)
Definition szx := get_ok empty_cxt
  (mk_context [[false; true; true]; [true; false; true]; [true; true; false]] None [o1; o2; o3] [sa; sb; sc]).
Example szx_good : good szx.
Proof.
  eapply (mk_context_good [[false; true; true]; [true; false; true]; [true; true; false]] None); [by apply get_ok_eq| | |done];
    by apply (bool_decide_unpack _).
Qed.
Example C131_case : comparable (atts szx) = true ∧ length (get_ok [] (norris szx)) = 2 ^ length (objs szx) ∧
  length (get_ok [] (norris szx)) = 2 ^ length (atts szx) ∧
  compute_dg_basis szx elts (Some []) always = Ok [] ∧
  length (get_ok [] (norris (delete_object szx o1).1)) = 4 ∧
  length (get_ok [] (norris (delete_attributes szx [sa; sc]).1)) = 2.
Proof. vm_compute. repeat split; reflexivity. Qed.
(** Without objects there is one concept and one implication. *)
Example C131_case_none : length (get_ok [] (norris dg0)) = 1 ∧ length (get_ok [] (compute_dg_basis dg0 elts (Some []) always)) = 1.
Proof. vm_compute. split; reflexivity. Qed.
