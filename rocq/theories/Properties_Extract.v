(** * Subcontexts, their concepts and implications: the final statements (C137) *)
From Coq Require Import QArith Qcanon.
From Verif Require Import Py Spec PyFacts SpecFacts ContextModel ContextSpec ContextOps ContextFacts ContextInit
  ContextMisc ContextReduce ContextFinal ClosureModel LatticeSpec LatticeModel NorrisFacts LatticeFacts FilterModel FilterFacts FilterFacts2
  CrossFacts CrossFacts2 ExtractFacts Properties_Context Properties_Lattice Properties_Filter Properties_Stab.
Local Open Scope nat_scope.

(** ** C137 *)
(** The objects having all given attributes: the concepts are those whose intent contains the
    attributes, closures and implications are those under the assumption of the attributes. *)
Theorem C137_and c ns : good c → (∀ a, a ∈ ns → a ∈ atts c) →
  ∃ c', extract_subcontext_filtered_by_attributes c ns "and" = Ok c' ∧ good c' ∧
    (∃ cs cs', norris c = Ok cs ∧ norris c' = Ok cs' ∧ ∀ A B, (A, B) ∈ cs' ↔ (A, B) ∈ cs ∧ ∀ a, a ∈ ns → a ∈ B) ∧
    (∀ B, aclosure c' B = aclosure c (B ++ ns)) ∧
    (∀ i : fimp, holds (abs c') i ↔ holds (abs c) (i.1 ∪ list_to_set ns, i.2)).
Proof.
  intros Hg Hns. destruct (C10_extract_filtered c ns true (good_wf _ Hg) (good_distinct _ Hg) Hns) as (c' & E & Hg' & Ea & _ & Ho & Hi).
  exists c'. split; [exact E|]. split; [done|].
  assert (fM (abs c') = fM (abs c)) as HM by (simpl; by rewrite Ea).
  assert (∀ g m, (g, m) ∈ fI (abs c') ↔ g ∈ fG (abs c') ∧ (g, m) ∈ fI (abs c)) as HI.
  { intros g m. by rewrite !elem_of_fI, elem_of_fG, Hi. }
  assert (∀ g, g ∈ fG (abs c') ↔ g ∈ fG (abs c) ∧ ∀ m, m ∈ (list_to_set ns : gset name) → (g, m) ∈ fI (abs c)) as HG.
  { intros g. rewrite !elem_of_fG, Ho. split; intros [H1 H2]; (split; [done|]); intros m Hm; apply elem_of_fI, H2; [|by apply elem_of_list_to_set].
    by apply elem_of_list_to_set in Hm. }
  assert ((list_to_set ns : gset name) ⊆ fM (abs c)) as HN.
  { intros a Hin%elem_of_list_to_set. apply elem_of_fM. by apply Hns. }
  split; [|split].
  - destruct (C31_norris c Hg) as (cs & Hcs & _). destruct (C31_norris c' Hg') as (cs' & Hcs' & _).
    exists cs, cs'. split; [done|]. split; [done|].
    destruct (norris_of c cs Hg Hcs) as [_ M1]. destruct (norris_of c' cs' Hg' Hcs') as [_ M2].
    intros A B. rewrite M2, M1, (conj_concept (abs c) (abs c') HM HI _ HN HG).
    split; intros [H1 H2]; (split; [done|]); intros a Hin; [apply H2; by apply elem_of_list_to_set|apply H2; by apply elem_of_list_to_set in Hin].
  - intros B. destruct (decide (Forall (λ m, m ∈ atts c) B)) as [HB|HB].
    + rewrite Forall_forall in HB. rewrite (aclosure_spec c' Hg') by (by rewrite Ea).
      rewrite (aclosure_spec c Hg) by (intros m [Hm|Hm]%elem_of_app; auto). f_equal.
      rewrite (conj_acl (abs c) (abs c') HM HI _ HG). f_equal. by rewrite list_to_set_app_L.
    + apply not_Forall_Exists in HB; [|apply _]. apply Exists_exists in HB as (m & Hm & Hn).
      rewrite (aclosure_KeyError c'); [|apply Hg'|exists m; by rewrite Ea].
      rewrite (aclosure_KeyError c); [done|apply Hg|exists m; split; [apply elem_of_app; by left|done]].
  - intros i. apply (conj_holds (abs c) (abs c') HI _ HG).
Qed.
Print Assumptions C137_and.
(** These concepts keep their intensional stability. *)
Theorem C137_and_stability c ns c' l pop pop' : good c → (∀ a, a ∈ ns → a ∈ atts c) → comparable (objs c) = true → comparable (atts c) = true →
  extract_subcontext_filtered_by_attributes c ns "and" = Ok c' → mk_lattice c = Ok l →
  (∀ k W, W ≠ ∅ → pop k W ∈ W) → (∀ k W, W ≠ ∅ → pop' k W ∈ W) →
  ∃ l' st st', mk_lattice c' = Ok l' ∧ compute_istability pop (lconcepts l) = Ok st ∧ compute_istability pop' (lconcepts l') = Ok st' ∧
    ∀ A B, (A, B) ∈ lconcepts l → (∀ a, a ∈ ns → a ∈ B) →
      (A, B) ∈ lconcepts l' ∧ ∃ v, dget (A, B) st = Some v ∧ dget (A, B) st' = Some v.
Proof.
  intros Hg Hns Hco Hca E' Hl Hp Hp'.
  destruct (C10_extract_filtered c ns true (good_wf _ Hg) (good_distinct _ Hg) Hns) as (c1 & E & Hg' & Ea & Hs & Ho & Hi).
  assert (c1 = c') as -> by congruence.
  assert (comparable (objs c') = true) as Hco'.
  { clear -Ho Hco. unfold comparable in *. rewrite orb_true_iff, !forallb_forall in *. setoid_rewrite <-elem_of_list_In. setoid_rewrite <-elem_of_list_In in Hco.
    setoid_rewrite Ho. destruct Hco as [H|H]; [left|right]; intros x [Hx _]; by apply H. }
  destruct (C33_lattice c' Hg' Hco' ltac:(by rewrite Ea)) as (l' & Hl' & _).
  destruct (istab_sub c' c l' l pop' pop Hg' Hg Hco ltac:(by rewrite Ea) (eq_sym Ea)) as (st' & st & E1 & E2 & _ & H2); try done.
  { intros g H. by apply Ho in H as [? _]. }
  { intros g m H. rewrite Hi. tauto. }
  exists l', st, st'. do 3 (split; [done|]). intros A B HC HB.
  destruct (lattice_spec c Hg Hco Hca l Hl) as (_ & _ & Hcs & _). destruct (proj1 (Hcs A B) HC) as (c1 & c2 & c3 & c4).
  destruct (H2 A B HC) as [H3 (v & H4 & H5)]; [|split; [done|by exists v]].
  intros g Hin. rewrite <-c4 in Hin. apply elem_of_down in Hin as [Hin H]. apply elem_of_fG, Ho. split; [by apply elem_of_fG|].
  intros a Ha. apply elem_of_fI, H. by apply HB.
Qed.
Print Assumptions C137_and_stability.
(** The objects having at least one of the attributes: every intent was an intent; what follows is
    what follows with each of the attributes. *)
Theorem C137_or c ns : good c → (∀ a, a ∈ ns → a ∈ atts c) →
  ∃ c', extract_subcontext_filtered_by_attributes c ns "or" = Ok c' ∧ good c' ∧
    (∃ cs cs', norris c = Ok cs ∧ norris c' = Ok cs' ∧ ∀ A B, (A, B) ∈ cs' → ∃ A0, (A0, B) ∈ cs ∧ A = A0 ∩ list_to_set (objs c')) ∧
    (∀ B X, aclosure c' B = Ok X → ∀ m, m ∈ X ↔ m ∈ atts c ∧ ∀ a Y, a ∈ ns → aclosure c (B ++ [a]) = Ok Y → m ∈ Y) ∧
    (∀ i : fimp, holds (abs c') i ↔ ∀ a, a ∈ ns → holds (abs c) (i.1 ∪ {[a]}, i.2)).
Proof.
  intros Hg Hns. destruct (C10_extract_filtered c ns false (good_wf _ Hg) (good_distinct _ Hg) Hns) as (c' & E & Hg' & Ea & _ & Ho & Hi).
  exists c'. split; [exact E|]. split; [done|].
  assert (fM (abs c') = fM (abs c)) as HM by (simpl; by rewrite Ea).
  assert (∀ g m, (g, m) ∈ fI (abs c') ↔ g ∈ fG (abs c') ∧ (g, m) ∈ fI (abs c)) as HI.
  { intros g m. by rewrite !elem_of_fI, elem_of_fG, Hi. }
  assert (∀ g, g ∈ fG (abs c') ↔ g ∈ fG (abs c) ∧ ∃ m, m ∈ (list_to_set ns : gset name) ∧ (g, m) ∈ fI (abs c)) as HG.
  { intros g. rewrite !elem_of_fG, Ho. split; intros (H1 & m & H2 & H3); (split; [done|]); exists m.
    - split; [by apply elem_of_list_to_set|by apply elem_of_fI].
    - split; [by apply elem_of_list_to_set in H2|by apply elem_of_fI]. }
  split; [|split].
  - destruct (C31_norris c Hg) as (cs & Hcs & _). destruct (C31_norris c' Hg') as (cs' & Hcs' & _).
    exists cs, cs'. split; [done|]. split; [done|].
    destruct (norris_of c cs Hg Hcs) as [_ M1]. destruct (norris_of c' cs' Hg' Hcs') as [_ M2]. intros A B H%M2.
    destruct (restricted_intent (abs c) (abs c') HM HI A B) as [H1 H2]; [intros g H0; by apply HG in H0 as [? _]|done|].
    exists (down (abs c) B). split; [by apply M1|exact H2].
  - intros B X HX m. pose proof (aclosure_ok_sub c' B _ Hg' HX) as HB. rewrite (aclosure_spec c' Hg' B HB) in HX. rewrite Ea in HB.
    assert (X = acl (abs c') (list_to_set B)) as -> by congruence.
    rewrite (disj_acl (abs c) (abs c') HM HI _ HG), elem_of_fM.
    assert (∀ a, a ∈ ns → aclosure c (B ++ [a]) = Ok (acl (abs c) (list_to_set B ∪ {[a]}))) as Hcl.
    { intros a Hin. rewrite (aclosure_spec c Hg) by (intros x [Hx| ->%elem_of_list_singleton]%elem_of_app; auto).
      rewrite list_to_set_app_L. cbn [list_to_set]. by rewrite (right_id_L ∅ (∪)). }
    split; intros [H1 H2]; (split; [done|]).
    + intros a Y Hin HY. rewrite (Hcl a Hin) in HY. assert (Y = acl (abs c) (list_to_set B ∪ {[a]})) as -> by congruence.
      apply H2. by apply elem_of_list_to_set.
    + intros a Hin%elem_of_list_to_set. by apply (H2 a _ Hin), Hcl.
  - intros i. rewrite (disj_holds (abs c) (abs c') HI _ HG). by setoid_rewrite elem_of_list_to_set.
Qed.
Print Assumptions C137_or.
(** Some attributes only: intents and closures are restricted to them, every extent was an extent,
    implications between them hold as before. *)
Theorem C137_subcontext c ns : good c → NoDup ns → (∀ a, a ∈ ns → a ∈ atts c) →
  ∃ c', extract_subcontext c ns = Ok c' ∧ good c' ∧
    (∃ cs cs', norris c = Ok cs ∧ norris c' = Ok cs' ∧
       (∀ B, B ∈ map snd cs' ↔ ∃ B0, B0 ∈ map snd cs ∧ B = B0 ∩ list_to_set ns) ∧
       (∀ A B, (A, B) ∈ cs' → ∃ B0, (A, B0) ∈ cs ∧ B = B0 ∩ list_to_set ns)) ∧
    (∀ B X, (∀ m, m ∈ B → m ∈ ns) → aclosure c B = Ok X → aclosure c' B = Ok (X ∩ list_to_set ns)) ∧
    (∀ i : fimp, i.1 ⊆ list_to_set ns → i.2 ⊆ list_to_set ns → holds (abs c') i ↔ holds (abs c) i).
Proof.
  intros Hg Hn Hns. destruct (C10_extract_subcontext c ns (good_wf _ Hg) (good_distinct _ Hg) Hn Hns) as (c' & E & Hg' & Eo & Ea & Hi).
  exists c'. split; [done|]. split; [done|]. set (D := fM (abs c) ∖ list_to_set ns : gset name).
  assert (fG (abs c') = fG (abs c)) as HG by (simpl; by rewrite Eo).
  assert (fM (abs c') = list_to_set ns) as HMs by (simpl; by rewrite Ea).
  assert (∀ m, m ∈ fM (abs c') ↔ m ∈ fM (abs c) ∧ m ∉ D) as HM.
  { intros m. unfold D. rewrite HMs, elem_of_difference, elem_of_list_to_set, elem_of_fM. destruct (decide (m ∈ ns)); split; naive_solver. }
  assert (∀ g m, (g, m) ∈ fI (abs c') ↔ (g, m) ∈ fI (abs c) ∧ m ∉ D) as HI.
  { intros g m. unfold D. rewrite elem_of_difference, elem_of_list_to_set, !elem_of_fI, Hi. split.
    - intros [H1 H2]. split; [done|]. tauto.
    - intros [H1 H2]. split; [|done]. apply dec_stable. intros Hnot. apply H2. split; [|done]. by apply elem_of_fI, (abs_fwf c) in H1 as [_ ?]. }
  assert (∀ X, X ⊆ fM (abs c) → X ∖ D = X ∩ list_to_set ns) as HD.
  { intros X HX. unfold D. apply set_eq. intros m. rewrite elem_of_difference, elem_of_intersection, elem_of_difference.
    specialize (HX m). destruct (decide (m ∈ (list_to_set ns : gset name))); tauto. }
  split; [|split].
  - destruct (C31_norris c Hg) as (cs & Hcs & _). destruct (C31_norris c' Hg') as (cs' & Hcs' & _).
    exists cs, cs'. split; [done|]. split; [done|].
    destruct (norris_of c cs Hg Hcs) as [N1 M1]. destruct (norris_of c' cs' Hg' Hcs') as [N2 M2]. split.
    + intros B. rewrite elem_of_map_snd. setoid_rewrite M2. rewrite (deleted_intents (abs c) (abs c') _ HG HM HI).
      setoid_rewrite elem_of_map_snd. setoid_rewrite M1. split.
      * intros (A & B0 & H & ->). exists B0. split; [eauto|]. apply HD, H.
      * intros (B0 & [A H] & ->). exists A, B0. split; [done|]. symmetry. apply HD, H.
    + intros A B H%M2. destruct (deleted_extents (abs c) (abs c') _ HG HM HI A B H) as [H1 ->].
      exists (up (abs c) A). rewrite M1. split; [done|]. apply HD, up_sub.
  - intros B X HB HX. pose proof (aclosure_ok_sub c B _ Hg HX) as HB'.
    rewrite (aclosure_spec c Hg B HB') in HX. assert (X = acl (abs c) (list_to_set B)) as -> by congruence.
    rewrite (aclosure_spec c' Hg') by (by rewrite Ea). f_equal. rewrite <-HD by apply up_sub.
    apply (deleted_acl (abs c) (abs c') _ HG HM HI). intros m Hm%elem_of_list_to_set.
    rewrite HMs. apply elem_of_list_to_set. auto.
  - intros i H1 H2. apply (deleted_holds (abs c) (abs c') _ HG HM HI); by rewrite HMs.
Qed.
Print Assumptions C137_subcontext.

(** The objects of the example with b or c, with a and b, and the columns c, a. *)
Example C137_case :
  let sub f := get_ok [] (norris (get_ok empty_cxt f)) in
  sub (extract_subcontext_filtered_by_attributes ex [sb; sc] "or") =
    [(∅, {[sa; sb; sc]}); ({[o1]}, {[sa; sb]}); ({[o2]}, {[sa; sc]}); ({[o1; o2]}, {[sa]})] ∧
  sub (extract_subcontext_filtered_by_attributes ex [sb] "and") = [(∅, {[sa; sb; sc]}); ({[o1]}, {[sa; sb]})] ∧
  sub (extract_subcontext ex [sc; sa]) = [({[o2]}, {[sa; sc]}); ({[o1; o2; o3]}, {[sa]}); ({[o1; o2; o3; o4]}, ∅)] ∧
  aclosure (get_ok empty_cxt (extract_subcontext_filtered_by_attributes ex [sb; sc] "or")) [] = Ok {[sa]} ∧
  aclosure (get_ok empty_cxt (extract_subcontext_filtered_by_attributes ex [sb] "and")) [] = Ok {[sa; sb]} ∧
  aclosure ex [] = Ok ∅.
Proof. cbv zeta. split; [dec|]. split; [dec|]. split; [dec|]. split; [dec|]. split; dec. Qed.
