(** * Equal contexts, renaming and enlarging: the final statements (C121-C124) *)
From Coq Require Import QArith Qcanon.
From Verif Require Import Py Spec PyFacts SpecFacts ContextModel ContextSpec ContextOps ContextFacts ContextInit
  ContextMisc ContextReduce ContextFinal ContextEq ClosureModel ClosureFacts DgSpec DgModel DgMain DgFinal LatticeSpec LatticeModel
  NorrisFacts LatticeFacts FilterModel FilterFacts FilterFacts2 CrossFacts CrossFacts2
  Properties_Context Properties_Closure Properties_Dg Properties_Lattice Properties_Filter Properties_Cross.
Local Open Scope nat_scope.

(** ** C121: contexts that compare equal have the same concepts, basis, lattice and indices *)
Theorem C121_concepts c d : good c → good d →
  ∃ cs cs', norris c = Ok cs ∧ norris d = Ok cs' ∧
    (printable c d → context_eq c d = Ok true → cs' ≡ₚ cs) ∧ (cs' ≡ₚ cs → context_eq c d = Ok true).
Proof.
  intros Hg Hg'. destruct (C31_norris c Hg) as (cs & Hcs & _). destruct (C31_norris d Hg') as (cs' & Hcs' & _).
  exists cs, cs'. split; [done|]. split; [done|]. split.
  - intros Hp E. eapply (same_concepts c d); [done..| |done|done]. by apply same_relation_abs, C11_eq_sound.
  - intros HP. apply C11_eq_complete; [done..|]. by eapply (concepts_relation c d cs cs').
Qed.
Print Assumptions C121_concepts.

Theorem C121_basis c d ords ords' : good c → good d → printable c d → context_eq c d = Ok true →
  comparable (atts c) = true → (∀ s L k X, ords s L k X ≡ₚ elements X) → (∀ s L k X, ords' s L k X ≡ₚ elements X) →
  ∃ R R', compute_dg_basis c ords (Some []) always = Ok R ∧ compute_dg_basis d ords' (Some []) always = Ok R' ∧
    R' ≡ₚ R ∧ (atts d = atts c → R' = R).
Proof.
  intros Hg Hg' Hp E Hc Ho Ho'. pose proof (C11_eq_sound c d Hg Hg' Hp E) as Hs. pose proof (same_relation_abs c d Hs) as Hab.
  assert (comparable (atts d) = true) as Hc'.
  { eapply comparable_ext; [|exact Hc]. intros x. by rewrite <-!elem_of_fM, Hab. }
  destruct (C23_dg_basis c ords Hg Hc Ho) as (R & HR & _). destruct (C23_dg_basis d ords' Hg' Hc' Ho') as (R' & HR' & _).
  exists R, R'. split; [done|]. split; [done|]. exact (same_basis c d ords ords' R R' Hg Hg' Hab Hc Ho Ho' HR HR').
Qed.
Print Assumptions C121_basis.

Theorem C121_lattice c d : good c → good d → printable c d → context_eq c d = Ok true →
  comparable (objs c) = true → comparable (atts c) = true →
  ∃ l l', mk_lattice c = Ok l ∧ mk_lattice d = Ok l' ∧
    lconcepts l' ≡ₚ lconcepts l ∧ ltop l' = ltop l ∧ lbottom l' = lbottom l ∧
    (∀ x, x ∈ lconcepts l → is_ok (lat_parents l x) = true ∧ lat_parents l' x = lat_parents l x) ∧
    (∀ x, x ∈ lconcepts l → is_ok (lat_children l x) = true ∧ lat_children l' x = lat_children l x).
Proof.
  intros Hg Hg' Hp E Hco Hca. pose proof (C11_eq_sound c d Hg Hg' Hp E) as Hs. pose proof (same_relation_abs c d Hs) as Hab.
  assert (comparable (atts d) = true) as Hca'.
  { eapply comparable_ext; [|exact Hca]. intros x. by rewrite <-!elem_of_fM, Hab. }
  assert (comparable (objs d) = true) as Hco'.
  { eapply comparable_ext; [|exact Hco]. intros x. by rewrite <-!elem_of_fG, Hab. }
  destruct (C33_lattice c Hg Hco Hca) as (l & Hl & _ & Hn & Hcs & Ht & Hb & Hx & _).
  destruct (C33_lattice d Hg' Hco' Hca') as (l' & Hl' & _ & Hn' & Hcs' & Ht' & Hb' & Hx' & _).
  exists l, l'. rewrite <-Hab in *. split_and!; [done..| |congruence|congruence| |].
  - apply NoDup_Permutation; [done..|]. intros [A B]. by rewrite Hcs, Hcs'.
  - intros [A B] Hi. pose proof (proj1 (Hcs A B) Hi) as Hcon.
    destruct (Hx (A, B) Hcon) as ((ps & -> & E1) & _). destruct (Hx' (A, B) Hcon) as ((ps' & -> & E2) & _).
    split; [done|]. f_equal. apply set_eq. intros y. by rewrite E1, E2.
  - intros [A B] Hi. pose proof (proj1 (Hcs A B) Hi) as Hcon.
    destruct (Hx (A, B) Hcon) as (_ & (ps & -> & E1) & _). destruct (Hx' (A, B) Hcon) as (_ & (ps' & -> & E2) & _).
    split; [done|]. f_equal. apply set_eq. intros y. by rewrite E1, E2.
Qed.
Print Assumptions C121_lattice.

Theorem C121_indices c d l l' pop pop' : good c → good d → printable c d → context_eq c d = Ok true →
  comparable (objs c) = true → comparable (atts c) = true → mk_lattice c = Ok l → mk_lattice d = Ok l' →
  (∀ k W, W ≠ ∅ → pop k W ∈ W) → (∀ k W, W ≠ ∅ → pop' k W ∈ W) →
  (∃ st st', compute_istability pop (lconcepts l) = Ok st ∧ compute_istability pop' (lconcepts l') = Ok st' ∧
     ∀ x, x ∈ lconcepts l → is_Some (dget x st) ∧ dget x st' = dget x st) ∧
  (∃ st st', compute_estability pop (lconcepts l) = Ok st ∧ compute_estability pop' (lconcepts l') = Ok st' ∧
     ∀ x, x ∈ lconcepts l → is_Some (dget x st) ∧ dget x st' = dget x st) ∧
  (objs c ≠ [] → ∃ t t', compute_extent_size l = Ok t ∧ compute_extent_size l' = Ok t' ∧
     ∀ x, x ∈ lconcepts l → is_Some (dget x t) ∧ dget x t' = dget x t) ∧
  (atts c ≠ [] → ∃ t t', compute_intent_size l = Ok t ∧ compute_intent_size l' = Ok t' ∧
     ∀ x, x ∈ lconcepts l → is_Some (dget x t) ∧ dget x t' = dget x t) ∧
  (objs c ≠ [] → ∃ t t', compute_separation_index l = Ok t ∧ compute_separation_index l' = Ok t' ∧
     ∀ x, x ∈ lconcepts l → is_Some (dget x t) ∧ dget x t' = dget x t).
Proof.
  intros Hg Hg' Hp E Hco Hca Hl Hl' Hpop Hpop'.
  pose proof (C11_eq_sound c d Hg Hg' Hp E) as Hs. pose proof (same_relation_abs c d Hs) as Hab.
  destruct (same_relation_perm c d Hg Hg' Hs) as [Po Pa].
  assert (comparable (atts d) = true) as Hca'.
  { eapply comparable_ext; [|exact Hca]. intros x. by rewrite Pa. }
  assert (comparable (objs d) = true) as Hco'.
  { eapply comparable_ext; [|exact Hco]. intros x. by rewrite Po. }
  destruct (lattice_spec c Hg Hco Hca l Hl) as (_ & _ & Hcs & _).
  assert (objs c ≠ [] → objs d ≠ []) as Hne by (intros H E0; apply H; rewrite E0 in Po; by apply Permutation_nil in Po).
  assert (atts c ≠ [] → atts d ≠ []) as Hne' by (intros H E0; apply H; rewrite E0 in Pa; by apply Permutation_nil in Pa).
  apply Permutation_length in Po, Pa.
  split_and!.
  - destruct (C36_istability c l pop Hg Hco Hca Hl Hpop) as (st & E1 & _ & P1).
    destruct (C36_istability d l' pop' Hg' Hco' Hca' Hl' Hpop') as (st' & E2 & _ & P2). rewrite <-Hab in P2.
    exists st, st'. split; [done|]. split; [done|]. intros [A B] H%Hcs.
    destruct (P1 A B H) as (n & C1 & ->). destruct (P2 A B H) as (n' & C2 & ->).
    split; [by eexists|]. by rewrite (is_card_unique _ n n' C1 C2).
  - destruct (C37_estability c l pop Hg Hco Hca Hl Hpop) as (st & E1 & _ & P1).
    destruct (C37_estability d l' pop' Hg' Hco' Hca' Hl' Hpop') as (st' & E2 & _ & P2). rewrite <-Hab in P2.
    exists st, st'. split; [done|]. split; [done|]. intros [A B] H%Hcs.
    destruct (P1 A B H) as (n & C1 & ->). destruct (P2 A B H) as (n' & C2 & ->).
    split; [by eexists|]. by rewrite (is_card_unique _ n n' C1 C2).
  - intros H0. destruct (C39_sizes c l Hg Hco Hca Hl) as [F1 _]. destruct (F1 H0) as (t & E1 & _ & P1).
    destruct (C39_sizes d l' Hg' Hco' Hca' Hl') as [F2 _]. destruct (F2 (Hne H0)) as (t' & E2 & _ & P2). rewrite <-Hab, Po in P2.
    exists t, t'. split; [done|]. split; [done|]. intros [A B] H%Hcs. rewrite (P1 A B H), (P2 A B H). split; [by eexists|done].
  - intros H0. destruct (C39_sizes c l Hg Hco Hca Hl) as (_ & F1 & _). destruct (F1 H0) as (t & E1 & _ & P1).
    destruct (C39_sizes d l' Hg' Hco' Hca' Hl') as (_ & F2 & _). destruct (F2 (Hne' H0)) as (t' & E2 & _ & P2). rewrite <-Hab, Pa in P2.
    exists t, t'. split; [done|]. split; [done|]. intros [A B] H%Hcs. rewrite (P1 A B H), (P2 A B H). split; [by eexists|done].
  - intros H0. destruct (C38_separation c l Hg Hco Hca Hl H0) as (t & E1 & _ & P1).
    destruct (C38_separation d l' Hg' Hco' Hca' Hl' (Hne H0)) as (t' & E2 & _ & P2). rewrite <-Hab in P2.
    exists t, t'. split; [done|]. split; [done|]. intros [A B] H%Hcs. rewrite (P1 A B H), (P2 A B H). split; [by eexists|done].
Qed.
Print Assumptions C121_indices.

(** The example with its rows reversed and its columns rotated. *)
Definition ex_turned := get_ok empty_cxt (mk_context [[false; false; false]; [false; false; true]; [false; true; true]; [true; false; true]] None
  [o4; o3; o2; o1] [sb; sc; sa]).
Example C121_case : context_eq ex ex_turned = Ok true ∧ good ex_turned ∧
  compute_dg_basis ex elts (Some []) always = Ok [({[sc]}, {[sa; sc]}); ({[sb]}, {[sa; sb]})] ∧
  compute_dg_basis ex_turned elts (Some []) always = Ok [({[sc]}, {[sa; sc]}); ({[sb]}, {[sa; sb]})] ∧
  get_ok [] (norris ex_turned) ≠ get_ok [] (norris ex) ∧
  get_ok [] (norris ex_turned) ≡ₚ get_ok [] (norris ex).
Proof.
  assert (good ex_turned) as Hg.
  { eapply mk_context_good; [apply get_ok_eq; by vm_compute|dec|dec|done]. }
  assert (context_eq ex ex_turned = Ok true) as E by dec.
  split; [done|]. split; [done|]. split; [dec|]. split; [dec|]. split; [dec|].
  destruct (C121_concepts ex ex_turned ex_good Hg) as (cs & cs' & -> & -> & H & _). apply H; [|done].
  assert (∀ l l' : list name, Forall (λ a, Forall (λ b, pystr a = pystr b → a = b) l') l → ∀ a b, a ∈ l → b ∈ l' → pystr a = pystr b → a = b) as Hl.
  { intros l l' Hl a b Ha Hb. rewrite Forall_forall in Hl. specialize (Hl a Ha). rewrite Forall_forall in Hl. by apply Hl. }
  split; [apply Hl; dec|]. split; [apply Hl; dec|]. split; apply Forall_forall; repeat constructor; intros E'; discriminate E'.
Qed.

(** ** C122: renaming *)
Theorem C122_rename_attribute c old new : good c → old ∈ atts c → new ∉ atts c →
  let r x := if decide (x = old) then new else x in
  ∃ c', rename_attribute c old new = (c', Ok tt) ∧ good c' ∧
    (∃ cs cs', norris c = Ok cs ∧ norris c' = Ok cs' ∧
       cs' ≡ₚ map (λ x : fconcept, (x.1, set_map r x.2) : fconcept) cs) ∧
    (∀ ords ords', comparable (new :: atts c) = true →
       (∀ s L k X, ords s L k X ≡ₚ elements X) → (∀ s L k X, ords' s L k X ≡ₚ elements X) →
       ∃ R, compute_dg_basis c ords (Some []) always = Ok R ∧
         compute_dg_basis c' ords' (Some []) always = Ok (map (λ i : fimp, (set_map r i.1, set_map r i.2) : fimp) R)).
Proof.
  intros Hg Hold Hnew r.
  destruct (C04_rename_attribute c old new (good_wf _ Hg) (good_distinct _ Hg) (good_shape _ Hg) Hold (or_introl Hnew))
    as (c' & E & Hg' & Eo & Ea & Hi). change (atts c' = map r (atts c)) in Ea.
  exists c'. split; [done|]. split; [done|].
  assert (∀ x y, x ∈ fM (abs c) → y ∈ fM (abs c) → r x = r y → x = y) as Hinj.
  { intros x y Hx%elem_of_fM Hy%elem_of_fM. by apply (ren_inj old new (atts c)). }
  assert (fG (abs c') = fG (abs c)) as HG by (simpl; by rewrite Eo).
  assert (∀ m, m ∈ fM (abs c') ↔ ∃ x, m = r x ∧ x ∈ fM (abs c)) as HM by (intros m; simpl; rewrite Ea; apply list_to_set_map).
  assert (∀ g x, x ∈ fM (abs c) → (g, r x) ∈ fI (abs c') ↔ (g, x) ∈ fI (abs c)) as HI.
  { intros g x Hx%elem_of_fM. rewrite !elem_of_fI, Hi. unfold r. destruct (decide (x = old)) as [->|Hn]; [naive_solver|].
    assert (x ≠ new) by congruence. naive_solver. }
  split.
  - destruct (C31_norris c Hg) as (cs & Hcs & _). destruct (C31_norris c' Hg') as (cs' & Hcs' & _).
    exists cs, cs'. split; [done|]. split; [done|].
    destruct (norris_of c cs Hg Hcs) as [N1 M1]. destruct (norris_of c' cs' Hg' Hcs') as [N2 M2].
    apply NoDup_Permutation; [done| |].
    + apply NoDup_fmap_2_strong; [|done]. intros [A B] [A' B'] H1 H2 [= -> E2].
      apply M1 in H1 as (_ & H1 & _). apply M1 in H2 as (_ & H2 & _).
      by rewrite (image_eq (abs c) (abs c') r Hinj HG HM HI B B' H1 H2 E2).
    + intros [A B]. rewrite M2, (rename_concept (abs c) (abs c') r Hinj HG HM HI), elem_of_list_fmap. split.
      * intros (B0 & -> & H). exists (A, B0). by rewrite M1.
      * intros ([A0 B0] & [= -> ->] & H%M1). eauto.
  - intros ords ords' Hc Ho Ho'.
    assert (comparable (atts c) = true) as Hc1 by (eapply comparable_ext; [|exact Hc]; by right).
    assert (comparable (atts c') = true) as Hc2.
    { eapply comparable_ext; [|exact Hc]. rewrite Ea. intros x (y & -> & Hy)%elem_of_list_fmap. unfold r.
      destruct (decide (y = old)); [by left|by right]. }
    destruct (basis_post c ords Hg Hc1 Ho) as (R & H1 & HR). destruct (basis_post c' ords' Hg' Hc2 Ho') as (R' & H2 & HR').
    exists R. split; [done|]. etransitivity; [exact H2|]. f_equal. rewrite Ea in HR'.
    refine (post_unique _ _ _ _ _ HR' _). apply (rename_post (abs c) (abs c') r Hinj HG HM HI (atts c)); [done| |done].
    simpl. by rewrite Ea.
Qed.
Print Assumptions C122_rename_attribute.

Theorem C122_rename_object c old new : good c → old ∈ objs c → new ∉ objs c →
  let r x := if decide (x = old) then new else x in
  ∃ c', rename_object c old new = (c', Ok tt) ∧ good c' ∧
    (∃ cs cs', norris c = Ok cs ∧ norris c' = Ok cs' ∧
       cs' ≡ₚ map (λ x : fconcept, (set_map r x.1, x.2) : fconcept) cs) ∧
    (∀ ords ords', comparable (atts c) = true →
       (∀ s L k X, ords s L k X ≡ₚ elements X) → (∀ s L k X, ords' s L k X ≡ₚ elements X) →
       ∃ R, compute_dg_basis c ords (Some []) always = Ok R ∧ compute_dg_basis c' ords' (Some []) always = Ok R).
Proof.
  intros Hg Hold Hnew r.
  destruct (C04_rename_object c old new (good_wf _ Hg) (good_distinct _ Hg) (good_shape _ Hg) Hold (or_introl Hnew))
    as (c' & E & Hg' & Eo & Ea & Hi). change (objs c' = map r (objs c)) in Eo.
  exists c'. split; [done|]. split; [done|].
  assert (∀ x y, x ∈ fM (ftrans (abs c)) → y ∈ fM (ftrans (abs c)) → r x = r y → x = y) as Hinj.
  { intros x y Hx%elem_of_fG Hy%elem_of_fG. by apply (ren_inj old new (objs c)). }
  assert (fG (ftrans (abs c')) = fG (ftrans (abs c))) as HG by (simpl; by rewrite Ea).
  assert (∀ m, m ∈ fM (ftrans (abs c')) ↔ ∃ x, m = r x ∧ x ∈ fM (ftrans (abs c))) as HM by (intros m; simpl; rewrite Eo; apply list_to_set_map).
  assert (∀ g x, x ∈ fM (ftrans (abs c)) → (g, r x) ∈ fI (ftrans (abs c')) ↔ (g, x) ∈ fI (ftrans (abs c))) as HI.
  { intros g x Hx%elem_of_fG. rewrite !ftrans_fI, !elem_of_fI, Hi. unfold r. destruct (decide (x = old)) as [->|Hn]; [naive_solver|].
    assert (x ≠ new) by congruence. naive_solver. }
  split.
  - destruct (C31_norris c Hg) as (cs & Hcs & _). destruct (C31_norris c' Hg') as (cs' & Hcs' & _).
    exists cs, cs'. split; [done|]. split; [done|].
    destruct (norris_of c cs Hg Hcs) as [N1 M1]. destruct (norris_of c' cs' Hg' Hcs') as [N2 M2].
    apply NoDup_Permutation; [done| |].
    + apply NoDup_fmap_2_strong; [|done]. intros [A B] [A' B'] H1 H2 [= E2 ->].
      apply M1 in H1 as (H1 & _). apply M1 in H2 as (H2 & _).
      by rewrite (image_eq (ftrans (abs c)) (ftrans (abs c')) r Hinj HG HM HI A A' H1 H2 E2).
    + intros [A B]. rewrite M2, <-is_concept_ftrans, (rename_concept (ftrans (abs c)) (ftrans (abs c')) r Hinj HG HM HI), elem_of_list_fmap. split.
      * intros (B0 & -> & H). exists (B0, B). rewrite M1. split; [done|]. exact (proj1 (is_concept_ftrans _ _ _) H).
      * intros ([A0 B0] & [= -> ->] & H%M1). exists A0. split; [done|]. exact (proj2 (is_concept_ftrans _ _ _) H).
  - intros ords ords' Hc Ho Ho'.
    assert (∀ X, X ⊆ fM (abs c) → acl (abs c) X = acl (abs c') X) as Hacl.
    { intros X HX. unfold acl. rewrite <-(up_ftrans (abs c')), (rename_up (ftrans (abs c)) (ftrans (abs c')) r HM HI).
      rewrite <-(down_ftrans (abs c')), (rename_down (ftrans (abs c)) (ftrans (abs c')) r HG HI).
      - by rewrite up_ftrans, down_ftrans.
      - intros g [? _]%elem_of_up. done. }
    assert (comparable (atts c') = true) as Hc' by by rewrite Ea.
    destruct (basis_post c ords Hg Hc Ho) as (R & H1 & HR). destruct (basis_post c' ords' Hg' Hc' Ho') as (R' & H2 & HR').
    exists R. split; [done|]. etransitivity; [exact H2|]. f_equal. rewrite Ea in HR'. eapply post_unique; [exact HR'|].
    eapply post_ext; [|exact HR]. exact Hacl.
Qed.
Print Assumptions C122_rename_object.

Example C122_case : ∃ c', rename_attribute ex sa sd = (c', Ok tt) ∧ atts c' = [sd; sb; sc] ∧
  compute_dg_basis ex elts (Some []) always = Ok [({[sc]}, {[sa; sc]}); ({[sb]}, {[sa; sb]})] ∧
  compute_dg_basis c' elts (Some []) always = Ok [({[sc]}, {[sd; sc]}); ({[sb]}, {[sd; sb]})] ∧
  (({[o1; o2; o3]}, {[sa]}) : fconcept) ∈ get_ok [] (norris ex) ∧ (({[o1; o2; o3]}, {[sd]}) : fconcept) ∈ get_ok [] (norris c').
Proof.
  exists (rename_attribute ex sa sd).1. split; [vm_compute; reflexivity|]. split; [vm_compute; reflexivity|].
  split; [dec|]. split; [dec|]. split; dec.
Qed.
(** Renaming to a name that is in use gives both attributes other names: c_0 and c_2. *)
Theorem C122_in_use_refuted : ∃ c', rename_attribute ex sa sc = (c', Ok tt) ∧
  (({[o1; o2; o3]}, {[sa]}) : fconcept) ∈ get_ok [] (norris ex) ∧
  (({[o1; o2; o3]}, {[sc]}) : fconcept) ∉ get_ok [] (norris c').
Proof. exists (rename_attribute ex sa sc).1. split; [vm_compute; reflexivity|]. split; dec. Qed.
Print Assumptions C122_in_use_refuted.

(** ** C123: adding an object or an attribute *)
Theorem C123_added_object c J o : good c → o ∉ objs c →
  ∃ c', add_object_with_intent c J o = (c', Ok tt) ∧ good c' ∧
    (∃ cs cs', norris c = Ok cs ∧ norris c' = Ok cs' ∧
       (∀ B, B ∈ map snd cs' ↔ B ∈ map snd cs ∨ ∃ B0, B0 ∈ map snd cs ∧ B = B0 ∩ J) ∧
       (∀ ords, comparable (atts c) = true → (∀ s L k X, ords s L k X ≡ₚ elements X) →
          J ∩ fM (abs c) ∈ map snd cs ↔
          compute_dg_basis c' ords (Some []) always = compute_dg_basis c ords (Some []) always)) ∧
    (∀ B X, aclosure c B = Ok X → aclosure c' B = Ok (if decide (list_to_set B ⊆ J) then X ∩ J else X)) ∧
    (∀ i, holds (abs c') i ↔ holds (abs c) i ∧ respects (J ∩ fM (abs c)) i).
Proof.
  intros Hg Ho. destruct (C04_add_object_with_intent c J o (good_wf _ Hg) (good_distinct _ Hg) Ho) as (c' & E & Hg' & Eo & Ea & Hi).
  exists c'. split; [done|]. split; [done|].
  set (K := abs c). set (K' := abs c'). set (J' := J ∩ fM K).
  assert (fwf K) as Hwf by apply abs_fwf.
  assert (o ∉ fG K) as Ho' by (by unfold K; rewrite elem_of_fG).
  assert (J' ⊆ fM K) as HJ by set_solver.
  assert (∀ g, g ∈ fG K' ↔ g ∈ fG K ∨ g = o) as HG.
  { intros g. unfold K, K'. rewrite !elem_of_fG, Eo, elem_of_app, elem_of_list_singleton. done. }
  assert (fM K' = fM K) as HM by (simpl; by rewrite Ea).
  assert (∀ g m, (g, m) ∈ fI K' ↔ (g, m) ∈ fI K ∨ g = o ∧ m ∈ J') as HI.
  { intros g m. unfold K', J', K. rewrite !elem_of_fI, Hi, elem_of_intersection, elem_of_fM. tauto. }
  assert (∀ B, B ⊆ fM K → B ∩ J' = B ∩ J) as HBJ by set_solver.
  split; [|split].
  - destruct (C31_norris c Hg) as (cs & Hcs & _). destruct (C31_norris c' Hg') as (cs' & Hcs' & _).
    exists cs, cs'. split; [done|]. split; [done|].
    destruct (norris_of c cs Hg Hcs) as [N1 M1]. destruct (norris_of c' cs' Hg' Hcs') as [N2 M2].
    assert (∀ B, B ∈ map snd cs ↔ ∃ A, is_concept K A B) as S1.
    { intros B. rewrite elem_of_map_snd. split; intros [A H]; exists A; by apply M1. }
    assert (∀ B, B ∈ map snd cs' ↔ ∃ A, is_concept K' A B) as S2.
    { intros B. rewrite elem_of_map_snd. split; intros [A H]; exists A; by apply M2. }
    assert (∀ B, B ∈ map snd cs' ↔ B ∈ map snd cs ∨ ∃ B0, B0 ∈ map snd cs ∧ B = B0 ∩ J) as HB.
    { intros B. rewrite S2, S1, (added_intents K K' o J' Hwf Ho' HJ HG HM HI). split.
      - intros [H|(A & B0 & H & ->)]; [by left|right]. exists B0. rewrite S1. split; [eauto|]. apply HBJ, H.
      - intros [H|(B0 & [A H]%S1 & ->)]; [by left|right]. exists A, B0. split; [done|]. symmetry. apply HBJ, H. }
    split; [exact HB|]. intros ords Hc Hord. split.
    + intros [A HA]%S1. destruct (proj1 (concept_intent K J') (ex_intro _ A HA)) as [_ EJ].
      apply same_acl_basis; [done|done|by rewrite Ea|done|done|]. intros X HX. symmetry.
      by apply (added_closed_acl K K' o J' Hwf Ho' HJ HG HM HI EJ).
    + intros Eb. assert (comparable (atts c') = true) as Hc' by by rewrite Ea.
      destruct (C23_dg_basis c ords Hg Hc Hord) as (R & HR & _). rewrite HR in Eb.
      destruct (intents_final c ords cs R Hg Hc Hord Hcs HR) as [_ F1].
      destruct (intents_final c' ords cs' R Hg' Hc' Hord Hcs' Eb) as [_ F2].
      apply F1. assert (J' ∈ map snd cs') as HJ'.
      { apply HB. right. exists (fM K). split; [|apply set_eq; set_solver]. apply S1. exists (down K (fM K)).
        apply is_concept_ftrans. rewrite <-up_ftrans. apply (top_concept (ftrans K)). }
      apply F2 in HJ'. unfold K' in HM. rewrite HM in HJ'. exact HJ'.
  - intros B X HX. assert (∀ m, m ∈ B → m ∈ atts c) as HB by (by apply (aclosure_ok_sub c B _ Hg HX)).
    rewrite (aclosure_spec c Hg B HB) in HX. injection HX as <-.
    rewrite (aclosure_spec c' Hg') by (by rewrite Ea). f_equal.
    fold K K'. rewrite (added_acl K K' o J' Hwf Ho' HJ HG HM HI).
    assert ((list_to_set B : gset name) ⊆ fM K) as HBM by (intros m Hm%elem_of_list_to_set; apply elem_of_fM; auto).
    assert (acl K (list_to_set B) ⊆ fM K) as HcM by (intros m [? _]%elem_of_up; done).
    destruct (decide (list_to_set B ⊆ J')), (decide (list_to_set B ⊆ J)); [by apply HBJ|set_solver|set_solver|done].
  - intros i. apply (added_holds K K' o J' Hwf Ho' HG HI).
Qed.
Print Assumptions C123_added_object.

Theorem C123_added_attribute c X a : good c → objs c ≠ [] → a ∉ atts c →
  ∃ c', add_attribute_with_extent c X a = (c', Ok tt) ∧ good c' ∧
    (∃ cs cs', norris c = Ok cs ∧ norris c' = Ok cs' ∧
       ∀ A, A ∈ map fst cs' ↔ A ∈ map fst cs ∨ ∃ A0, A0 ∈ map fst cs ∧ A = A0 ∩ X) ∧
    (∀ B Y Z, aclosure c B = Ok Y → aprime c B = Ok Z → aclosure c' B = Ok (if decide (Z ⊆ X) then Y ∪ {[a]} else Y)) ∧
    (∀ i : fimp, i.1 ⊆ fM (abs c) → i.2 ⊆ fM (abs c) → holds (abs c') i ↔ holds (abs c) i).
Proof.
  intros Hg Hne Ha.
  destruct (C04_add_attribute_with_extent c X a (good_wf _ Hg) (good_distinct _ Hg) Ha) as (c' & E & _ & _ & Hg' & Eo & Ea & Hi).
  specialize (Hg' Hne). exists c'. split; [done|]. split; [done|].
  set (K := abs c). set (K' := abs c'). set (X' := X ∩ fG K).
  assert (fwf K) as Hwf by apply abs_fwf.
  assert (a ∉ fM K) as Ha' by (by unfold K; rewrite elem_of_fM).
  assert (X' ⊆ fG K) as HX by set_solver.
  assert (∀ m, m ∈ fM K' ↔ m ∈ fM K ∨ m = a) as HM.
  { intros g. unfold K, K'. rewrite !elem_of_fM, Ea, elem_of_app, elem_of_list_singleton. done. }
  assert (fG K' = fG K) as HG by (simpl; by rewrite Eo).
  assert (∀ g m, (g, m) ∈ fI K' ↔ (g, m) ∈ fI K ∨ m = a ∧ g ∈ X') as HI.
  { intros g m. unfold K', X', K. rewrite !elem_of_fI, Hi, elem_of_intersection, elem_of_fG. tauto. }
  split; [|split].
  - destruct (C31_norris c Hg) as (cs & Hcs & _). destruct (C31_norris c' Hg') as (cs' & Hcs' & _).
    exists cs, cs'. split; [done|]. split; [done|].
    destruct (norris_of c cs Hg Hcs) as [N1 M1]. destruct (norris_of c' cs' Hg' Hcs') as [N2 M2].
    assert (∀ A, A ∈ map fst cs ↔ ∃ B, is_concept K A B) as S1.
    { intros A. rewrite elem_of_map_fst. split; intros [B H]; exists B; by apply M1. }
    assert (∀ A, A ∈ map fst cs' ↔ ∃ B, is_concept K' A B) as S2.
    { intros A. rewrite elem_of_map_fst. split; intros [B H]; exists B; by apply M2. }
    assert (∀ A, A ⊆ fG K → A ∩ X' = A ∩ X) as HAX by set_solver.
    intros A. rewrite S2, S1, (added_extents K K' a X' Hwf Ha' HX HM HG HI). split.
    + intros [H|(A0 & B & H & ->)]; [by left|right]. exists A0. rewrite S1. split; [eauto|]. apply HAX, H.
    + intros [H|(A0 & [B H]%S1 & ->)]; [by left|right]. exists A0, B. split; [done|]. symmetry. apply HAX, H.
  - intros B Y Z HY HZ. assert (∀ m, m ∈ B → m ∈ atts c) as HB by (by apply (aclosure_ok_sub c B _ Hg HY)).
    rewrite (aclosure_spec c Hg B HB) in HY. injection HY as <-. rewrite (aprime_spec c Hg B HB) in HZ. injection HZ as <-.
    rewrite (aclosure_spec c' Hg') by (intros m Hm; rewrite Ea; apply elem_of_app; auto). f_equal.
    assert ((list_to_set B : gset name) ⊆ fM K) as HBM by (intros m Hm%elem_of_list_to_set; apply elem_of_fM; auto).
    assert (down K (list_to_set B) ⊆ fG K) as HdG by (intros g [? _]%elem_of_down; done).
    fold K K'. apply set_eq. intros m. rewrite (added_attribute_acl K K' a X' Hwf Ha' HM HG HI _ HBM m).
    destruct (decide (down K (list_to_set B) ⊆ X)).
    + rewrite elem_of_union, elem_of_singleton. assert (down K (list_to_set B) ⊆ X') by set_solver. tauto.
    + assert (¬ down K (list_to_set B) ⊆ X') by set_solver. tauto.
  - intros i. apply (added_attribute_holds K K' a X' Ha' HG HI).
Qed.
Print Assumptions C123_added_attribute.

(** {a, b} is an intent of the example, {b} is not; {b, c} adds the intents {b}, {c} and {b, c}. *)
Example C123_case :
  compute_dg_basis (add_object_with_intent ex {[sa; sb]} (NInt 5)).1 elts (Some []) always =
    Ok [({[sc]}, {[sa; sc]}); ({[sb]}, {[sa; sb]})] ∧
  compute_dg_basis (add_object_with_intent ex {[sb]} (NInt 5)).1 elts (Some []) always =
    Ok [({[sc]}, {[sa; sc]})] ∧
  length (get_ok [] (norris ex)) = 5 ∧
  length (get_ok [] (norris (add_object_with_intent ex {[sb; sc]} (NInt 5)).1)) = 8 ∧
  length (get_ok [] (norris (add_attribute_with_extent ex {[o2; o3]} sd).1)) = 6.
Proof. split; [dec|]. split; [dec|]. split; [dec|]. split; dec. Qed.

(** ** C124: deleting attributes or an object *)
Theorem C124_deleted_attributes c ns : good c → objs c ≠ [] → NoDup ns → (∀ a, a ∈ ns → a ∈ atts c) →
  ∃ c', delete_attributes c ns = (c', Ok tt) ∧ good c' ∧
    (∃ cs cs', norris c = Ok cs ∧ norris c' = Ok cs' ∧
       (∀ B, B ∈ map snd cs' ↔ ∃ B0, B0 ∈ map snd cs ∧ B = B0 ∖ list_to_set ns) ∧
       (∀ A B, (A, B) ∈ cs' → ∃ B0, (A, B0) ∈ cs ∧ B = B0 ∖ list_to_set ns)) ∧
    (∀ B X, (∀ m, m ∈ B → m ∉ ns) → aclosure c B = Ok X → aclosure c' B = Ok (X ∖ list_to_set ns)) ∧
    (∀ i : fimp, i.1 ⊆ fM (abs c') → i.2 ⊆ fM (abs c') → holds (abs c') i ↔ holds (abs c) i).
Proof.
  intros Hg Hne Hn Hns.
  destruct (C04_delete_attributes c ns (good_wf _ Hg) (good_distinct _ Hg) Hne Hn Hns) as (c' & E & Hg' & Eo & Ea & Hi).
  exists c'. split; [done|]. split; [done|].
  assert (fG (abs c') = fG (abs c)) as HG by (simpl; by rewrite Eo).
  assert (∀ m, m ∈ fM (abs c') ↔ m ∈ fM (abs c) ∧ m ∉ (list_to_set ns : gset name)) as HM.
  { intros m. rewrite !elem_of_fM, Ea, elem_of_list_filter, elem_of_list_to_set. tauto. }
  assert (∀ g m, (g, m) ∈ fI (abs c') ↔ (g, m) ∈ fI (abs c) ∧ m ∉ (list_to_set ns : gset name)) as HI.
  { intros g m. rewrite !elem_of_fI, Hi, elem_of_list_to_set. tauto. }
  split; [|split].
  - destruct (C31_norris c Hg) as (cs & Hcs & _). destruct (C31_norris c' Hg') as (cs' & Hcs' & _).
    exists cs, cs'. split; [done|]. split; [done|].
    destruct (norris_of c cs Hg Hcs) as [N1 M1]. destruct (norris_of c' cs' Hg' Hcs') as [N2 M2]. split.
    + intros B. rewrite elem_of_map_snd. setoid_rewrite M2. rewrite (deleted_intents (abs c) (abs c') _ HG HM HI).
      setoid_rewrite elem_of_map_snd. setoid_rewrite M1. split; [intros (A & B0 & H & ->)|intros (B0 & [A H] & ->)]; eauto.
    + intros A B H%M2. destruct (deleted_extents (abs c) (abs c') _ HG HM HI A B H) as [H1 ->].
      exists (up (abs c) A). by rewrite M1.
  - intros B X HB HX. pose proof (aclosure_ok_sub c B _ Hg HX) as HB'.
    rewrite (aclosure_spec c Hg B HB') in HX. injection HX as <-.
    rewrite (aclosure_spec c' Hg') by (intros m Hm; rewrite Ea; apply elem_of_list_filter; auto). f_equal.
    apply (deleted_acl (abs c) (abs c') _ HG HM HI). intros m Hm%elem_of_list_to_set.
    apply elem_of_fM. rewrite Ea. apply elem_of_list_filter. auto.
  - intros i. apply (deleted_holds (abs c) (abs c') _ HG HM HI).
Qed.
Print Assumptions C124_deleted_attributes.

Theorem C124_deleted_object c o : good c → o ∈ objs c →
  ∃ c' J, delete_object c o = (c', Ok tt) ∧ good c' ∧ get_object_intent c o = Ok J ∧
    (∃ cs cs', norris c = Ok cs ∧ norris c' = Ok cs' ∧
       (∀ A, A ∈ map fst cs' ↔ ∃ A0, A0 ∈ map fst cs ∧ A = A0 ∖ {[o]}) ∧
       (∀ A B, (A, B) ∈ cs' → ∃ A0, (A0, B) ∈ cs ∧ A = A0 ∖ {[o]})) ∧
    (∀ A X, o ∉ A → oclosure c A = Ok X → oclosure c' A = Ok (X ∖ {[o]})) ∧
    (∀ i, holds (abs c) i ↔ holds (abs c') i ∧ respects J i).
Proof.
  intros Hg Hin.
  destruct (C04_delete_object c o (good_wf _ Hg) (good_distinct _ Hg) Hin) as (c' & E & Hg' & Eo & Ea & Hi).
  set (J := up (abs c) {[o]}). assert (get_object_intent c o = Ok J) as HJ by (apply get_object_intent_spec; [apply Hg..|done]).
  assert (∀ m, m ∈ J ↔ incident c o m) as HJs.
  { intros m. unfold J. rewrite elem_of_up, <-elem_of_fI. split; [intros [_ H]; apply H; set_solver|].
    intros H. split; [by apply (abs_fwf c) in H as [_ ?]|]. by intros g ->%elem_of_singleton. }
  exists c', J. split; [done|]. split; [done|]. split; [done|].
  assert (fG (ftrans (abs c')) = fG (ftrans (abs c))) as HG by (simpl; by rewrite Ea).
  assert (∀ m, m ∈ fM (ftrans (abs c')) ↔ m ∈ fM (ftrans (abs c)) ∧ m ∉ ({[o]} : gset name)) as HM.
  { intros m. change (m ∈ fG (abs c') ↔ m ∈ fG (abs c) ∧ m ∉ ({[o]} : gset name)).
    rewrite !elem_of_fG, Eo, elem_of_list_filter, elem_of_singleton. tauto. }
  assert (∀ g m, (g, m) ∈ fI (ftrans (abs c')) ↔ (g, m) ∈ fI (ftrans (abs c)) ∧ m ∉ ({[o]} : gset name)) as HI.
  { intros g m. rewrite !ftrans_fI, !elem_of_fI, Hi, elem_of_singleton. tauto. }
  split; [|split].
  - destruct (C31_norris c Hg) as (cs & Hcs & _). destruct (C31_norris c' Hg') as (cs' & Hcs' & _).
    exists cs, cs'. split; [done|]. split; [done|].
    destruct (norris_of c cs Hg Hcs) as [N1 M1]. destruct (norris_of c' cs' Hg' Hcs') as [N2 M2]. split.
    + intros A. rewrite elem_of_map_fst. setoid_rewrite M2. setoid_rewrite <-is_concept_ftrans.
      rewrite (deleted_intents (ftrans (abs c)) (ftrans (abs c')) _ HG HM HI).
      setoid_rewrite is_concept_ftrans. setoid_rewrite elem_of_map_fst. setoid_rewrite M1.
      split; [intros (B & A0 & H & ->)|intros (A0 & [B H] & ->)]; eauto.
    + intros A B H%M2. apply is_concept_ftrans in H.
      destruct (deleted_extents (ftrans (abs c)) (ftrans (abs c')) _ HG HM HI B A H) as [H1 ->].
      exists (up (ftrans (abs c)) B). rewrite M1. split; [|done]. exact (proj1 (is_concept_ftrans _ _ _) H1).
  - intros A X HA HX.
    assert (∀ g, g ∈ A → g ∈ objs c) as HA'.
    { intros g Hg0. destruct (decide (g ∈ objs c)) as [|Hn]; [done|]. rewrite oclosure_KeyError in HX; [done|apply Hg|eauto]. }
    rewrite (oclosure_spec c Hg A HA') in HX. injection HX as <-.
    rewrite (oclosure_spec c' Hg'); [|intros g Hg0; rewrite Eo; apply elem_of_list_filter; split; [by intros ->|auto]]. f_equal.
    pose proof (deleted_acl (ftrans (abs c)) (ftrans (abs c')) _ HG HM HI (list_to_set A)) as H.
    unfold acl in H. rewrite !up_ftrans, !down_ftrans in H. apply H.
    intros g Hg0%elem_of_list_to_set. apply elem_of_fG. rewrite Eo. apply elem_of_list_filter. split; [by intros ->|auto].
  - intros i. apply (added_holds (abs c') (abs c) o J); [apply abs_fwf| | |].
    + rewrite elem_of_fG, Eo, elem_of_list_filter. tauto.
    + intros g. rewrite !elem_of_fG, Eo, elem_of_list_filter. destruct (decide (g = o)) as [->|]; tauto.
    + intros g m. rewrite !elem_of_fI, Hi, HJs. destruct (decide (g = o)) as [->|]; naive_solver.
Qed.
Print Assumptions C124_deleted_object.

Example C124_case :
  map fst (get_ok [] (norris (delete_attributes ex [sb]).1)) = [{[o2]}; {[o1; o2; o3]}; {[o1; o2; o3; o4]}] ∧
  map fst (get_ok [] (norris ex)) = [∅; {[o1]}; {[o2]}; {[o1; o2; o3]}; {[o1; o2; o3; o4]}] ∧
  map snd (get_ok [] (norris (delete_object ex o1).1)) = [{[sa; sb; sc]}; {[sa; sc]}; {[sa]}; ∅].
Proof. split; [dec|]. split; dec. Qed.
(** An intent of the example that is lost with object 1: the implications that hold grow. *)
Example C124_gained : compute_dg_basis (delete_object ex o1).1 elts (Some []) always =
  Ok [({[sc]}, {[sa; sc]}); ({[sb]}, {[sa; sb; sc]})].
Proof. dec. Qed.
