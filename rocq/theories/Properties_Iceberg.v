(** * The concepts kept by a size: the final statements (C140) *)
From Coq Require Import ZArith QArith Qcanon Floats.SpecFloat.
From Verif Require Import FloatSpec.
From Verif Require Import Py PyFacts Spec SpecFacts ContextModel ContextSpec ContextOps ContextFacts ContextInit ContextFinal
  LatticeSpec LatticeModel NorrisFacts LatticeFacts FilterModel FilterFacts FilterFacts2 FloatModel FloatFacts FloatFacts2
  Properties_Context Properties_Lattice Properties_Filter Properties_Float.
Local Open Scope nat_scope.

Section convex.
  Context (c : context) (Hg : good c) (Ho : comparable (objs c) = true) (Ha : comparable (atts c) = true).
  Context (l : lattice) (Hl : mk_lattice c = Ok l).
  Notation K := (abs c).
  (** Concepts between two concepts of the list are in the list. *)
  Definition convex_in (cs : list fconcept) : Prop :=
    ∀ x y z, x ∈ cs → z ∈ cs → is_concept K y.1 y.2 → x.1 ⊆ y.1 → y.1 ⊆ z.1 → y ∈ cs.
  Lemma convex_covers cs x y : (∀ z, z ∈ cs → is_concept K z.1 z.2) → convex_in cs → x ∈ cs →
    covers cs y x ↔ y ∈ cs ∧ is_upper_cover K y x.
  Proof.
    intros Hc Hv Hx. pose proof (Hc x Hx) as Hx'. split.
    - intros (Hy & Hs & Hn). split; [done|]. pose proof (Hc y Hy) as Hy'. split; [done|].
      split; [by apply (concept_order_strict K x.1 x.2 y.1 y.2)|].
      intros (z & Hz & H1 & H2). apply Hn. exists z.
      split; [apply (Hv x z y); [done|done|done|apply H1|apply H2]|].
      split; [by apply (concept_order_strict K z.1 z.2 y.1 y.2)|by apply (concept_order_strict K x.1 x.2 z.1 z.2)].
    - intros (Hy & Hy' & Hs & Hn). split; [done|]. split; [by apply (concept_order_strict K x.1 x.2 y.1 y.2)|].
      intros (z & Hz & H1 & H2). pose proof (Hc z Hz) as Hz'. apply Hn. exists z. split; [done|].
      split; [by apply (concept_order_strict K x.1 x.2 z.1 z.2)|by apply (concept_order_strict K z.1 z.2 y.1 y.2)].
  Qed.
  Lemma convex_system cs x : (∀ z, z ∈ cs → is_concept K z.1 z.2) → convex_in cs → x ∈ cs →
    ∃ ps ks ps' ks', (sparents_of (mk_system cs) x).2 = Ok ps ∧ (schildren (mk_system cs) x).2 = Ok ks ∧
      lat_parents l x = Ok ps' ∧ lat_children l x = Ok ks' ∧
      (∀ y, y ∈ ps ↔ y ∈ ps' ∧ y ∈ cs) ∧ (∀ y, y ∈ ks ↔ y ∈ ks' ∧ y ∈ cs).
  Proof.
    intros Hc Hv Hx. destruct (lattice_spec c Hg Ho Ha l Hl) as (_ & _ & _ & _ & _ & Hp & _).
    destruct (Hp x (Hc x Hx)) as ((ps' & E1 & H1) & (ks' & E2 & H2) & _).
    destruct (C34_parents_children cs [] ) with (x := x) as ((ps & E3 & H3) & ks & E4 & H4).
    { intros [A B] Hz. apply (concept_hash c Ho Ha). exact (Hc _ Hz). }
    { exact Hx. }
    exists ps, ks, ps', ks'. split; [exact E3|]. split; [exact E4|]. split; [done|]. split; [done|]. split.
    - intros y. rewrite H3, H1. change (sconcepts (srun (mk_system cs) [])) with cs.
      rewrite (convex_covers cs x y Hc Hv Hx). tauto.
    - intros y. rewrite H4, H2. change (sconcepts (srun (mk_system cs) [])) with cs. split.
      + intros [Hy H]. apply (convex_covers cs y x Hc Hv Hy) in H as [_ H]. split; [split; [exact (Hc y Hy)|done]|done].
      + intros [[_ H] Hy]. split; [done|]. by apply (convex_covers cs y x Hc Hv Hy).
  Qed.
End convex.

(** ** C140 *)
(** By extent size, with any threshold: with a concept every more general concept is kept, so the
    parents in the result are those in the lattice, and the children those of them which are kept. *)
Theorem C140_extent_size c l d opt : good c → comparable (objs c) = true → comparable (atts c) = true → mk_lattice c = Ok l →
  objs c ≠ [] → fcompute_extent_size l = Ok d → pyfloat opt →
  ∃ s, ffilter_concepts d "value" opt = Ok s ∧
    (∀ A B, (A, B) ∈ sconcepts s → is_concept (abs c) A B) ∧
    (∀ A B A' B', (A, B) ∈ sconcepts s → is_concept (abs c) A' B' → A ⊆ A' → (A', B') ∈ sconcepts s) ∧
    ∀ x, x ∈ sconcepts s → ∃ ps ks ks', (sparents_of s x).2 = Ok ps ∧ lat_parents l x = Ok ps ∧
      (schildren s x).2 = Ok ks ∧ lat_children l x = Ok ks' ∧ ∀ y, y ∈ ks ↔ y ∈ ks' ∧ y ∈ sconcepts s.
Proof.
  intros Hg Ho Ha Hl Hne E Hopt. destruct (extent_size_float c Hg Ho Ha l Hl Hne) as (d' & E' & Hd).
  rewrite E in E'. injection E' as <-. destruct (filter_float_up c d _ _ opt Hd Hopt) as (s & Es & Hs & Hup).
  assert (0 < length (objs c)) by (destruct (objs c); [done|simpl; lia]).
  assert (∀ A B, (A, B) ∈ sconcepts s → is_concept (abs c) A B) as Hc by (intros A B HA; by apply Hs in HA as [? _]).
  assert (∀ A B A' B', (A, B) ∈ sconcepts s → is_concept (abs c) A' B' → A ⊆ A' → (A', B') ∈ sconcepts s) as Hu.
  { intros A B A' B' HA Hc' Hsub. eapply (Hup A B A' B'); [done|done|reflexivity|reflexivity|reflexivity|reflexivity|].
    apply frac_le; [lia|lia|]. apply subseteq_size in Hsub. nia. }
  exists s. split; [done|]. split; [done|]. split; [done|]. intros x Hx.
  assert (s = mk_system (sconcepts s)) as Hsys.
  { unfold ffilter_concepts, filter_concepts in Es. destruct d; [done|]. injection Es as <-. done. }
  destruct (convex_system c Hg Ho Ha l Hl (sconcepts s) x) as (ps & ks & ps' & ks' & E1 & E2 & E3 & E4 & H1 & H2).
  { intros [A B]. apply Hc. }
  { intros [A B] [A1 B1] [A2 B2] HA _ Hy Hsub _. exact (Hu A B A1 B1 HA Hy Hsub). }
  { done. }
  rewrite <- Hsys in E1, E2. exists ps, ks, ks'. split; [done|].
  assert (ps = ps') as ->.
  { apply set_eq. intros y. rewrite H1. split; [by intros [? _]|]. intros Hy. split; [done|].
    destruct (lattice_spec c Hg Ho Ha l Hl) as (_ & _ & _ & _ & _ & Hp & _). destruct x as [A B], y as [A1 B1].
    destruct (Hp (A, B) (Hc A B Hx)) as ((ps1 & E5 & H5) & _). rewrite E3 in E5. injection E5 as <-.
    apply H5 in Hy as (Hy & Hy' & _). apply (Hu A B A1 B1 Hx Hy). apply Hy'. }
  done.
Qed.
Print Assumptions C140_extent_size.
(** By intent size: with a concept every more special one is kept; the children are those in the lattice. *)
Theorem C140_intent_size c l d opt : good c → comparable (objs c) = true → comparable (atts c) = true → mk_lattice c = Ok l →
  atts c ≠ [] → fcompute_intent_size l = Ok d → pyfloat opt →
  ∃ s, ffilter_concepts d "value" opt = Ok s ∧
    (∀ A B, (A, B) ∈ sconcepts s → is_concept (abs c) A B) ∧
    (∀ A B A' B', (A, B) ∈ sconcepts s → is_concept (abs c) A' B' → A' ⊆ A → (A', B') ∈ sconcepts s) ∧
    ∀ x, x ∈ sconcepts s → ∃ ps ks ps', (sparents_of s x).2 = Ok ps ∧ lat_parents l x = Ok ps' ∧
      (schildren s x).2 = Ok ks ∧ lat_children l x = Ok ks ∧ ∀ y, y ∈ ps ↔ y ∈ ps' ∧ y ∈ sconcepts s.
Proof.
  intros Hg Ho Ha Hl Hne E Hopt. destruct (intent_size_float c Hg Ho Ha l Hl Hne) as (d' & E' & Hd).
  rewrite E in E'. injection E' as <-. destruct (filter_float_up c d _ _ opt Hd Hopt) as (s & Es & Hs & Hup).
  assert (0 < length (atts c)) by (destruct (atts c); [done|simpl; lia]).
  assert (∀ A B, (A, B) ∈ sconcepts s → is_concept (abs c) A B) as Hc by (intros A B HA; by apply Hs in HA as [? _]).
  assert (∀ A B A' B', (A, B) ∈ sconcepts s → is_concept (abs c) A' B' → A' ⊆ A → (A', B') ∈ sconcepts s) as Hu.
  { intros A B A' B' HA Hc' Hsub. eapply (Hup A B A' B'); [done|done|reflexivity|reflexivity|reflexivity|reflexivity|].
    apply (concept_order (abs c) A' B' A B Hc' (Hc A B HA)) in Hsub.
    apply frac_le; [lia|lia|]. apply subseteq_size in Hsub. nia. }
  exists s. split; [done|]. split; [done|]. split; [done|]. intros x Hx.
  assert (s = mk_system (sconcepts s)) as Hsys.
  { unfold ffilter_concepts, filter_concepts in Es. destruct d; [done|]. injection Es as <-. done. }
  destruct (convex_system c Hg Ho Ha l Hl (sconcepts s) x) as (ps & ks & ps' & ks' & E1 & E2 & E3 & E4 & H1 & H2).
  { intros [A B]. apply Hc. }
  { intros [A B] [A1 B1] [A2 B2] _ HA Hy _ Hsub. exact (Hu A2 B2 A1 B1 HA Hy Hsub). }
  { done. }
  rewrite <- Hsys in E1, E2. exists ps, ks, ps'. split; [done|]. split; [done|]. split; [done|].
  split; [|done]. rewrite E4. f_equal.
  apply set_eq. intros y. rewrite H2. split; [|by intros [? _]]. intros Hy. split; [done|].
  destruct (lattice_spec c Hg Ho Ha l Hl) as (_ & _ & _ & _ & _ & Hp & _). destruct x as [A B], y as [A1 B1].
  destruct (Hp (A, B) (Hc A B Hx)) as (_ & (ks1 & E5 & H5) & _). rewrite E4 in E5. injection E5 as <-.
  apply H5 in Hy as (Hy & _ & Hy' & _). apply (Hu A B A1 B1 Hx Hy). apply Hy'.
Qed.
Print Assumptions C140_intent_size.
(** Three quarters of the objects, two thirds of the attributes. *)
Example C140_case : objs ex ≠ [] ∧ atts ex ≠ [] ∧ is_ok (mk_lattice ex) = true ∧ pyfloat f34 ∧ pyfloat f23 ∧
  (∃ d s, fcompute_extent_size ex_lat = Ok d ∧ ffilter_concepts d "value" f34 = Ok s ∧
    sconcepts s = [({[o1; o2; o3]}, {[sa]}); ({[o1; o2; o3; o4]}, ∅)] ∧
    (sparents_of s ({[o1; o2; o3]}, {[sa]})).2 = Ok {[({[o1; o2; o3; o4]}, ∅)]} ∧
    (schildren s ({[o1; o2; o3]}, {[sa]})).2 = Ok ∅) ∧
  (∃ d s, fcompute_intent_size ex_lat = Ok d ∧ ffilter_concepts d "value" f23 = Ok s ∧
    sconcepts s = [(∅, {[sa; sb; sc]}); ({[o1]}, {[sa; sb]}); ({[o2]}, {[sa; sc]})] ∧
    (schildren s ({[o1]}, {[sa; sb]})).2 = Ok {[(∅, {[sa; sb; sc]})]} ∧
    (sparents_of s ({[o1]}, {[sa; sb]})).2 = Ok ∅).
Proof.
  split; [done|]. split; [done|]. split; [by vm_compute|].
  split; [unfold pyfloat, f34; lia|]. split; [unfold pyfloat, f23; lia|]. split.
  - set (d := get_ok [] (fcompute_extent_size ex_lat)).
    exists d, (get_ok (mk_system []) (ffilter_concepts d "value" f34)).
    split; [by apply get_ok_eq; vm_compute|]. split; [by apply get_ok_eq; vm_compute|]. split; [dec|split; dec].
  - set (d := get_ok [] (fcompute_intent_size ex_lat)).
    exists d, (get_ok (mk_system []) (ffilter_concepts d "value" f23)).
    split; [by apply get_ok_eq; vm_compute|]. split; [by apply get_ok_eq; vm_compute|]. split; [dec|split; dec].
Qed.
(** By stability the concepts between two kept ones may be dropped: the parent of the bottom in the
    result is not a parent in the lattice. *)
Theorem C140_stability_refuted : ¬ ∀ c l pop d opt s x ps ps', good c → comparable (objs c) = true → comparable (atts c) = true →
  mk_lattice c = Ok l → (∀ k W, W ≠ ∅ → pop k W ∈ W) → fcompute_istability pop (lconcepts l) = Ok d → pyfloat opt →
  ffilter_concepts d "value" opt = Ok s → x ∈ sconcepts s →
  (sparents_of s x).2 = Ok ps → lat_parents l x = Ok ps' → ∀ y, y ∈ ps → y ∈ ps'.
Proof.
  intros H. set (d := get_ok [] (fcompute_istability pop_first (lconcepts ex_lat))).
  set (s := get_ok (mk_system []) (ffilter_concepts d "value" f58)).
  assert ((({[o1; o2; o3]}, {[sa]}) : fconcept) ∈ ({[({[o1]}, {[sa; sb]}); ({[o2]}, {[sa; sc]})]} : gset fconcept)) as H';
    [|revert H'; dec].
  eapply (H ex ex_lat pop_first d f58 s (∅, {[sa; sb; sc]}) {[({[o1; o2; o3]}, {[sa]})]} _ ex_good).
  - by vm_compute.
  - by vm_compute.
  - by apply get_ok_eq; vm_compute.
  - exact pop_first_in.
  - by apply get_ok_eq; vm_compute.
  - unfold pyfloat, f58. lia.
  - by apply get_ok_eq; vm_compute.
  - dec.
  - dec.
  - dec.
  - by apply elem_of_singleton.
Qed.
Print Assumptions C140_stability_refuted.
