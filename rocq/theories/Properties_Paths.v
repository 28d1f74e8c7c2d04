(** * The order of concepts recovered from parents and children: the final statements (C146) *)
From stdpp Require Import relations.
From Coq Require Import ZArith QArith Qcanon Floats.SpecFloat.
From Verif Require Import FloatSpec.
From Verif Require Import Py PyFacts Spec SpecFacts ContextModel ContextSpec ContextOps ContextFacts ContextInit ContextFinal
  LatticeSpec LatticeModel NorrisFacts LatticeFacts FilterModel FilterFacts FilterFacts2 FloatModel FloatFacts FloatFacts2
  Properties_Context Properties_Lattice Properties_Filter Properties_Float Properties_Iceberg Properties_SysTop.
Local Open Scope nat_scope.

(** One step from a concept to one of its parents in a system, or in a lattice. *)
Definition sys_up (s : csystem) (x y : fconcept) : Prop := ∃ ps, (sparents_of s x).2 = Ok ps ∧ y ∈ ps.
Definition sys_down (s : csystem) (x y : fconcept) : Prop := ∃ ks, (schildren s x).2 = Ok ks ∧ y ∈ ks.
Definition lat_up (l : lattice) (x y : fconcept) : Prop := ∃ ps, lat_parents l x = Ok ps ∧ y ∈ ps.
Definition lat_down (l : lattice) (x y : fconcept) : Prop := ∃ ks, lat_children l x = Ok ks ∧ y ∈ ks.

Lemma covers_chain (cs : list fconcept) (R : fconcept → fconcept → Prop) :
  (∀ x y, x ∈ cs → y ∈ cs → covers cs y x → R x y) →
  ∀ x y, x ∈ cs → y ∈ cs → y.2 ⊂ x.2 → tc R x y.
Proof.
  intros HR x y Hx Hy. remember (size x.2 - size y.2) as n eqn:En.
  revert x y Hx Hy En. induction (lt_wf n) as [n _ IH]. intros x y Hx Hy En Hs.
  destruct (decide (Exists (λ z : fconcept, y.2 ⊂ z.2 ∧ z.2 ⊂ x.2) cs)) as [HE|HE].
  - apply Exists_exists in HE as (z & Hz & H1 & H2). pose proof (subset_size _ _ H1). pose proof (subset_size _ _ H2).
    trans z.
    + apply (IH (size x.2 - size z.2)); [lia|done|done|done|done].
    + apply (IH (size z.2 - size y.2)); [lia|done|done|done|done].
  - apply tc_once, HR; [done|done|]. split; [done|]. split; [done|]. intros (z & Hz & H). apply HE, Exists_exists. eauto.
Qed.

(** ** C146 *)
(** In a system, after any history: being a parent and being a child are converse to each other, and one concept
    has a smaller intent than another exactly if it can be reached by going from parent to parent. *)
Theorem C146_system cs l : let s := srun (mk_system cs) l in (∀ x, x ∈ sconcepts s → chash x = true) →
  ∀ x y, x ∈ sconcepts s → y ∈ sconcepts s →
    (sys_up s x y ↔ sys_down s y x) ∧ (tc (sys_up s) x y ↔ y.2 ⊂ x.2) ∧ (tc (sys_down s) y x ↔ y.2 ⊂ x.2).
Proof.
  intros s Hh. pose proof (C34_parents_children cs l Hh) as H. fold s in H. cbv zeta in H.
  assert (∀ x y, x ∈ sconcepts s → sys_up s x y ↔ covers (sconcepts s) y x) as Hup.
  { intros x y Hx. destruct (H x Hx) as ((ps & E & Hps) & _). unfold sys_up. rewrite <- Hps. split.
    - intros (ps' & E' & Hy). assert (ps' = ps) as -> by congruence. done.
    - eauto. }
  assert (∀ x y, x ∈ sconcepts s → sys_down s x y ↔ y ∈ sconcepts s ∧ covers (sconcepts s) x y) as Hdown.
  { intros x y Hx. destruct (H x Hx) as (_ & ks & E & Hks). unfold sys_down. rewrite <- Hks. split.
    - intros (ks' & E' & Hy). assert (ks' = ks) as -> by congruence. done.
    - eauto. }
  intros x y Hx Hy. split; [|split].
  - rewrite (Hup x y Hx), (Hdown y x Hy). tauto.
  - split; [|apply (covers_chain (sconcepts s)); [|done|done]; intros a b Ha _; by apply Hup].
    intros Ht. clear Hy. induction Ht as [x y Hs|x z y Hs _ IH]; apply (Hup _ _ Hx) in Hs as (Hz & Hs & _); [done|].
    specialize (IH Hz). by trans z.2.
  - split.
    + intros Ht. clear Hx. induction Ht as [y x Hs|y z x Hs _ IH]; apply (Hdown _ _ Hy) in Hs as (Hz & _ & Hs & _); [done|].
      specialize (IH Hz). by trans z.2.
    + intros Hs. assert (tc (flip (sys_down s)) x y) as Ht.
      { apply (covers_chain (sconcepts s)); [|done|done|done]. intros a b Ha Hb Hc. unfold flip. by apply Hdown. }
      clear -Ht. induction Ht as [x y H|x z y H _ IH]; [by apply tc_once|]. eapply tc_r; [exact IH|]. exact H.
Qed.
Print Assumptions C146_system.
(** In a lattice: a concept is more general than another exactly if it can be reached from parent to parent; the top concept
    is reached from every concept and every concept reaches the bottom concept by children. *)
Theorem C146_lattice c l : good c → comparable (objs c) = true → comparable (atts c) = true → mk_lattice c = Ok l →
  ∀ x y, is_concept (abs c) x.1 x.2 → is_concept (abs c) y.1 y.2 →
    (lat_up l x y ↔ lat_down l y x) ∧ (tc (lat_up l) x y ↔ x.1 ⊂ y.1) ∧ (tc (lat_down l) y x ↔ x.1 ⊂ y.1) ∧
    rtc (lat_up l) x (ltop l) ∧ rtc (lat_down l) x (lbottom l).
Proof.
  intros Hg Ho Ha Hl. destruct (lattice_spec c Hg Ho Ha l Hl) as (_ & _ & Hcs & Hbot & Htop & Hp & _).
  assert (∀ x, x ∈ lconcepts l ↔ is_concept (abs c) x.1 x.2) as Hc by (intros [A B]; apply Hcs).
  set (K := abs c) in *.
  assert (∀ x y, is_concept K x.1 x.2 → lat_up l x y ↔ is_upper_cover K y x) as Hup.
  { intros x y Hx. destruct (Hp x Hx) as ((ps & E & Hps) & _). unfold lat_up. rewrite <- Hps. split.
    - intros (ps' & E' & Hy). assert (ps' = ps) as -> by congruence. done.
    - eauto. }
  assert (∀ x y, is_concept K x.1 x.2 → lat_down l x y ↔ is_concept K y.1 y.2 ∧ is_upper_cover K x y) as Hdown.
  { intros x y Hx. destruct (Hp x Hx) as (_ & (ks & E & Hks) & _). unfold lat_down. rewrite <- Hks. split.
    - intros (ks' & E' & Hy). assert (ks' = ks) as -> by congruence. done.
    - eauto. }
  assert (∀ x y, x ∈ lconcepts l → y ∈ lconcepts l → covers (lconcepts l) y x → is_upper_cover K y x) as Hcov.
  { intros x y Hx Hy H. apply (convex_covers c (lconcepts l) x y) in H as [_ H]; [done| | |done].
    - intros z. by apply Hc.
    - intros a b d _ _ Hb _ _. by apply Hc. }
  assert (∀ x y, is_concept K x.1 x.2 → is_concept K y.1 y.2 → tc (lat_up l) x y ↔ x.1 ⊂ y.1) as Tu.
  { intros x y Hx Hy. split.
    - intros Ht. clear Hy. induction Ht as [x y Hs|x z y Hs _ IH]; apply (Hup _ _ Hx) in Hs as (Hz & Hs & _); [done|].
      specialize (IH Hz). by trans z.1.
    - intros Hs. apply (covers_chain (lconcepts l)); [|by apply Hc|by apply Hc|by apply (concept_order_strict K x.1 x.2 y.1 y.2)].
      intros a b Ha' Hb H. apply Hup; [by apply Hc|]. by apply Hcov. }
  assert (∀ x y, is_concept K x.1 x.2 → is_concept K y.1 y.2 → tc (lat_down l) y x ↔ x.1 ⊂ y.1) as Td.
  { intros x y Hx Hy. split.
    - intros Ht. clear Hx. induction Ht as [y x Hs|y z x Hs _ IH]; apply (Hdown _ _ Hy) in Hs as (Hz & _ & Hs & _); [done|].
      specialize (IH Hz). by trans z.1.
    - intros Hs. assert (tc (flip (lat_down l)) x y) as Ht.
      { apply (covers_chain (lconcepts l)); [|by apply Hc|by apply Hc|by apply (concept_order_strict K x.1 x.2 y.1 y.2)].
        intros a b Ha' Hb H. unfold flip. apply Hdown; [by apply Hc|]. split; [by apply Hc|]. by apply Hcov. }
      clear -Ht. induction Ht as [x y H|x z y H _ IH]; [by apply tc_once|]. eapply tc_r; [exact IH|]. exact H. }
  assert (is_concept K (ltop l).1 (ltop l).2) as Kt by (rewrite Htop; apply top_concept).
  assert (is_concept K (lbottom l).1 (lbottom l).2) as Kb by (rewrite Hbot; apply bot_concept).
  assert (∀ x y : fconcept, is_concept K x.1 x.2 → is_concept K y.1 y.2 → x.1 ⊆ y.1 → x = y ∨ x.1 ⊂ y.1) as Hcase.
  { intros [A B] [A' B'] (_ & _ & H1 & _) (_ & _ & H2 & _) Hs. cbn [fst snd] in *. destruct (decide (A' ⊆ A)) as [H|H]; [|right; done].
    left. assert (A = A') as -> by by apply (anti_symm (⊆)). congruence. }
  intros x y Hx Hy. split; [|split; [by apply Tu|split; [by apply Td|split]]].
  - rewrite (Hup x y Hx), (Hdown y x Hy). tauto.
  - destruct (Hcase x (ltop l) Hx Kt) as [<-|H]; [rewrite Htop; apply Hx|apply rtc_refl|]. by apply tc_rtc, Tu.
  - destruct (Hcase (lbottom l) x Kb Hx) as [->|H]; [|apply rtc_refl|by apply tc_rtc, Td].
    apply (concept_order K _ (lbottom l).2 _ x.2 Kb Hx). rewrite Hbot. apply Hx.
Qed.
Print Assumptions C146_lattice.
Example C146_case : is_ok (mk_lattice ex) = true ∧
  (∃ ps, lat_parents ex_lat ({[o1]}, {[sa; sb]}) = Ok ps ∧ ({[o1; o2; o3]}, {[sa]}) ∈ ps ∧ ({[o1; o2; o3; o4]}, ∅) ∉ ps) ∧
  (∃ ps, lat_parents ex_lat ({[o1; o2; o3]}, {[sa]}) = Ok ps ∧ ({[o1; o2; o3; o4]}, ∅) ∈ ps) ∧
  let s := srun (mk_system (lconcepts ex_lat)) [SRemove ({[o1; o2; o3]}, {[sa]})] in
  (∃ ps, (sparents_of s ({[o1]}, {[sa; sb]})).2 = Ok ps ∧ ({[o1; o2; o3; o4]}, ∅) ∈ ps) ∧
  (∀ x, x ∈ sconcepts s → chash x = true).
Proof.
  split; [by vm_compute|]. split; [|split; [|split]].
  - exists (get_ok ∅ (lat_parents ex_lat ({[o1]}, {[sa; sb]}))). split; [by apply get_ok_eq; vm_compute|]. split; dec.
  - exists (get_ok ∅ (lat_parents ex_lat ({[o1; o2; o3]}, {[sa]}))). split; [by apply get_ok_eq; vm_compute|]. dec.
  - exists (get_ok ∅ (sparents_of (srun (mk_system (lconcepts ex_lat)) [SRemove ({[o1; o2; o3]}, {[sa]})]) ({[o1]}, {[sa; sb]})).2).
    split; [by apply get_ok_eq; vm_compute|]. dec.
  - apply (Forall_forall (λ x, chash x = true)). dec.
Qed.
