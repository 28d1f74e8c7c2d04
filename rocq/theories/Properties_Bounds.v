(** * Suprema and infima, the table, and the basis read from the concepts: the final statements (C142) *)
From Verif Require Import Py Spec PyFacts SpecFacts ContextModel ContextSpec ContextOps ContextFacts ContextInit
  ContextMisc ContextReduce ContextFinal ContextEq ClosureModel ClosureFacts DgSpec DgModel DgMain DgFinal LatticeSpec LatticeModel
  NorrisFacts LatticeFacts CrossFacts CrossFacts2
  Properties_Context Properties_Closure Properties_Dg Properties_Lattice Properties_Cross.

(** ** C142 *)
(** Any set of the concepts found has a largest concept below all of them, whose extent consists of the
    objects common to their extents, and a smallest concept above all of them, whose intent consists of
    the attributes common to their intents. *)
Theorem C142_bounds c cs (X : list fconcept) : good c → norris c = Ok cs → (∀ x, x ∈ X → x ∈ cs) →
  (∃ m : fconcept, m ∈ cs ∧ (∀ g, g ∈ m.1 ↔ g ∈ objs c ∧ ∀ x : fconcept, x ∈ X → g ∈ x.1) ∧
     ∀ y : fconcept, y ∈ cs → y.1 ⊆ m.1 ↔ ∀ x : fconcept, x ∈ X → y.1 ⊆ x.1) ∧
  (∃ j : fconcept, j ∈ cs ∧ (∀ a, a ∈ j.2 ↔ a ∈ atts c ∧ ∀ x : fconcept, x ∈ X → a ∈ x.2) ∧
     ∀ y : fconcept, y ∈ cs → j.1 ⊆ y.1 ↔ ∀ x : fconcept, x ∈ X → x.1 ⊆ y.1).
Proof.
  intros Hg Hn HX. destruct (norris_of c cs Hg Hn) as [_ Hcs].
  assert (∀ x : fconcept, x ∈ cs → is_concept (abs c) x.1 x.2) as Hc by (intros [A B] H; by apply Hcs).
  set (BB := ⋃ (map snd X) : gset name). set (AA := ⋃ (map fst X) : gset name).
  assert (∀ a, a ∈ BB ↔ ∃ x : fconcept, x ∈ X ∧ a ∈ x.2) as HB.
  { intros a. unfold BB. rewrite elem_of_union_list. split.
    - intros (B & (x & -> & Hx)%elem_of_list_fmap & Ha). by exists x.
    - intros (x & Hx & Ha). exists x.2. split; [apply elem_of_list_fmap; by exists x|done]. }
  assert (∀ g, g ∈ AA ↔ ∃ x : fconcept, x ∈ X ∧ g ∈ x.1) as HA.
  { intros a. unfold AA. rewrite elem_of_union_list. split.
    - intros (B & (x & -> & Hx)%elem_of_list_fmap & Ha). by exists x.
    - intros (x & Hx & Ha). exists x.1. split; [apply elem_of_list_fmap; by exists x|done]. }
  assert (BB ⊆ fM (abs c)) as HBM.
  { intros a (x & Hx & Ha)%HB. destruct (Hc x (HX x Hx)) as (_ & H & _). by apply H. }
  assert (AA ⊆ fG (abs c)) as HAG.
  { intros g (x & Hx & Ha)%HA. destruct (Hc x (HX x Hx)) as (H & _). by apply H. }
  assert (∀ g, g ∈ down (abs c) BB ↔ g ∈ objs c ∧ ∀ x : fconcept, x ∈ X → g ∈ x.1) as Hm.
  { intros g. rewrite elem_of_down, elem_of_fG. split; intros [Hgo H]; (split; [done|]).
    - intros x Hx. destruct (Hc x (HX x Hx)) as (_ & _ & _ & <-). apply elem_of_down. split; [by apply elem_of_fG|].
      intros a Ha. apply H, HB. by exists x.
    - intros a (x & Hx & Ha)%HB. specialize (H x Hx). destruct (Hc x (HX x Hx)) as (_ & _ & _ & E). rewrite <- E in H.
      apply elem_of_down in H as [_ H]. by apply H. }
  assert (∀ a, a ∈ up (abs c) AA ↔ a ∈ atts c ∧ ∀ x : fconcept, x ∈ X → a ∈ x.2) as Hj.
  { intros a. rewrite elem_of_up, elem_of_fM. split; intros [Hao H]; (split; [done|]).
    - intros x Hx. destruct (Hc x (HX x Hx)) as (_ & _ & <- & _). apply elem_of_up. split; [by apply elem_of_fM|].
      intros g Hgx. apply H, HA. by exists x.
    - intros g (x & Hx & Hgx)%HA. specialize (H x Hx). destruct (Hc x (HX x Hx)) as (_ & _ & E & _). rewrite <- E in H.
      apply elem_of_up in H as [_ H]. by apply H. }
  split.
  - exists (down (abs c) BB, acl (abs c) BB). split; [by apply Hcs, concept_of_attributes|]. split; [exact Hm|].
    intros y Hy. cbn [fst]. split.
    + intros H x Hx g Hgy. apply H in Hgy. apply Hm in Hgy as [_ Hgy]. by apply Hgy.
    + intros H g Hgy. apply Hm. split; [|intros x Hx; by apply (H x Hx)]. apply elem_of_fG. by apply (Hc y Hy).
  - exists (ocl (abs c) AA, up (abs c) AA). split; [by apply Hcs, concept_of_objects|]. split; [exact Hj|].
    intros y Hy. cbn [fst]. split.
    + intros H x Hx g Hgx. apply H. apply (ocl_ext (abs c) AA HAG). apply HA. by exists x.
    + intros H. destruct (Hc y Hy) as (H1 & H2 & H3 & H4).
      assert (AA ⊆ y.1) as H5 by (intros g (x & Hx & Hgx)%HA; by apply (H x Hx)).
      apply (ocl_mono (abs c)) in H5. unfold ocl in H5 at 2. by rewrite H3, H4 in H5.
Qed.
Print Assumptions C142_bounds.

(** The table is read from the concepts: a cross is an object and an attribute of one concept.  Every
    object has a smallest concept and every attribute a largest one, the cross says that the former is
    below the latter, and a concept is above those of the objects of its extent and no further. *)
Theorem C142_table c cs : good c → norris c = Ok cs →
  (∀ o a, incident c o a ↔ ∃ x : fconcept, x ∈ cs ∧ o ∈ x.1 ∧ a ∈ x.2) ∧
  ∃ (ob at_ : name → fconcept),
    (∀ o, o ∈ objs c → ob o ∈ cs ∧ ∀ y : fconcept, y ∈ cs → o ∈ y.1 ↔ (ob o).1 ⊆ y.1) ∧
    (∀ a, a ∈ atts c → at_ a ∈ cs ∧ ∀ y : fconcept, y ∈ cs → a ∈ y.2 ↔ y.1 ⊆ (at_ a).1) ∧
    (∀ o a, o ∈ objs c → a ∈ atts c → incident c o a ↔ (ob o).1 ⊆ (at_ a).1) ∧
    (∀ x y : fconcept, x ∈ cs → y ∈ cs → x.1 ⊆ y.1 ↔ ∀ o, o ∈ x.1 → (ob o).1 ⊆ y.1) ∧
    (∀ x y : fconcept, x ∈ cs → y ∈ cs → y.1 ⊆ x.1 ↔ ∀ a, a ∈ x.2 → y.1 ⊆ (at_ a).1).
Proof.
  intros Hg Hn. destruct (norris_of c cs Hg Hn) as [_ Hcs].
  assert (∀ x : fconcept, x ∈ cs → is_concept (abs c) x.1 x.2) as Hc by (intros [A B] H; by apply Hcs).
  split.
  { intros o a. split.
    - intros Hi. pose proof (proj2 (elem_of_fI c o a) Hi) as HI.
      assert (o ∈ objs c ∧ a ∈ atts c) as [Ho Ha].
      { destruct Hi as (i & j & r & ? & ? & _). split; by eapply elem_of_list_lookup_2. }
      exists (ocl (abs c) {[o]}, up (abs c) {[o]}).
      assert (({[o]} : gset name) ⊆ fG (abs c)) as Hs by (intros g ->%elem_of_singleton; by apply elem_of_fG).
      split; [by apply Hcs, concept_of_objects|]. split; [apply (ocl_ext _ _ Hs), elem_of_singleton; done|].
      apply elem_of_up. split; [by apply elem_of_fM|]. by intros g ->%elem_of_singleton.
    - intros (x & Hx & Ho & Ha). destruct (Hc x Hx) as (_ & _ & E & _). rewrite <- E in Ha. apply elem_of_up in Ha as [_ Ha].
      apply elem_of_fI. by apply Ha. }
  set (ob o := (ocl (abs c) {[o]}, up (abs c) {[o]}) : fconcept).
  set (at_ a := (down (abs c) {[a]}, acl (abs c) {[a]}) : fconcept).
  assert (∀ o, o ∈ objs c → ob o ∈ cs ∧ ∀ y : fconcept, y ∈ cs → o ∈ y.1 ↔ (ob o).1 ⊆ y.1) as H1.
  { intros o Ho. assert (({[o]} : gset name) ⊆ fG (abs c)) as Hs by (intros g ->%elem_of_singleton; by apply elem_of_fG).
    split; [by apply Hcs, concept_of_objects|]. intros y Hy. destruct (Hc y Hy) as (_ & _ & E1 & E2). cbn [ob fst]. split.
    - intros H. assert (({[o]} : gset name) ⊆ y.1) as H' by by intros g ->%elem_of_singleton.
      apply (ocl_mono (abs c)) in H'. unfold ocl in H' at 2. by rewrite E1, E2 in H'.
    - intros H. apply H, (ocl_ext _ _ Hs), elem_of_singleton. done. }
  assert (∀ a, a ∈ atts c → at_ a ∈ cs ∧ ∀ y : fconcept, y ∈ cs → a ∈ y.2 ↔ y.1 ⊆ (at_ a).1) as H2.
  { intros a Ha. assert (({[a]} : gset name) ⊆ fM (abs c)) as Hs by (intros g ->%elem_of_singleton; by apply elem_of_fM).
    split; [by apply Hcs, concept_of_attributes|]. intros y Hy. destruct (Hc y Hy) as (HA & HB & E1 & E2). cbn [at_ fst].
    rewrite (galois _ _ _ HA Hs), E1. split; [by intros H g ->%elem_of_singleton|]. intros H. apply H. by apply elem_of_singleton. }
  exists ob, at_. split; [done|]. split; [done|]. split; [|split].
  - intros o a Ho Ha. destruct (H2 a Ha) as [Hat _]. destruct (H1 o Ho) as [_ H]. rewrite <- (H _ Hat). cbn [at_ fst].
    rewrite elem_of_down, elem_of_fG. split.
    + intros Hi. split; [done|]. intros m ->%elem_of_singleton. by apply elem_of_fI.
    + intros [_ Hi]. apply elem_of_fI, Hi. by apply elem_of_singleton.
  - intros x y Hx Hy. split.
    + intros H o Ho. assert (o ∈ objs c) as Ho' by (apply elem_of_fG; by apply (Hc x Hx)). apply (H1 o Ho'); auto.
    + intros H o Ho. assert (o ∈ objs c) as Ho' by (apply elem_of_fG; by apply (Hc x Hx)). apply (H1 o Ho'); auto.
  - intros x y Hx Hy. rewrite (concept_order (abs c) y.1 y.2 x.1 x.2 (Hc y Hy) (Hc x Hx)). split.
    + intros H a Ha. assert (a ∈ atts c) as Ha' by (apply elem_of_fM; by apply (Hc x Hx)). apply (H2 a Ha'); auto.
    + intros H a Ha. assert (a ∈ atts c) as Ha' by (apply elem_of_fM; by apply (Hc x Hx)). apply (H2 a Ha'); auto.
Qed.
Print Assumptions C142_table.

(** Contexts with the same attributes have the same basis exactly if they have the same intents. *)
Theorem C142_basis c d ords ords' cs cs' : good c → good d → atts d = atts c → comparable (atts c) = true →
  (∀ s L k X, ords s L k X ≡ₚ elements X) → (∀ s L k X, ords' s L k X ≡ₚ elements X) →
  norris c = Ok cs → norris d = Ok cs' →
  ∃ R R', compute_dg_basis c ords (Some []) always = Ok R ∧ compute_dg_basis d ords' (Some []) always = Ok R' ∧
    (R' = R ↔ map snd cs' ≡ₚ map snd cs).
Proof.
  intros Hg Hg' Ha Hc Ho Ho' Hn Hn'. assert (comparable (atts d) = true) as Hc' by by rewrite Ha.
  destruct (C100_intents_respect_basis c ords Hg Hc Ho) as (cs0 & R & E & ER & Hnd & HR).
  destruct (C100_intents_respect_basis d ords' Hg' Hc' Ho') as (cs1 & R' & E' & ER' & Hnd' & HR').
  assert (cs0 = cs) as -> by congruence. assert (cs1 = cs') as -> by congruence.
  assert (fM (abs c) = fM (abs d)) as HM by (simpl; by rewrite Ha).
  exists R, R'. split; [done|]. split; [done|]. split.
  - intros ->. apply NoDup_Permutation; [done..|]. intros B. by rewrite HR, HR', HM.
  - intros HP. destruct (norris_of c cs Hg Hn) as [_ Hcs]. destruct (norris_of d cs' Hg' Hn') as [_ Hcs'].
    assert (∀ X, X ⊆ fM (abs c) → acl (abs c) X = acl (abs d) X) as Hacl.
    { assert (∀ K K' X, fM K = fM K' → X ⊆ fM K → (∀ A B, is_concept K' A B → ∃ A', is_concept K A' B) → acl K X ⊆ acl K' X) as H.
      { intros K K' X HMK HX Hi. assert (X ⊆ fM K') as HX' by by rewrite <- HMK.
        destruct (Hi _ _ (concept_of_attributes K' X HX')) as (A & H1 & H2 & H3 & H4).
        pose proof (acl_mono K _ _ (acl_ext K' X HX')) as H5. unfold acl in H5 at 2. by rewrite H4, H3 in H5. }
      intros X HX. apply set_eq. intros a. split; [apply (H _ _ _ HM HX)|apply (H (abs d) (abs c) X); [done|by rewrite <- HM|]].
      - intros A B HA%Hcs'. apply (elem_of_list_fmap_1 snd) in HA. rewrite HP in HA.
        apply elem_of_list_fmap in HA as ([A' B'] & EB & HA'). simpl in EB. subst B'. exists A'. by apply Hcs.
      - intros A B HA%Hcs. apply (elem_of_list_fmap_1 snd) in HA. rewrite <- HP in HA.
        apply elem_of_list_fmap in HA as ([A' B'] & EB & HA'). simpl in EB. subst B'. exists A'. by apply Hcs'. }
    change (compute_dg_basis d ords' (Some []) (λ _, true) = Ok R') in ER'.
    rewrite (same_acl_basis c d ords' Hg Hg' (eq_sym Ha) Hc Ho' Hacl) in ER'.
    by apply (same_basis c c ords ords' R R' Hg Hg eq_refl Hc Ho Ho' ER ER').
Qed.
Print Assumptions C142_basis.
(** In [ex] the object 3 is dropped without changing the intents or the basis; 2 is not. *)
Definition sub3 := get_ok empty_cxt (mk_context [[true; true; false]; [true; false; true]; [false; false; false]] None [o1; o2; o4] [sa; sb; sc]).
Definition sub2 := get_ok empty_cxt (mk_context [[true; true; false]; [true; false; false]; [false; false; false]] None [o1; o3; o4] [sa; sb; sc]).
Example C142_case :
  (* meet and join of the concepts of 1 and 2 *)
  norris ex = Ok ex_concepts ∧ (({[o1]}, {[sa; sb]}) : fconcept) ∈ ex_concepts ∧ (({[o2]}, {[sa; sc]}) : fconcept) ∈ ex_concepts ∧
  ((∅, {[sa; sb; sc]}) : fconcept) ∈ ex_concepts ∧ (({[o1; o2; o3]}, {[sa]}) : fconcept) ∈ ex_concepts ∧
  good sub3 ∧ good sub2 ∧ atts sub3 = atts ex ∧ atts sub2 = atts ex ∧ comparable (atts ex) = true ∧
  (∃ cs R, norris sub3 = Ok cs ∧ map snd cs ≡ₚ map snd ex_concepts ∧
    compute_dg_basis ex elts (Some []) always = Ok R ∧ compute_dg_basis sub3 elts (Some []) always = Ok R) ∧
  (∃ cs R R', norris sub2 = Ok cs ∧ ¬ map snd cs ≡ₚ map snd ex_concepts ∧
    compute_dg_basis ex elts (Some []) always = Ok R ∧ compute_dg_basis sub2 elts (Some []) always = Ok R' ∧ R ≠ R').
Proof.
  split; [dec|]. split; [dec|]. split; [dec|]. split; [dec|]. split; [dec|].
  split; [eapply (mk_context_good _ None); [by apply get_ok_eq; vm_compute|dec|dec|done]|].
  split; [eapply (mk_context_good _ None); [by apply get_ok_eq; vm_compute|dec|dec|done]|].
  split; [dec|]. split; [dec|]. split; [by vm_compute|]. split.
  - exists (get_ok [] (norris sub3)), (get_ok [] (compute_dg_basis ex elts (Some []) always)).
    split; [by apply get_ok_eq; vm_compute|]. split; [dec|]. split; [by apply get_ok_eq; vm_compute|]. dec.
  - exists (get_ok [] (norris sub2)), (get_ok [] (compute_dg_basis ex elts (Some []) always)), (get_ok [] (compute_dg_basis sub2 elts (Some []) always)).
    split; [by apply get_ok_eq; vm_compute|]. split; [dec|]. split; [by apply get_ok_eq; vm_compute|].
    split; [by apply get_ok_eq; vm_compute|]. dec.
Qed.
