(** * Duquenne-Guigues basis: the final statements (C23-C28) *)
From Verif Require Import Py Spec PyFacts SpecFacts DgSpec ContextModel ContextSpec ContextOps ContextFacts ContextInit
  ContextFinal ClosureModel ClosureFacts DgModel DgFacts DgMain DgCons DgCxt DgFinal Properties_Context Properties_Closure.

Definition always : gset name → bool := λ _, true.
Definition elts : gset name → list fimp → nat → gset name → list name := λ _ _ _, elements.
Lemma elts_perm s L k X : elts s L k X ≡ₚ elements X.
Proof. reflexivity. Qed.

(** ** C23 *)
Theorem C23_dg_basis c ords : good c → comparable (atts c) = true →
  (∀ s L k X, ords s L k X ≡ₚ elements X) →
  ∃ R, compute_dg_basis c ords (Some []) always = Ok R ∧
    compute_dg_basis_simple c (Some []) always = Ok R ∧
    (∀ i, i ∈ R → i.2 = acl (abs c) i.1) ∧
    pseudo_family (fM (abs c)) (acl (abs c)) [] (λ P, P ∈ map fst R) ∧
    StronglySorted (lectic (atts c)) (map fst R).
Proof.
  intros Hg Hc Ho. assert (∀ i, i ∈ [] → i.1 ⊆ fM (abs c) ∧ i.2 ⊆ fM (abs c)) as H0 by by intros ? ?%elem_of_nil.
  destruct (dg_exact c Hg Hc [] H0 (or_intror eq_refl)) as (R & HR & H).
  exists R. split; [|split; [exact HR|exact H]]. rewrite <-HR.
  apply (dg_both c Hg Hc [] H0 (or_intror eq_refl) ords Ho). done.
Qed.
Print Assumptions C23_dg_basis.
(** The pseudo-intents are a well defined family: there is only one. *)
Theorem C23_pseudo_intents_unique M cl F F' : pseudo_family M cl [] F → pseudo_family M cl [] F' → ∀ P, F P ↔ F' P.
Proof. intros H H' P. exact (pseudo_family_unique M cl [] F F' P H H'). Qed.
Print Assumptions C23_pseudo_intents_unique.
(** Listed in lectic order, no premise occurs twice. *)
Theorem C23_lectic_strict ms : Transitive (lectic ms) ∧ ∀ P, ¬ lectic ms P P.
Proof. split; [intros P Q R; exact (lectic_trans ms P Q R)|intros P; exact (lectic_irrefl ms P)]. Qed.
Print Assumptions C23_lectic_strict.

Definition dgx_table := [[true; true; false; false; false]; [true; false; true; false; false];
  [false; true; true; true; false]; [false; false; true; false; true]].
Definition dgx := get_ok empty_cxt (mk_context dgx_table None [o1; o2; o3; o4] [sa; sb; sc; sd; se]).
Example dgx_built : mk_context dgx_table None [o1; o2; o3; o4] [sa; sb; sc; sd; se] = Ok dgx.
Proof. reflexivity. Qed.
Example dgx_good : good dgx.
Proof.
  eapply (mk_context_good dgx_table None); [apply dgx_built| | |done].
  - by apply (bool_decide_unpack _).
  - by apply (bool_decide_unpack _).
Qed.
Definition dgx_basis : list fimp :=
  [({[se]}, {[sc; se]}); ({[sd]}, {[sb; sc; sd]}); ({[sb; sc]}, {[sb; sc; sd]}); ({[sb; sc; sd; se]}, {[sa; sb; sc; sd; se]});
   ({[sa; sc; se]}, {[sa; sb; sc; sd; se]}); ({[sa; sb; sc; sd]}, {[sa; sb; sc; sd; se]})].
Example C23_case : comparable (atts dgx) = true ∧
  compute_dg_basis dgx elts (Some []) always = Ok dgx_basis ∧ compute_dg_basis_simple dgx (Some []) always = Ok dgx_basis.
Proof. split; [reflexivity|]. split; dec. Qed.
(** A context without objects. *)
Definition dg0 := get_ok empty_cxt (mk_context [] None [] [sa; sb]).
Example C23_no_objects : mk_context [] None [] [sa; sb] = Ok dg0 ∧
  compute_dg_basis dg0 elts (Some []) always = Ok [(∅, {[sa; sb]})].
Proof. split; [reflexivity|dec]. Qed.

(** ** C24 *)
Theorem C24_sound_complete_irredundant c ords R : good c → comparable (atts c) = true →
  (∀ s L k X, ords s L k X ≡ₚ elements X) →
  compute_dg_basis c ords (Some []) always = Ok R →
  (∀ i, i ∈ R → i.1 ⊆ fM (abs c) ∧ i.2 ⊆ fM (abs c) ∧ holds (abs c) i) ∧
  (∀ i, i.1 ⊆ fM (abs c) → i.2 ⊆ fM (abs c) → holds (abs c) i → entails R i) ∧
  (∀ R1 i R2, R = R1 ++ i :: R2 → ¬ entails (R1 ++ R2) i).
Proof.
  intros Hg Hc Ho HR. assert (∀ i, i ∈ [] → i.1 ⊆ fM (abs c) ∧ i.2 ⊆ fM (abs c)) as H0 by by intros ? ?%elem_of_nil.
  unfold always in HR. rewrite (dg_both c Hg Hc [] H0 (or_intror eq_refl) ords Ho) in HR by done.
  destruct (dg_sound_complete c Hg Hc [] H0 (or_intror eq_refl) R HR) as (H1 & H2 & H3).
  split; [done|]. rewrite app_nil_r in H2. split; [done|].
  intros R1 i R2 E. specialize (H3 R1 i R2 E). by rewrite app_nil_r in H3.
Qed.
Print Assumptions C24_sound_complete_irredundant.
Theorem C24_simple c R : good c → comparable (atts c) = true →
  compute_dg_basis_simple c (Some []) always = Ok R →
  (∀ i, i ∈ R → i.1 ⊆ fM (abs c) ∧ i.2 ⊆ fM (abs c) ∧ holds (abs c) i) ∧
  (∀ i, i.1 ⊆ fM (abs c) → i.2 ⊆ fM (abs c) → holds (abs c) i → entails R i) ∧
  (∀ R1 i R2, R = R1 ++ i :: R2 → ¬ entails (R1 ++ R2) i).
Proof.
  intros Hg Hc HR. apply (C24_sound_complete_irredundant c elts R Hg Hc); [exact elts_perm|].
  rewrite <-HR. assert (∀ i, i ∈ [] → i.1 ⊆ fM (abs c) ∧ i.2 ⊆ fM (abs c)) as H0 by by intros ? ?%elem_of_nil.
  unfold always. rewrite (dg_both c Hg Hc [] H0 (or_intror eq_refl) elts elts_perm); done.
Qed.
Print Assumptions C24_simple.
(** In the example the implication {d} -> {b} holds and follows; {b} -> {d} does not hold. *)
Example C24_case : holds (abs dgx) ({[sd]}, {[sb]}) ∧ entails dgx_basis ({[sd]}, {[sb]}) ∧ ¬ holds (abs dgx) ({[sb]}, {[sd]}).
Proof.
  assert (holds (abs dgx) ({[sd]}, {[sb]})) as H.
  { apply acl_holds; [dec|dec|dec]. }
  split; [exact H|split].
  - destruct (C24_sound_complete_irredundant dgx elts dgx_basis dgx_good) as (_ & Hc & _).
    + reflexivity.
    + exact elts_perm.
    + apply C23_case.
    + apply Hc; [dec|dec|exact H].
  - intros Hh. apply acl_holds in Hh; [|dec|dec].
    revert Hh. change (¬ ({[sd]} : gset name) ⊆ acl (abs dgx) {[sb]}). dec.
Qed.

(** ** C25 *)
Theorem C25_minimum c ords R S : good c → comparable (atts c) = true →
  (∀ s L k X, ords s L k X ≡ₚ elements X) →
  compute_dg_basis c ords (Some []) always = Ok R →
  (∀ i, i ∈ S → i.1 ⊆ fM (abs c) ∧ i.2 ⊆ fM (abs c) ∧ holds (abs c) i) →
  (∀ i, i.1 ⊆ fM (abs c) → i.2 ⊆ fM (abs c) → holds (abs c) i → entails S i) →
  length R ≤ length S.
Proof.
  intros Hg Hc Ho HR. assert (∀ i, i ∈ [] → i.1 ⊆ fM (abs c) ∧ i.2 ⊆ fM (abs c)) as H0 by by intros ? ?%elem_of_nil.
  unfold always in HR. rewrite (dg_both c Hg Hc [] H0 (or_intror eq_refl) ords Ho) in HR by done.
  intros HS HC. apply (dg_minimum c Hg Hc [] H0 (or_intror eq_refl) R S HR HS). by rewrite app_nil_r.
Qed.
Print Assumptions C25_minimum.
(** Any sound and complete list of implications of the example has six elements or more. *)
Example C25_case S :
  (∀ i, i ∈ S → i.1 ⊆ fM (abs dgx) ∧ i.2 ⊆ fM (abs dgx) ∧ holds (abs dgx) i) →
  (∀ i, i.1 ⊆ fM (abs dgx) → i.2 ⊆ fM (abs dgx) → holds (abs dgx) i → entails S i) → 6 ≤ length S.
Proof. apply (C25_minimum dgx elts dgx_basis S dgx_good); [reflexivity|exact elts_perm|apply C23_case]. Qed.

(** ** C26 *)
Theorem C26_relative_basis c B : good c → comparable (atts c) = true → objs c ≠ [] →
  (∀ i, i ∈ B → i.1 ⊆ fM (abs c) ∧ i.2 ⊆ fM (abs c)) →
  ∃ R, compute_dg_basis_simple c (Some B) always = Ok R ∧
    (∀ ords, (∀ s L k X, ords s L k X ≡ₚ elements X) →
       (∀ p q i j, B !! p = Some i → B !! q = Some j → p ≠ q → imp_eqb i j = false) →
       compute_dg_basis c ords (Some B) always = Ok R) ∧
    (∀ i, i ∈ R → i.1 ⊆ fM (abs c) ∧ i.2 = acl (abs c) i.1 ∧ holds (abs c) i) ∧
    (∀ i, i.1 ⊆ fM (abs c) → i.2 ⊆ fM (abs c) → holds (abs c) i → entails (R ++ B) i) ∧
    (∀ R1 i R2, R = R1 ++ i :: R2 → ¬ entails (R1 ++ R2 ++ B) i) ∧
    pseudo_family (fM (abs c)) (acl (abs c)) B (λ P, P ∈ map fst R) ∧
    StronglySorted (lectic (atts c)) (map fst R).
Proof.
  intros Hg Hc Hne HB. destruct (dg_exact c Hg Hc B HB (or_introl Hne)) as (R & HR & H1 & H2 & H3).
  destruct (dg_sound_complete c Hg Hc B HB (or_introl Hne) R HR) as (H4 & H5 & H6).
  exists R. split; [exact HR|]. split; [intros ords Ho Hd; rewrite <-HR; by apply (dg_both c Hg Hc B HB (or_introl Hne) ords Ho)|].
  split; [intros i Hi; destruct (H4 i Hi) as (? & _ & ?); by rewrite <-(H1 i Hi)|]. done.
Qed.
Print Assumptions C26_relative_basis.
(** It is the shortest completion of the background. *)
Theorem C26_minimum c B R S : good c → comparable (atts c) = true → objs c ≠ [] →
  (∀ i, i ∈ B → i.1 ⊆ fM (abs c) ∧ i.2 ⊆ fM (abs c)) →
  compute_dg_basis_simple c (Some B) always = Ok R →
  (∀ i, i ∈ S → i.1 ⊆ fM (abs c) ∧ i.2 ⊆ fM (abs c) ∧ holds (abs c) i) →
  (∀ i, i.1 ⊆ fM (abs c) → i.2 ⊆ fM (abs c) → holds (abs c) i → entails (S ++ B) i) →
  length R ≤ length S.
Proof. intros Hg Hc Hne HB. exact (dg_minimum c Hg Hc B HB (or_introl Hne) R S). Qed.
Print Assumptions C26_minimum.
Definition dgx_bg : list fimp := [({[sb; sc]}, {[sd]}); ({[sa; sc]}, {[sa; sc]}); ({[sa; sd]}, {[se]}); ({[sd]}, {[sb]})].
Example C26_case : objs dgx ≠ [] ∧
  compute_dg_basis_simple dgx (Some dgx_bg) always =
    Ok [({[se]}, {[sc; se]}); ({[sb; sd]}, {[sb; sc; sd]}); ({[sb; sc; sd; se]}, {[sa; sb; sc; sd; se]});
        ({[sa; sc; se]}, {[sa; sb; sc; sd; se]})]
  ∧ compute_dg_basis dgx elts (Some dgx_bg) always = compute_dg_basis_simple dgx (Some dgx_bg) always.
Proof. split; [done|]. split; dec. Qed.
(** On a context without objects a background knowledge can make the computation fail. *)
Theorem C26_no_objects_refuted :
  compute_dg_basis_simple dg0 (Some [(∅, {[sa]})]) always = Err IndexError.
Proof. dec. Qed.
Print Assumptions C26_no_objects_refuted.

(** ** C27 *)
Theorem C27_iterator c L0 cond out e :
  dg_basis_iter_simple c L0 cond = (out, e) →
  compute_dg_basis_simple c L0 cond = match e with Ok _ => Ok out | Err e => Err e end.
Proof. exact (dg_iter_spec (atts c) (cxt_aclose c) simple_close L0 cond out e). Qed.
Print Assumptions C27_iterator.
Example C27_case : dg_basis_iter_simple dgx (Some []) always = (dgx_basis, Ok tt).
Proof. dec. Qed.
(** The generator over a failing computation yields implications, then raises. *)
Example C27_failing : dg_basis_iter_simple dgx None always = ([], Err TypeError).
Proof. dec. Qed.

(** ** C28 *)
Theorem C28_cond c cond B ords : good c → comparable (atts c) = true → objs c ≠ [] →
  (∀ i, i ∈ B → i.1 ⊆ fM (abs c) ∧ i.2 ⊆ fM (abs c)) →
  (∀ s L k X, ords s L k X ≡ₚ elements X) →
  ∀ r, r = compute_dg_basis_simple c (Some B) cond ∨ r = compute_dg_basis c ords (Some B) cond →
  ∃ R, r = Ok R ∧
    (∀ i, i ∈ R → i.1 ⊆ fM (abs c) ∧ i.2 = acl (abs c) i.1 ∧ i.1 ≠ i.2 ∧ cond i.1 = true ∧ holds (abs c) i) ∧
    StronglySorted (lectic (atts c)) (map fst R) ∧ NoDup (map fst R).
Proof. exact (dg_cond_final c cond B ords). Qed.
Print Assumptions C28_cond.
Definition small (X : gset name) : bool := (size X <=? 2)%nat.
Example C28_case : compute_dg_basis_simple dgx (Some []) small =
  Ok [({[se]}, {[sc; se]}); ({[sd]}, {[sb; sc; sd]}); ({[sb; sc]}, {[sb; sc; sd]})].
Proof. dec. Qed.
