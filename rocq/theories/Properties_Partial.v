(** * Properties of partial contexts (C65, C80-C83) *)
From Verif Require Import Py Spec PyFacts SpecFacts ContextModel ContextSpec ContextInit ContextFacts ClosureModel DgSpec DgModel DgFacts DgMain
  PartialModel PartialSpec PartialFacts Properties_Context.

(** ** C65: no partial context with attributes *)
Theorem C65_built arr xt qt os ats : is_ok (new_partial arr xt qt os ats) = true ↔
  ats = [] ∧ os ≠ [] ∧ xt = replicate (length os) [] ∧ qt = replicate (length os) [].
Proof. exact (new_partial_ok arr xt qt os ats). Qed.
Print Assumptions C65_built.
(** Lists of rows of matching dimensions, at least one row and one column. *)
Theorem C65_cells xt qt os ats rx rq : length xt = length qt → xt !! 0 = Some rx → qt !! 0 = Some rq →
  length rx = length rq → rx ≠ [] → new_partial false xt qt os ats = Err TypeError.
Proof. exact (new_partial_cells false xt qt os ats rx rq). Qed.
Print Assumptions C65_cells.
Theorem C65_no_rows arr os ats : new_partial arr [] [] os ats = Err IndexError.
Proof. exact eq_refl. Qed.
Print Assumptions C65_no_rows.
(** Whatever is done with an instance: no attributes, and no transposition. *)
Theorem C65_reachable p : reachable p →
  p_objs p ≠ [] ∧ p_atts p = [] ∧ atts (px p) = [] ∧ atts (pq p) = [] ∧ p_transpose p = Err IndexError.
Proof.
  intros H. pose proof (reachable_no_atts p H) as Hn. pose proof (p_transpose_err p Hn) as Ht.
  destruct Hn as (H1 & H2 & H3 & H4). exact (conj H1 (conj H2 (conj H3 (conj H4 Ht)))).
Qed.
Print Assumptions C65_reachable.
Example C65_case : new_partial false [[true; false]] [[true; true]] [o1] [sa; sb] = Err TypeError ∧
  is_ok (new_partial false [[]; []] [[]; []] [o1; o2] []) = true ∧
  ∃ p, new_partial false [[]; []] [[]; []] [o1; o2] [] = Ok p ∧ reachable p ∧ p_objs (p_add_object_with_intent p (∅, {[sa]}) o3).1 = [o1; o2; o3].
Proof. split; [reflexivity|]. split; [reflexivity|]. eexists. split; [reflexivity|]. split; [eapply (reach_new false [[]; []] [[]; []] [o1; o2] []); reflexivity|dec]. Qed.

(** ** C80: completing by implications *)
Theorem C80_add p C P o : partial_ok p → C ⊆ P → P ⊆ list_to_set (p_atts p) → o ∉ p_objs p →
  ∃ p', p_add_object_with_intent p (C, P) o = (p', Ok tt) ∧ partial_ok p' ∧ p_objs p' = p_objs p ++ [o] ∧ p_atts p' = p_atts p ∧
    row (px p') o = C ∧ row (pq p') o = P ∧
    ∀ g, g ≠ o → row (px p') g = row (px p) g ∧ row (pq p') g = row (pq p) g.
Proof. exact (p_add_spec p C P o). Qed.
Print Assumptions C80_add.
Theorem C80_add_inconsistent p C P o : ¬ C ⊆ P → p_add_object_with_intent p (C, P) o = (p, Err ValueError).
Proof. exact (p_add_inconsistent p C P o). Qed.
Print Assumptions C80_add_inconsistent.
Theorem C80_complete L p : partial_ok p → (∀ i, i ∈ L → is_ok (imp_repr i) = true) →
  (∀ o, o ∈ p_objs p → ∃ Y, fills L (row (px p) o) (row (pq p) o) Y) →
  ∃ p', p_complete L p = (p', Ok tt) ∧ partial_ok p' ∧ p_objs p' = p_objs p ∧ p_atts p' = p_atts p ∧
    ∀ o, o ∈ p_objs p → completed L (row (px p) o) (row (pq p) o) (row (px p') o) (row (pq p') o).
Proof. exact (p_complete_all L p). Qed.
Print Assumptions C80_complete.
(** The first example that no way of filling makes respect the implications stops the
    method; the examples before it have been completed, the others are untouched. *)
Theorem C80_inconsistent L p l o k : partial_ok p → (∀ i, i ∈ L → is_ok (imp_repr i) = true) → p_objs p = l ++ o :: k →
  (∀ g, g ∈ l → ∃ Y, fills L (row (px p) g) (row (pq p) g) Y) → ¬ (∃ Y, fills L (row (px p) o) (row (pq p) o) Y) →
  ∃ p', p_complete L p = (p', Err ValueError) ∧ partial_ok p' ∧ p_objs p' = p_objs p ∧ p_atts p' = p_atts p ∧
    (∀ g, g ∈ l → completed L (row (px p) g) (row (pq p) g) (row (px p') g) (row (pq p') g)) ∧
    ∀ g, g ∈ o :: k → row (px p') g = row (px p) g ∧ row (pq p') g = row (pq p) g.
Proof. intros Hp HL. exact (p_complete_none L HL p l o k Hp). Qed.
Print Assumptions C80_inconsistent.
(** Completing twice gives nothing new. *)
Theorem C80_twice L p p1 : partial_ok p → (∀ i, i ∈ L → is_ok (imp_repr i) = true) → p_complete L p = (p1, Ok tt) →
  ∃ p2, p_complete L p1 = (p2, Ok tt) ∧ ∀ o, o ∈ p_objs p → row (px p2) o = row (px p1) o ∧ row (pq p2) o = row (pq p1) o.
Proof. exact (p_complete_twice L p p1). Qed.
Print Assumptions C80_twice.
Theorem C80_succeeds L p : partial_ok p → (∀ i, i ∈ L → is_ok (imp_repr i) = true) →
  (p_complete L p).2 = Ok tt ↔ ∀ o, o ∈ p_objs p → ∃ Y, fills L (row (px p) o) (row (pq p) o) Y.
Proof. exact (p_complete_iff L p). Qed.
Print Assumptions C80_succeeds.
Local Ltac built := first [apply get_ok_eq | symmetry; apply get_ok_eq]; vm_compute; reflexivity.
(** Certain and possible crosses of three examples. *)
Definition pxt := [[true; false; false]; [false; false; false]; [false; true; false]].
Definition pqt := [[true; true; false]; [false; false; false]; [false; true; false]].
Definition mkp t t' os ats := PCxt os ats (get_ok empty_cxt (mk_context t None os ats)) (get_ok empty_cxt (mk_context t' None os ats)).
Lemma mkp_ok t t' os ats : NoDup os → NoDup ats → is_ok (mk_context t None os ats) = true → is_ok (mk_context t' None os ats) = true →
  fI (abs (px (mkp t t' os ats))) ⊆ fI (abs (pq (mkp t t' os ats))) → partial_ok (mkp t t' os ats).
Proof.
  intros Ho Ha H1 H2 Hs. apply (get_ok_eq empty_cxt) in H1, H2.
  destruct (mk_context_good _ _ _ _ _ H1 Ho Ha ltac:(done)) as (G1 & O1 & A1 & _).
  destruct (mk_context_good _ _ _ _ _ H2 Ho Ha ltac:(done)) as (G2 & O2 & A2 & _).
  constructor; [done..|]. intros g m Hg%elem_of_fI%Hs. by apply elem_of_fI.
Qed.
Definition pcx := mkp pxt pqt [o1; o2; o3] [sa; sb; sc].
Lemma pcx_ok : partial_ok pcx.
Proof. apply mkp_ok; [by apply (bool_decide_unpack _)..|reflexivity|reflexivity|dec]. Qed.
Example C80_case : partial_ok pcx ∧
  (∃ p', p_complete [({[sa]}, {[sb]})] pcx = (p', Ok tt) ∧ row (px p') o1 = {[sa; sb]}) ∧
  (∃ p', p_complete [({[sb]}, {[sc]})] pcx = (p', Err ValueError) ∧ row (pq p') o1 = {[sa]} ∧ row (pq p') o3 = {[sb]}).
Proof.
  split; [exact pcx_ok|]. split.
  - exists (p_complete [({[sa]}, {[sb]})] pcx).1. split; [|dec].
    rewrite (surjective_pairing (p_complete [({[sa]}, {[sb]})] pcx)) at 1. f_equal.
  - exists (p_complete [({[sb]}, {[sc]})] pcx).1. split; [|split; dec].
    rewrite (surjective_pairing (p_complete [({[sb]}, {[sc]})] pcx)) at 1. f_equal.
Qed.

(** ** C81: the closure of a partial context *)
Theorem C81_xq p A : partial_ok p → p_objs p ≠ [] → A ⊆ list_to_set (p_atts p) →
  ∃ B, xq_aclosure p A = Ok B ∧ A ⊆ B ∧
    (∀ m, m ∈ B ↔ m ∈ p_atts p ∧ ∀ g, g ∈ p_objs p → A ⊆ row (px p) g → m ∈ row (pq p) g) ∧
    ∀ C, C ⊆ list_to_set (p_atts p) → C ⊆ B ↔ unrefuted p (A, C).
Proof.
  intros Hp Hne HA. exists (xq p A). split; [exact (xq_aclosure_spec p Hp Hne A HA)|].
  split; [exact (gr_ext _ _ (xq_growing p Hp) A HA)|]. split; [exact (elem_of_xq p Hp A)|].
  intros C HC. symmetry. exact (xq_unrefuted p Hp (A, C) HC).
Qed.
Print Assumptions C81_xq.
Theorem C81_monotone p A A' B B' : partial_ok p → p_objs p ≠ [] → A' ⊆ list_to_set (p_atts p) → A ⊆ A' →
  xq_aclosure p A = Ok B → xq_aclosure p A' = Ok B' → B ⊆ B'.
Proof. exact (xq_mono p A A' B B'). Qed.
Print Assumptions C81_monotone.
(** It is no closure operator. *)
Theorem C81_idempotent_refuted : ∃ p A B C, partial_ok p ∧ xq_aclosure p A = Ok B ∧ xq_aclosure p B = Ok C ∧ B ≠ C.
Proof. exists pcx, {[sa]}, {[sa; sb]}, {[sa; sb; sc]}. split; [exact pcx_ok|]. split; [|split]; dec. Qed.
Print Assumptions C81_idempotent_refuted.
Example C81_case : partial_ok pcx ∧ xq_aclosure pcx {[sa]} = Ok {[sa; sb]} ∧ xq_aclosure pcx {[sb]} = Ok {[sb]} ∧ xq_aclosure pcx ∅ = Ok ∅.
Proof. split; [exact pcx_ok|]. split; [|split]; dec. Qed.

(** ** C82: the basis of a partial context *)
Theorem C82_sound p L0 cond : partial_ok p → p_objs p ≠ [] → comparable (p_atts p) = true →
  (∀ i, i ∈ L0 → i.1 ⊆ list_to_set (p_atts p) ∧ i.2 ⊆ list_to_set (p_atts p)) →
  ∃ R, compute_partial_dg_basis p (Some L0) cond = Ok R ∧
    (∀ i, i ∈ R → i.1 ⊆ i.2 ∧ i.1 ≠ i.2 ∧ i.2 ⊆ list_to_set (p_atts p) ∧ cond i.1 = true ∧ unrefuted p i ∧
       ∀ C, C ⊆ list_to_set (p_atts p) → unrefuted p (i.1, C) → C ⊆ i.2) ∧
    StronglySorted (lectic (p_atts p)) (map fst R).
Proof. exact (partial_basis_sound p L0 cond). Qed.
Print Assumptions C82_sound.
(** Among the sets that respect the background and the result, only conclusions of the
    result can violate an implication no example refutes. *)
Theorem C82_complete p L0 : partial_ok p → p_objs p ≠ [] → comparable (p_atts p) = true →
  (∀ i, i ∈ L0 → i.1 ⊆ list_to_set (p_atts p) ∧ i.2 ⊆ list_to_set (p_atts p)) →
  ∃ R, compute_partial_dg_basis p (Some L0) (λ _, true) = Ok R ∧
    ∀ X, X ⊆ list_to_set (p_atts p) → model_of (R ++ L0) X →
      (∀ C, C ⊆ list_to_set (p_atts p) → unrefuted p (X, C) → C ⊆ X) ∨ ∃ i, i ∈ R ∧ X = i.2.
Proof. exact (partial_basis_final p L0). Qed.
Print Assumptions C82_complete.
(** Not every implication that no example refutes follows from the result. *)
Theorem C82_complete_refuted : ∃ p R i, partial_ok p ∧ p_objs p ≠ [] ∧ comparable (p_atts p) = true ∧
  compute_partial_dg_basis p (Some []) (λ _, true) = Ok R ∧ i.2 ⊆ list_to_set (p_atts p) ∧ unrefuted p i ∧ ¬ entails R i.
Proof.
  set (M := {[sa; sb; sc]} : gset name).
  exists pcx, [({[sc]}, M); ({[sa]}, {[sa; sb]})], ({[sa; sb]}, {[sc]}).
  split; [exact pcx_ok|]. split; [done|]. split; [reflexivity|]. split; [dec|]. split; [dec|]. split.
  - apply (xq_unrefuted pcx pcx_ok); dec.
  - intros H. assert (sc ∈ ({[sa; sb]} : gset name)) as Hc; [|by vm_compute in Hc].
    apply (H {[sa; sb]}); [|done|cbn; by apply elem_of_singleton].
    intros j [->|[->|[]%elem_of_nil]%elem_of_cons]%elem_of_cons Hj; cbn in *; [|done].
    exfalso. assert (sc ∈ ({[sa; sb]} : gset name)) as Hc by (apply Hj; by apply elem_of_singleton). by vm_compute in Hc.
Qed.
Print Assumptions C82_complete_refuted.
Example C82_case : partial_ok pcx ∧ compute_partial_dg_basis pcx (Some []) (λ _, true) = Ok [({[sc]}, {[sa; sb; sc]}); ({[sa]}, {[sa; sb]})].
Proof. split; [exact pcx_ok|dec]. Qed.

(** ** C83: the printed rows *)
Theorem C83_rows p x q x' q' : x ⊆ q → q ⊆ list_to_set (p_atts p) → x' ⊆ q' → q' ⊆ list_to_set (p_atts p) →
  intent_to_str p x q = intent_to_str p x' q' → x = x' ∧ q = q'.
Proof. exact (intent_to_str_inj p x q x' q'). Qed.
Print Assumptions C83_rows.
Theorem C83_printed p : partial_ok p →
  p_repr p = Ok (String.concat ", " (map pystr (p_atts p)) ++ nl ++ String.concat ", " (map pystr (p_objs p)) ++ nl
    ++ String.concat "" (map (λ o, nl ++ intent_to_str p (row (px p) o) (row (pq p) o)) (p_objs p)))%string.
Proof. exact (p_repr_spec p). Qed.
Print Assumptions C83_printed.
Example C83_case : intent_to_str pcx {[sa]} {[sa; sb]} = "X?."%string ∧ row (px pcx) o1 = {[sa]} ∧ row (pq pcx) o1 = {[sa; sb]}.
Proof. split; [|split]; dec. Qed.
