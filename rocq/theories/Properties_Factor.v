(** * Factorisation: the final statements (C42-C46) *)
From Coq Require Import QArith Qcanon.
From Verif Require Import Py PyFacts Spec SpecFacts ContextModel ContextSpec ContextFacts ContextInit LatticeModel FilterModel
  FactorSpec FactorModel FactorFacts FactorFacts2 FactorFacts3 Properties_Context.
Local Open Scope nat_scope.

(** Iteration orders used in the examples. *)
Definition ord_el (k i : nat) (X : gset name) : list name := elements X.
Lemma ord_el_perm k i X : ord_el k i X ≡ₚ elements X.
Proof. done. Qed.
Definition ord_pref (p : list name) (k i : nat) (X : gset name) : list name :=
  filter (fun x => x ∈ X) p ++ elements (X ∖ list_to_set p).
Lemma ord_pref_perm p k i X : NoDup p → ord_pref p k i X ≡ₚ elements X.
Proof.
  intros Hp. apply NoDup_Permutation.
  - apply NoDup_app. split; [by apply NoDup_filter|]. split; [|apply NoDup_elements].
    intros x. rewrite elem_of_list_filter, elem_of_elements. set_solver.
  - apply NoDup_elements.
  - intros x. unfold ord_pref. rewrite elem_of_app, elem_of_list_filter, !elem_of_elements, elem_of_difference, elem_of_list_to_set.
    destruct (decide (x ∈ p)); tauto.
Qed.

(** ** C42: algorithm2 with the default fidelity *)
Theorem C42_algorithm2 c ord : good c → (∀ k i X, ord k i X ≡ₚ elements X) →
  (fI (abs c) = ∅ → algorithm2 c ord (Q2Qc 1) = ([], Err ZeroDivisionError)) ∧
  (fI (abs c) ≠ ∅ →
   ∃ ys, algorithm2 c ord (Q2Qc 1) = (ys, Ok tt) ∧
     (∀ y, y ∈ ys → is_concept (abs c) y.1.1 y.1.2) ∧
     (∀ g m, incident c g m ↔ ∃ y, y ∈ ys ∧ g ∈ y.1.1 ∧ m ∈ y.1.2) ∧
     (** every factor covers a cross no earlier factor covers; the number reported
         is the fraction of crosses so covered; and no extension of the factor by one
         attribute covers more of them *)
     (∀ i y, ys !! i = Some y → let before := map fst (take i ys) in
       gain (abs c) before y.1 ≠ ∅ ∧
       y.2 = qdiv (Z.of_nat (size (gain (abs c) before y.1))) (Z.of_nat (size (fI (abs c)))) ∧
       ∀ m, m ∈ atts c → m ∉ y.1.2 →
         size (gain (abs c) before (down (abs c) (y.1.2 ∪ {[m]}), up (abs c) (down (abs c) (y.1.2 ∪ {[m]}))))
         ≤ size (gain (abs c) before y.1)) ∧
     foldr Qcplus (Q2Qc 0) (map snd ys) = Q2Qc 1).
Proof. intros Hg Hord. split; [by apply algorithm2_empty|by apply algorithm2_full]. Qed.
Print Assumptions C42_algorithm2.
Example C42_case : good ex ∧ fI (abs ex) ≠ ∅ ∧
  algorithm2 ex ord_el (Q2Qc 1) =
    ([(({[o1; o2; o3]}, {[sa]}), Q2Qc (3 # 5)); (({[o1]}, {[sa; sb]}), Q2Qc (1 # 5)); (({[o2]}, {[sa; sc]}), Q2Qc (1 # 5))], Ok tt).
Proof. split; [exact ex_good|]. split; dec. Qed.
(** Another order, other factors order. *)
Example C42_case2 :
  algorithm2 ex (ord_pref [sc; sb; sa]) (Q2Qc 1) =
    ([(({[o1; o2; o3]}, {[sa]}), Q2Qc (3 # 5)); (({[o2]}, {[sa; sc]}), Q2Qc (1 # 5)); (({[o1]}, {[sa; sb]}), Q2Qc (1 # 5))], Ok tt).
Proof. dec. Qed.

(** ** C43: fidelity *)
Theorem C43_fidelity c ord fid : good c → (∀ k i X, ord k i X ≡ₚ elements X) → fI (abs c) ≠ ∅ →
  ∃ ys r, algorithm2 c ord fid = (ys, r) ∧
    foldr Qcplus (Q2Qc 0) (map snd ys) = qdiv (ncovered (abs c) (map fst ys)) (Z.of_nat (size (fI (abs c)))) ∧
    (∀ i, i < length ys → (qdiv (ncovered (abs c) (map fst (take i ys))) (Z.of_nat (size (fI (abs c)))) < fid)%Qc) ∧
    ((fid <= Q2Qc 1)%Qc → r = Ok tt ∧ (fid <= qdiv (ncovered (abs c) (map fst ys)) (Z.of_nat (size (fI (abs c)))))%Qc) ∧
    ((Q2Qc 1 < fid)%Qc → r = Err AssertionError ∧ uncovered (abs c) (map fst ys) = ∅).
Proof.
  intros Hg Hord HI. destruct (algorithm2_spec c ord fid Hg Hord HI) as (ys & r & E & H1 & H2 & H3 & H4).
  exists ys, r. split; [exact E|]. split; [exact H2|]. split; [|split; [exact H3|exact H4]].
  intros i [y Hy]%lookup_lt_is_Some_2. apply (H1 i y Hy).
Qed.
Print Assumptions C43_fidelity.
Example C43_case :
  algorithm2 ex ord_el (Q2Qc (1 # 2)) = ([(({[o1; o2; o3]}, {[sa]}), Q2Qc (3 # 5))], Ok tt) ∧
  (algorithm2 ex ord_el (Q2Qc (2 # 1))).2 = Err AssertionError ∧ length (algorithm2 ex ord_el (Q2Qc (2 # 1))).1 = 3.
Proof. split; [dec|]. split; dec. Qed.

(** ** C44: make_factor_cxts *)
Theorem C44_factor_contexts fs :
  ∃ l r, make_factor_cxts fs = Ok (l, r) ∧ good l ∧ good r ∧
    atts l = objs r ∧ length (objs r) = length fs ∧
    (∀ x, x ∈ objs l ↔ ∃ f, f ∈ fs ∧ x ∈ f.1) ∧ (∀ x, x ∈ atts r ↔ ∃ f, f ∈ fs ∧ x ∈ f.2) ∧
    (∀ i f nm, fs !! i = Some f → atts l !! i = Some nm →
      nm = NStr ("f" ++ pretty i) ∧ (∀ x, incident l x nm ↔ x ∈ f.1) ∧ (∀ x, incident r nm x ↔ x ∈ f.2)) ∧
    ((∃ f x, f ∈ fs ∧ x ∈ f.1) →
      ∃ p, context_mul l r = Ok p ∧ objs p = objs l ∧ atts p = atts r ∧
        ∀ g m, incident p g m ↔ ∃ f, f ∈ fs ∧ g ∈ f.1 ∧ m ∈ f.2) ∧
    ((∀ f, f ∈ fs → f.1 = []) → context_mul l r = Err ValueError).
Proof. exact (make_factor_cxts_full fs). Qed.
Print Assumptions C44_factor_contexts.
Theorem C44_recomposition c ord ys r fs : good c → (∀ k i X, ord k i X ≡ₚ elements X) → fI (abs c) ≠ ∅ →
  algorithm2 c ord (Q2Qc 1) = (ys, r) →
  (** [fs]: the extents and intents of the factors as they are iterated *)
  Forall2 (λ (f : list name * list name) (y : fconcept * Qc), f.1 ≡ₚ elements y.1.1 ∧ f.2 ≡ₚ elements y.1.2) fs ys →
  ∃ l r p, make_factor_cxts fs = Ok (l, r) ∧ context_mul l r = Ok p ∧ ∀ g m, incident p g m ↔ incident c g m.
Proof. exact (algorithm2_product c ord ys r fs). Qed.
Print Assumptions C44_recomposition.
Definition ex_fs : list (list name * list name) := [([o3; o1; o2], [sa]); ([o1], [sb; sa]); ([o2], [sa; sc])].
Example C44_case :
  (p ← make_factor_cxts ex_fs; Ok (objs p.1, atts p.1, np p.1, atts p.2, np p.2)) =
    Ok ([o3; o1; o2], [NStr "f0"; NStr "f1"; NStr "f2"], [[true; false; false]; [true; true; false]; [true; false; true]],
        [sa; sb; sc], [[true; false; false]; [true; true; false]; [true; false; true]]) ∧
  (p ← make_factor_cxts ex_fs; c ← context_mul p.1 p.2; Ok (objs c, atts c, np c)) =
    Ok ([o3; o1; o2], [sa; sb; sc], [[true; false; false]; [true; true; false]; [true; false; true]]) ∧
  Forall2 (λ (f : list name * list name) (y : fconcept * Qc), f.1 ≡ₚ elements y.1.1 ∧ f.2 ≡ₚ elements y.1.2)
    ex_fs (algorithm2 ex ord_el (Q2Qc 1)).1.
Proof. split; [dec|]. split; [dec|]. dec. Qed.

(** ** C45: algorithm2_weighted *)
Theorem C45_weighted_fails c ord fid : good c → (∀ k i X, ord k i X ≡ₚ elements X) → fI (abs c) ≠ ∅ →
  ((∀ x, x ∈ objs c → x ∉ atts c) → (Q2Qc 0 < fid)%Qc → algorithm2_weighted c ord fid = ([], Err AssertionError)) ∧
  ((fid <= Q2Qc 0)%Qc → algorithm2_weighted c ord fid = ([], Ok tt)).
Proof. intros Hg Hord HI. split; [by apply weighted_fails|by apply weighted_nothing]. Qed.
Print Assumptions C45_weighted_fails.
Example C45_case : good ex ∧ fI (abs ex) ≠ ∅ ∧ (∀ x, x ∈ objs ex → x ∉ atts ex) ∧ (Q2Qc 0 < Q2Qc 1)%Qc ∧
  algorithm2_weighted ex ord_el (Q2Qc 1) = ([], Err AssertionError).
Proof. split; [exact ex_good|]. split; [dec|]. split; [apply Forall_forall; dec|]. split; [done|]. dec. Qed.
(** With a name which is both an object and an attribute it may succeed. *)
Definition overlap := get_ok empty_cxt (mk_context [[true; true]; [true; true]] None [sa; sb] [sa; sb]).
Example C45_overlap :
  algorithm2_weighted overlap ord_el (Q2Qc 1) = ([(({[sa; sb]}, {[sa; sb]}), Q2Qc 1)], Ok tt).
Proof. dec. Qed.

(** ** C46: algorithm2_w_condition *)
Theorem C46_w_condition c ord allow mn ge fid : good c → (∀ k i X, ord k i X ≡ₚ elements X) →
  (fI (abs c) = ∅ → algorithm2_w_condition c ord allow mn ge fid = ([], Ok tt)) ∧
  (fI (abs c) ≠ ∅ →
   ∃ ys r, algorithm2_w_condition c ord allow mn ge fid = (ys, r) ∧
    (** it ends, normally or with the 'Algorithm stuck' exception of line 239 *)
    (r = Ok tt ∨ r = Err (UserException 239) ∧ ¬ (mn ≤ 1 ∧ ge = false)%Z) ∧
    (** the factors never cover the whole relation *)
    uncovered (abs c) (map fst (map fst ys)) ≠ ∅ ∧
    ∀ i A B q1 q2, ys !! i = Some ((A, B), q1, q2) → let before := map fst (map fst (take i ys)) in
      is_concept (abs c) A B ∧
      (mn ≤ Z.of_nat (size A) ∧ mn ≤ Z.of_nat (size B))%Z ∧ (ge = true → size B ≤ size A) ∧
      (** the covered fraction is at most what is reported *)
      (qdiv (ncovered (abs c) (before ++ [(A, B)])) (Z.of_nat (size (fI (abs c)))) <= q2)%Qc ∧
      (allow = true → gain (abs c) before (A, B) ≠ ∅) ∧
      (allow = false → ∃ m, m ∈ B ∧ ∀ h, h ∈ before → m ∉ h.2) ∧
      (allow = true → (mn ≤ 1)%Z → ge = false →
        q1 = qdiv (Z.of_nat (size (gain (abs c) before (A, B)))) (Z.of_nat (size (fI (abs c)))) ∧
        q2 = qdiv (ncovered (abs c) (before ++ [(A, B)])) (Z.of_nat (size (fI (abs c)))))).
Proof. intros Hg Hord. split; [by apply wcond_empty|by apply wcond_full]. Qed.
Print Assumptions C46_w_condition.
Example C46_case :
  algorithm2_w_condition ex ord_el true 1 false (Q2Qc 1) =
    ([(({[o1; o2; o3]}, {[sa]}), Q2Qc (3 # 5), Q2Qc (3 # 5)); (({[o1]}, {[sa; sb]}), Q2Qc (1 # 5), Q2Qc (4 # 5))], Ok tt).
Proof. dec. Qed.

(** The exception does occur, and whether it does depends on the iteration order of a set. *)
Definition stuck_table := [[false; false; true]; [true; false; true]; [true; false; true]; [true; false; false]; [false; true; false]].
Definition stuck := get_ok empty_cxt (mk_context stuck_table None [NInt 0; o1; o2; o3; o4] [sa; sb; sc]).
Lemma stuck_good : good stuck.
Proof.
  eapply (mk_context_good stuck_table None); [by apply get_ok_eq; vm_compute| | |done].
  - by apply (bool_decide_unpack _).
  - by apply (bool_decide_unpack _).
Qed.
Lemma acb_perm k i X : ord_pref [sa; sc; sb] k i X ≡ₚ elements X.
Proof. apply ord_pref_perm. by apply (bool_decide_unpack _). Qed.
Lemma abc_perm k i X : ord_pref [sa; sb; sc] k i X ≡ₚ elements X.
Proof. apply ord_pref_perm. by apply (bool_decide_unpack _). Qed.
Theorem C46_no_failure_refuted : ¬ ∀ c ord allow mn ge fid, good c → (∀ k i X, ord k i X ≡ₚ elements X) →
  (algorithm2_w_condition c ord allow mn ge fid).2 = Ok tt.
Proof.
  intros H. specialize (H stuck (ord_pref [sa; sc; sb]) true 2%Z false (Q2Qc 1) stuck_good acb_perm).
  revert H. dec.
Qed.
Print Assumptions C46_no_failure_refuted.
Theorem C46_order_independent_refuted : ¬ ∀ c ord1 ord2 allow mn ge fid, good c →
  (∀ k i X, ord1 k i X ≡ₚ elements X) → (∀ k i X, ord2 k i X ≡ₚ elements X) →
  (algorithm2_w_condition c ord1 allow mn ge fid).2 = (algorithm2_w_condition c ord2 allow mn ge fid).2.
Proof.
  intros H. specialize (H stuck (ord_pref [sa; sc; sb]) (ord_pref [sa; sb; sc]) true 2%Z false (Q2Qc 1) stuck_good acb_perm abc_perm).
  revert H. dec.
Qed.
Print Assumptions C46_order_independent_refuted.
(** With allow_repeatitions=False the reported coverage is not the coverage: 1 is reported for 3 crosses of 5. *)
Theorem C46_reported_coverage_refuted : ¬ ∀ c ord allow mn ge fid y, good c → (∀ k i X, ord k i X ≡ₚ elements X) →
  (algorithm2_w_condition c ord allow mn ge fid).1 = [y] →
  y.2 = qdiv (ncovered (abs c) [y.1.1]) (Z.of_nat (size (fI (abs c)))).
Proof.
  intros H. specialize (H ex ord_el false 1%Z false (Q2Qc 1) (({[o1; o2; o3]}, {[sa]}), Q2Qc 1, Q2Qc 1) ex_good ord_el_perm).
  revert H. dec.
Qed.
Print Assumptions C46_reported_coverage_refuted.
