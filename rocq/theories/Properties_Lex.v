(** * The lectic comparison of premises: the final statements (C128) *)
From Verif Require Import Py Spec PyFacts SpecFacts DgSpec ContextModel ContextSpec ContextOps ContextFacts ContextInit
  ContextFinal ClosureModel ClosureFacts DgModel DgFacts DgMain DgCons DgCxt DgFinal AiModel AiFacts AiRound AiFinal
  Properties_Context Properties_Closure Properties_Dg Properties_Ai LexModel LexSpec LexFacts.

(** ** C128.  The answer is 0 on equal sets; otherwise the first difference by name
    decides: -1 when it belongs to the second set, 1 when it belongs to the first. *)
Theorem C128_first p r : same_kind (pset p) (pset r) →
  (compare_tuples p r = Ok 0%Z ∧ pset p = pset r) ∨
  ∃ m, first_difference (pset p) (pset r) m ∧
    ((compare_tuples p r = Ok 1%Z ∧ m ∈ pset p ∧ m ∉ pset r) ∨ (compare_tuples p r = Ok (-1)%Z ∧ m ∈ pset r ∧ m ∉ pset p)).
Proof.
  intros Hk. destruct (decide (pset p = pset r)) as [E|E]; [left; split; [by apply compare_same|done]|]. right.
  destruct (compare_first p r Hk E) as (m & Hf & ->). exists m. split; [done|].
  destruct Hf as [[[H1 H2]|[H1 H2]] _]; [left|right].
  - by rewrite bool_decide_true.
  - by rewrite bool_decide_false.
Qed.
Print Assumptions C128_first.

(** The only error is the [TypeError] on differences with strings and numbers. *)
Theorem C128_error p r e : compare_tuples p r = Err e ↔ e = TypeError ∧ ¬ same_kind (pset p) (pset r).
Proof.
  split.
  - intros H. assert (¬ same_kind (pset p) (pset r)) as Hn.
    { intros Hk. destruct (C128_first p r Hk) as [[H' _]|(m & _ & [[H' _]|[H' _]])]; congruence. }
    split; [|done]. rewrite (compare_error p r Hn) in H. congruence.
  - intros [-> Hn]. by apply compare_error.
Qed.
Print Assumptions C128_error.

(** A linear order on the sets over names of one kind, extending inclusion. *)
Lemma sorted_names ms : comparable ms = true → ∃ ms', comparable ms' = true ∧ StronglySorted name_le ms' ∧ ms' ≡ₚ ms.
Proof.
  intros Hc. destruct (py_sorted ms) as [l|] eqn:E; [|unfold py_sorted in E; by rewrite Hc in E].
  exists l. destruct (py_sorted_spec _ _ E) as [H1 H2]. split; [|done]. rewrite comparable_kind in *. intros x y. rewrite H1. apply Hc.
Qed.
Lemma set_perm (ms ms' : list name) : ms' ≡ₚ ms → (list_to_set ms : gset name) = list_to_set ms'.
Proof. intros H. apply set_eq. intros x. by rewrite !elem_of_list_to_set, H. Qed.
Theorem C128_order ms p q r : comparable ms = true →
  pset p ⊆ list_to_set ms → pset q ⊆ list_to_set ms → pset r ⊆ list_to_set ms →
  (∃ z, compare_tuples p q = Ok z ∧ z ∈ [(-1)%Z; 0%Z; 1%Z] ∧ compare_tuples q p = Ok (- z)%Z) ∧
  (compare_tuples p q = Ok 0%Z ↔ pset p = pset q) ∧
  (compare_tuples p q = Ok (-1)%Z → compare_tuples q r = Ok (-1)%Z → compare_tuples p r = Ok (-1)%Z) ∧
  (pset p ⊂ pset q → compare_tuples p q = Ok (-1)%Z).
Proof.
  intros Hc Hp Hq Hr. destruct (sorted_names ms Hc) as (ms' & Hc' & HS & Hperm). rewrite (set_perm _ _ Hperm) in Hp, Hq, Hr.
  pose proof (compare_lectic ms' p q Hc' HS Hp Hq) as H1. pose proof (compare_lectic ms' q p Hc' HS Hq Hp) as H2.
  pose proof (compare_lectic ms' q r Hc' HS Hq Hr) as H3. pose proof (compare_lectic ms' p r Hc' HS Hp Hr) as H4.
  split; [|split; [|split]].
  - destruct H1 as [[-> h1]|[[-> h1]|[-> h1]]], H2 as [[-> h2]|[[-> h2]|[-> h2]]].
    all: try (exfalso; by eapply lectic_asym). all: try (exfalso; rewrite h2 in h1; by eapply lectic_irrefl).
    all: try (exfalso; rewrite h1 in h2; by eapply lectic_irrefl).
    all: eexists; split; [reflexivity|]; split; [rewrite !elem_of_cons; tauto|reflexivity].
  - destruct H1 as [[-> h1]|[[-> h1]|[-> h1]]]; [| |done]; (split; [done|]); intros E; rewrite E in h1; exfalso; by eapply lectic_irrefl.
  - intros E1 E2. destruct H1 as [[_ h1]|[[E h1]|[E h1]]]; [|congruence..]. destruct H3 as [[_ h3]|[[E h3]|[E h3]]]; [|congruence..].
    pose proof (lectic_trans _ _ _ _ h1 h3) as h5. destruct H4 as [[E4 _]|[[_ h4]|[_ h4]]]; [done| |].
    + exfalso. by eapply lectic_asym.
    + rewrite h4 in h5. exfalso. by eapply lectic_irrefl.
  - intros Hs. destruct H1 as [[E _]|[[_ h1]|[_ h1]]]; [done| |].
    + exfalso. eapply lectic_sub; [|done]. apply Hs.
    + rewrite h1 in Hs. by destruct (irreflexivity (⊂) (pset q)).
Qed.
Print Assumptions C128_order.

(** Over an attribute list sorted by name the order is the lectic order of the
    Duquenne-Guigues algorithm. *)
Theorem C128_lectic ms p r : comparable ms = true → StronglySorted name_le ms →
  pset p ⊆ list_to_set ms → pset r ⊆ list_to_set ms →
  (compare_tuples p r = Ok (-1)%Z ↔ lectic ms (pset p) (pset r)) ∧ (compare_tuples p r = Ok 1%Z ↔ lectic ms (pset r) (pset p)).
Proof.
  intros Hc HS Hp Hr. destruct (compare_lectic ms p r Hc HS Hp Hr) as [[-> h]|[[-> h]|[-> h]]].
  - split; [done|]. split; [done|]. intros H. exfalso. by eapply lectic_asym.
  - split; [|done]. split; [done|]. intros H. exfalso. by eapply lectic_asym.
  - rewrite h. split; (split; [done|]); intros H; exfalso; by eapply lectic_irrefl.
Qed.
Print Assumptions C128_lectic.

(** Over other lists it is not: the basis of this context comes in an order the
    comparison calls descending. *)
Definition lx := get_ok empty_cxt (mk_context [[false; false]] None [o1] [sb; sa]).
Example lx_good : good lx.
Proof. eapply (mk_context_good [[false; false]] None [o1] [sb; sa]); [reflexivity| | |done]; by apply (bool_decide_unpack _). Qed.
Theorem C128_unsorted_refuted : ∃ c R A i j, good c ∧ comparable (atts c) = true ∧
  compute_dg_basis c elts (Some []) always = Ok R ∧ R = [i; j] ∧ lectic (atts c) i.1 j.1 ∧
  compare_tuples (PImp A i) (PImp A j) = Ok 1%Z.
Proof.
  exists lx, [({[sa]}, {[sa; sb]}); ({[sb]}, {[sa; sb]})], ∅, ({[sa]}, {[sa; sb]}), ({[sb]}, {[sa; sb]}).
  split; [exact lx_good|]. split; [reflexivity|]. split; [dec|]. split; [done|]. split; [|dec].
  exists 0, sb. split; [done|]. split; [cbn; set_solver|]. split; [dec|]. intros k x Hk. lia.
Qed.
Print Assumptions C128_unsorted_refuted.

(** Sorted with this comparison, instead of by inclusion of the sets, the
    attribute-incremental computation gives the Duquenne-Guigues basis. *)
Theorem C128_canonical c srt : good c → comparable (atts c) = true → objs c ≠ [] → (∀ i l, srt i l ≡ₚ l) →
  (∀ i l, (∀ p, p ∈ l → pset p ⊆ list_to_set (atts c)) →
    ∀ a b p q, srt i l !! a = Some p → srt i l !! b = Some q → a < b → compare_tuples p q ≠ Ok 1%Z) →
  ∃ R R', compute_canonical_basis srt c = Ok R ∧ compute_dg_basis c elts (Some []) always = Ok R' ∧ R ≡ₚ R' ∧
    pseudo_family (fM (abs c)) (acl (abs c)) [] (λ P, P ∈ map fst R).
Proof.
  intros Hg Hc Ho Hs Ht. destruct C51_by_size as (bs & Hb1 & Hb2).
  set (srt' := λ i l, if forallb (λ p, bool_decide (pset p ⊆ list_to_set (atts c))) l then srt i l else bs i l).
  rewrite (canonical_ext c srt srt' Hs).
  2:{ intros i l Hl. unfold srt'. rewrite (proj2 (forallb_forall _ _)); [done|]. intros p Hp%elem_of_list_In. by apply bool_decide_eq_true, Hl. }
  apply C51_canonical; [done|done|done| |].
  - intros i l. unfold srt'. destruct (forallb _ l); [apply Hs|apply Hb1].
  - intros i l a b p q. unfold srt'. destruct (forallb _ l) eqn:El; [|apply Hb2]. intros Ha Hb Hab Hsub.
    assert (∀ p, p ∈ l → pset p ⊆ list_to_set (atts c)) as Hin.
    { intros x Hx%elem_of_list_In. rewrite forallb_forall in El. by apply El, bool_decide_eq_true in Hx. }
    apply (Ht i l Hin a b p q Ha Hb Hab). apply elem_of_list_lookup_2 in Ha, Hb. rewrite Hs in Ha, Hb.
    destruct (C128_order (atts c) q p p Hc (Hin _ Hb) (Hin _ Ha) (Hin _ Ha)) as ((z & E1 & _ & E2) & _ & _ & E3).
    rewrite (E3 Hsub) in E1. injection E1 as <-. done.
Qed.
Print Assumptions C128_canonical.

(** There is such a sort, and with it the context of [C51_canonical_refuted] gets
    its Duquenne-Guigues basis. *)
Theorem C128_sort c i l : comparable (atts c) = true → (∀ p, p ∈ l → pset p ⊆ list_to_set (atts c)) →
  ∀ a b p q, compare_sort i l !! a = Some p → compare_sort i l !! b = Some q → a < b → compare_tuples p q ≠ Ok 1%Z.
Proof.
  intros Hc Hl. set (cle := λ p r, match compare_tuples p r with Ok z => Z.leb z 0 | Err _ => true end).
  assert (∀ p, p ∈ compare_sort i l → pset p ⊆ list_to_set (atts c)) as Hin.
  { intros p Hp. apply elem_of_isort in Hp. by apply Hl. }
  assert (Sorted (λ x y, cle x y = true) (compare_sort i l)) as HS.
  { unfold compare_sort. fold cle. clear Hin. unfold isort. assert (∀ k, k ⊆ l → Sorted (λ x y, cle x y = true) (foldr (insert_sorted cle) [] k)) as H.
    { induction k as [|x k IH]; intros Hk; cbn; [constructor|].
      assert (∀ y, y ∈ foldr (insert_sorted cle) [] k → cle x y = false → cle y x = true) as Ht.
      { intros y Hy. apply (proj1 (elem_of_isort cle k y)) in Hy. unfold cle.
        destruct (C128_order (atts c) x y y Hc) as ((z & -> & _ & ->) & _); [apply Hl, Hk; left|apply Hl, Hk; by right..|].
        intros E%Z.leb_gt. apply Z.leb_le. lia. }
      specialize (IH ltac:(intros ??; apply Hk; by right)).
      induction IH as [|y m HS IH HR]; cbn; [by constructor|]. destruct (cle x y) eqn:E; [repeat (constructor; try done)|].
      constructor; [apply IH; intros; apply Ht; [by right|done]|]. assert (cle y x = true) as Hyx by (apply Ht; [left|done]).
      destruct m as [|w m]; cbn; [by constructor|]. destruct (cle x w); [by constructor|]. inversion HR; by constructor. }
    by apply H. }
  assert (StronglySorted (λ x y, cle x y = true) (compare_sort i l)) as HSS.
  { clear Hl. induction HS as [|x k HS IH HR]; [constructor|]. specialize (IH ltac:(intros; apply Hin; by right)). constructor; [done|].
    destruct HR as [|y k HR]; [constructor|]. constructor; [done|]. inversion IH as [|?? _ HF]; subst. rewrite Forall_forall in HF |- *. intros w Hw.
    specialize (HF w Hw). revert HR HF. unfold cle.
    assert (pset x ⊆ list_to_set (atts c)) as h1 by (apply Hin; left).
    assert (pset y ⊆ list_to_set (atts c)) as h2 by (apply Hin; right; left).
    assert (pset w ⊆ list_to_set (atts c)) as h3 by (apply Hin; right; by right).
    destruct (C128_order _ x y w Hc h1 h2 h3) as ((z1 & E1 & Hz1 & E1') & Q1 & T1 & _).
    destruct (C128_order _ y w x Hc h2 h3 h1) as ((z2 & E2 & Hz2 & E2') & Q2 & T2 & _).
    destruct (C128_order _ x w y Hc h1 h3 h2) as ((z3 & E3 & Hz3 & E3') & Q3 & T3 & _).
    rewrite E1, E2, E3. intros L1%Z.leb_le L2%Z.leb_le. apply Z.leb_le. rewrite !elem_of_cons, elem_of_nil in Hz1, Hz2, Hz3.
    destruct (decide (z1 = 0)%Z) as [->|]. { apply Q1 in E1. unfold compare_tuples in E2, E3. rewrite E1 in E3. assert (z2 = z3) by congruence. lia. }
    destruct (decide (z2 = 0)%Z) as [->|]. { apply Q2 in E2. unfold compare_tuples in E1, E3. rewrite E2 in E1. assert (z1 = z3) by congruence. lia. }
    assert (z1 = (-1)%Z) as -> by lia. assert (z2 = (-1)%Z) as -> by lia. rewrite (T1 E1 E2) in E3. injection E3 as <-. lia. }
  intros a b p q Ha Hb Hab E. assert (cle p q = true) as H.
  { clear -HSS Ha Hb Hab. revert a b Ha Hb Hab. induction HSS as [|x k HS IH HF]; intros a b Ha Hb Hab; [done|].
    destruct a as [|a], b as [|b]; cbn in *; try lia.
    - injection Ha as ->. rewrite Forall_forall in HF. apply HF. by eapply elem_of_list_lookup_2.
    - apply (IH a b); [done|done|lia]. }
  unfold cle in H. by rewrite E in H.
Qed.
Print Assumptions C128_sort.
Example C128_case : compute_canonical_basis compare_sort aix = Ok (get_ok [] (compute_canonical_basis compare_sort aix)) ∧
  length (get_ok [] (compute_canonical_basis compare_sort aix)) = 4 ∧ ∀ i, i ∈ get_ok [] (compute_canonical_basis compare_sort aix) ↔ i ∈ aix_dg.
Proof.
  split; [apply get_ok_eq; vm_compute; done|]. split; [dec|]. intros i. split; revert i; apply Forall_forall; dec.
Qed.
Example C128_case_first : first_difference {[sa; sc]} {[sa; sb]} sb ∧ compare_tuples (PConcept ∅ {[sa; sc]}) (PConcept ∅ {[sa; sb]}) = Ok (-1)%Z ∧
  compare_tuples (PConcept ∅ {[sa; NInt 1]}) (PConcept ∅ ∅) = Err TypeError ∧ compare_tuples (PConcept ∅ {[sa; NInt 1]}) (PConcept ∅ {[sa]}) = Ok 1%Z ∧
  StronglySorted name_le [sa; sb; sc].
Proof.
  split.
  - split; [right; split; [set_solver|dec]|]. intros x [[H1 H2]|[H1 H2]].
    + apply elem_of_union in H1 as [->%elem_of_singleton| ->%elem_of_singleton]; [exfalso; set_solver|done].
    + apply elem_of_union in H1 as [->%elem_of_singleton| ->%elem_of_singleton]; [exfalso; set_solver|done].
  - split; [dec|]. split; [dec|]. split; [dec|]. repeat constructor.
Qed.
