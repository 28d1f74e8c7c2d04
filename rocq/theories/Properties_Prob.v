(** * The probability index: the final statement (C40)
    Uses the standard library's real numbers and hence their axioms. *)
From Coq Require Import Reals Lra.
From Verif Require Import Py Spec PyFacts SpecFacts ContextModel ContextSpec ContextOps ContextFacts ContextInit
  ContextFinal LatticeSpec LatticeModel NorrisFacts LatticeFacts ProbSpec ProbModel ProbFacts Properties_Context.
Local Open Scope R_scope.

(** ** C40 *)
Theorem C40_probability c l : good c → comparable (objs c) = true → comparable (atts c) = true → mk_lattice c = Ok l →
  objs c ≠ [] →
  ∃ d, compute_probability l = Ok d ∧
    (∀ x, x ∈ map fst d ↔ x ∈ lconcepts l) ∧
    ∀ A B, is_concept (abs c) A B →
      dget (A, B) d = Some (closed_probability
        (λ a, INR (size (down (abs c) {[a]})) / INR (size (fG (abs c))))
        (atts c) (elements B) (size (fG (abs c)))).
Proof. intros Hg Ho Ha Hl Hne. exact (compute_probability_spec c l Hg Ho Ha Hne Hl). Qed.
Print Assumptions C40_probability.
(** Without objects there is nothing to divide by. *)
Theorem C40_no_objects l : good (lcxt l) → objs (lcxt l) = [] → atts (lcxt l) ≠ [] →
  compute_probability l = Err ZeroDivisionError.
Proof.
  intros Hg Ho Ha. unfold compute_probability, prob_pm.
  assert (length (np (lcxt l)) = 0%nat) as E by (rewrite (wf_rows _ (good_wf _ Hg)), Ho; reflexivity).
  rewrite E. destruct (atts (lcxt l)); [done|]. reflexivity.
Qed.
Print Assumptions C40_no_objects.

Definition ex40 := get_ok empty_cxt (mk_context [[true]; [false]] None [o1; o2] [sa]).
Definition ex40_lat := get_ok (Lattice empty_cxt [] [] (∅, ∅) (∅, ∅)) (mk_lattice ex40).
Lemma ex40_good : good ex40.
Proof. eapply (mk_context_good [[true]; [false]] None [o1; o2] [sa]); [reflexivity|dec|dec|done]. Qed.
(** The empty intent is closed unless both objects have the attribute: 1 - (1/2)^2. *)
Example C40_case : ∃ d, compute_probability ex40_lat = Ok d ∧ dget ({[o1; o2]}, ∅) d = Some (3 / 4).
Proof.
  destruct (C40_probability ex40 ex40_lat ex40_good eq_refl eq_refl) as (d & H1 & _ & H2).
  - by apply get_ok_eq; vm_compute.
  - done.
  - exists d. split; [exact H1|]. rewrite (H2 {[o1; o2]} ∅) by dec. f_equal.
    unfold closed_probability. rewrite elements_empty.
    assert (atts ex40 = [sa]) as -> by reflexivity.
    assert (size (fG (abs ex40)) = 2%nat) as -> by (vm_compute; reflexivity).
    assert (size (down (abs ex40) {[sa]}) = 1%nat) as E by (vm_compute; reflexivity).
    unfold rprod. cbn [List.filter foldr]. rewrite bool_decide_eq_true_2 by (apply not_elem_of_nil). cbn [foldr]. rewrite E.
    unfold sum_f_R0, C. cbn [fact INR Nat.sub Nat.mul Nat.add]. simpl. lra.
Qed.
