(** * Specification: lectic order and pseudo-intents

    Nothing here refers to the Python code. *)
From Verif Require Import Py Spec.

(** [P] and [Q] agree on the first [j] attributes of [ms]. *)
Definition agree (ms : list name) (j : nat) (P Q : gset name) : Prop :=
  ∀ k x, k < j → ms !! k = Some x → (x ∈ P ↔ x ∈ Q).
(** Lectic order: the first attribute on which the sets differ belongs to [Q]. *)
Definition lectic (ms : list name) (P Q : gset name) : Prop :=
  ∃ j m, ms !! j = Some m ∧ m ∈ Q ∧ m ∉ P ∧ agree ms j P Q.

(** [F] is the family of pseudo-closed sets of the closure operator [cl] on
    subsets of [M], among the sets respecting the background [L0]: the sets that
    are not closed and contain the closure of every member of [F] properly
    contained in them. *)
Definition pseudo_family (M : gset name) (cl : gset name → gset name) (L0 : list fimp)
    (F : gset name → Prop) : Prop :=
  ∀ P, F P ↔ P ⊆ M ∧ model_of L0 P ∧ P ≠ cl P ∧ ∀ Q, F Q → Q ⊂ P → cl Q ⊆ P.

(** The closure laws for [cl] on subsets of [M]. *)
Record closure_op (M : gset name) (cl : gset name → gset name) : Prop := {
  cl_ext : ∀ X, X ⊆ M → X ⊆ cl X;
  cl_mono : ∀ X Y, X ⊆ Y → Y ⊆ M → cl X ⊆ cl Y;
  cl_idem : ∀ X, X ⊆ M → cl (cl X) = cl X;
  cl_sub : ∀ X, X ⊆ M → cl X ⊆ M }.
(** Only extension within [M]: what is left of the laws for an operator that need
    not be idempotent. *)
Record growing_op (M : gset name) (cl : gset name → gset name) : Prop := {
  gr_ext : ∀ X, X ⊆ M → X ⊆ cl X;
  gr_sub : ∀ X, X ⊆ M → cl X ⊆ M }.
