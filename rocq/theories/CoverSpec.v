(** * Maximal implications that no other subsumes (no reference to the code) *)
From Verif Require Import Py Spec.

(** [p → cl p] is not implied by any single [q → cl q] with a smaller premise. *)
Definition unsubsumed (cl : gset name → gset name) (p : gset name) : Prop :=
  cl p ≠ p ∧ ∀ q, q ⊂ p → ¬ cl p ∖ p ⊆ cl q.
