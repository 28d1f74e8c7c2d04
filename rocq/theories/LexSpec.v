(** * Specification: the first attribute, by name, on which two sets differ

    Nothing here refers to the Python code. *)
From Verif Require Import Py Spec PyFacts.

Definition differ (P Q : gset name) (x : name) : Prop := (x ∈ P ∧ x ∉ Q) ∨ (x ∈ Q ∧ x ∉ P).
Definition first_difference (P Q : gset name) (m : name) : Prop :=
  differ P Q m ∧ ∀ x, differ P Q x → name_le m x.
(** Strings and numbers do not occur together among the differences. *)
Definition same_kind (P Q : gset name) : Prop :=
  ∀ x y, differ P Q x → differ P Q y → is_str x = is_str y.
