(** * Bi-unary algebras (specification) *)
From Verif Require Import Py BiUnarModel.

(** Two maps on the numbers 1..n. *)
Definition algebra (n : nat) (b : biunar) : Prop :=
  length (bf b) = n ∧ length (bg b) = n ∧ (∀ x, x ∈ bf b → (1 ≤ x ≤ Z.of_nat n)%Z) ∧ (∀ x, x ∈ bg b → (1 ≤ x ≤ Z.of_nat n)%Z).
(** Terms as words over the two operation symbols, and their value at a point. *)
Inductive letter := F | G.
Definition word (t : nat) : list letter :=
  match t with 0 => [] | 1 => [F] | 2 => [G] | 3 => [F; F] | 4 => [F; G] | 5 => [G; F] | _ => [G; G] end.
Definition image (t : list Z) (x : Z) : Z := default 0%Z (t !! Z.to_nat (x - 1)).
Definition act (b : biunar) (w : list letter) (x : Z) : Z :=
  foldr (λ l y, match l with F => image (bf b) y | G => image (bg b) y end) x w.
Definition satisfies (n : nat) (b : biunar) (e : eqn) : Prop :=
  ∀ x, (1 ≤ x ≤ Z.of_nat n)%Z → act b (word e.1) x = act b (word e.2) x.
(** Exchanging the symbols. *)
Definition flip (l : letter) : letter := match l with F => G | G => F end.
Definition is_flip (t t' : nat) : Prop := t < 7 ∧ t' < 7 ∧ word t' = map flip (word t).
(** [e'] is [e] with the symbols exchanged, up to the order of the two sides. *)
Definition mirror (e e' : eqn) : Prop :=
  (is_flip e.1 e'.1 ∧ is_flip e.2 e'.2) ∨ (is_flip e.1 e'.2 ∧ is_flip e.2 e'.1).

Definition erespects (X : gset eqn) (i : eimp) : Prop := i.1 ⊆ X → i.2 ⊆ X.
Definition over_attributes (i : eimp) : Prop := i.1 ⊆ list_to_set attributes ∧ i.2 ⊆ list_to_set attributes.
(** The quasi-identity as a statement about the algebra. *)
Definition holds_in (n : nat) (b : biunar) (i : eimp) : Prop := (∀ e, e ∈ i.1 → satisfies n b e) → ∀ e, e ∈ i.2 → satisfies n b e.
