(** * Specification of the order on concepts (nothing here refers to the code) *)
From Verif Require Import Py Spec.

(** Pairs of an extent and an intent.
    [covers cs x y]: in the list [cs] ordered by inclusion of intents [x] is an
    upper cover of [y]. *)
Definition covers (cs : list (gset name * gset name)) (x y : gset name * gset name) : Prop :=
  x ∈ cs ∧ x.2 ⊂ y.2 ∧ ¬ ∃ z, z ∈ cs ∧ x.2 ⊂ z.2 ∧ z.2 ⊂ y.2.
(** [is_upper_cover K y x]: [y] is a formal concept directly above [x], concepts
    being ordered by inclusion of extents. *)
Definition is_upper_cover (K : fctx) (y x : gset name * gset name) : Prop :=
  is_concept K y.1 y.2 ∧ x.1 ⊂ y.1 ∧
  ¬ ∃ z : gset name * gset name, is_concept K z.1 z.2 ∧ x.1 ⊂ z.1 ∧ z.1 ⊂ y.1.

(** There are exactly [n] sets with property [P]. *)
Definition is_card (P : gset name → Prop) (n : nat) : Prop :=
  ∃ l : list (gset name), NoDup l ∧ (∀ S, S ∈ l ↔ P S) ∧ length l = n.
