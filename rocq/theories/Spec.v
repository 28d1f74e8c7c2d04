(** * Model-independent specification of formal concept analysis

    A formal context is two finite sets and a finite relation.  Nothing here
    refers to the Python code. *)
From Verif Require Import Py.

Record fctx := Fctx { fG : gset name; fM : gset name; fI : gset (name * name) }.

(** Derivation: attributes shared by all objects of [A] / objects having all
    attributes of [B]. *)
Definition up (K : fctx) (A : gset name) : gset name :=
  filter (fun m => set_Forall (fun g => (g, m) ∈ fI K) A) (fM K).
Definition down (K : fctx) (B : gset name) : gset name :=
  filter (fun g => set_Forall (fun m => (g, m) ∈ fI K) B) (fG K).

(** Closure of an attribute set / object set. *)
Definition acl (K : fctx) (B : gset name) : gset name := up K (down K B).
Definition ocl (K : fctx) (A : gset name) : gset name := down K (up K A).

Definition is_concept (K : fctx) (A B : gset name) : Prop :=
  A ⊆ fG K ∧ B ⊆ fM K ∧ up K A = B ∧ down K B = A.

(** Implications as pairs of attribute sets. *)
Definition fimp : Type := gset name * gset name.
Definition respects (X : gset name) (i : fimp) : Prop := i.1 ⊆ X → i.2 ⊆ X.
(** The implication holds in the context: every object having the premise has
    the conclusion. *)
Definition holds (K : fctx) (i : fimp) : Prop :=
  ∀ g, g ∈ fG K → (∀ m, m ∈ i.1 → (g, m) ∈ fI K) → ∀ m, m ∈ i.2 → (g, m) ∈ fI K.
(** Semantic entailment between implications. *)
Definition entails (L : list fimp) (i : fimp) : Prop :=
  ∀ X, (∀ j, j ∈ L → respects X j) → respects X i.
Definition model_of (L : list fimp) (X : gset name) : Prop :=
  ∀ j, j ∈ L → respects X j.
(** [C] is the least superset of [X] respecting all of [L]. *)
Definition is_closure (L : list fimp) (X C : gset name) : Prop :=
  X ⊆ C ∧ model_of L C ∧ ∀ Y, X ⊆ Y → model_of L Y → C ⊆ Y.

(** Well-formed relation. *)
Definition fwf (K : fctx) : Prop :=
  ∀ g m, (g, m) ∈ fI K → g ∈ fG K ∧ m ∈ fM K.

(** Transposition. *)
Definition ftrans (K : fctx) : fctx :=
  Fctx (fM K) (fG K) (set_map (fun p => (p.2, p.1)) (fI K)).
