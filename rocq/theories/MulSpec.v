(** * What it means to be a unit for the product of contexts *)
From Verif Require Import Py ContextModel ContextSpec.

(** A context relating every name of its own list to itself only. *)
Definition identity_on (u : context) (ns : list name) : Prop :=
  objs u = ns ∧ atts u = ns ∧ ∀ a b, incident u a b ↔ a = b ∧ a ∈ ns.
