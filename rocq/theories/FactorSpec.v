(** * Covering a relation by rectangles (no reference to the algorithms) *)
From Verif Require Import Py Spec.

(** The rectangle of a factor (extent, intent) contains the pair. *)
Definition in_rect (f : gset name * gset name) (p : name * name) : Prop := p.1 ∈ f.1 ∧ p.2 ∈ f.2.
Global Instance in_rect_dec f p : Decision (in_rect f p).
Proof. unfold in_rect. apply _. Defined.
(** Crosses of the context in no rectangle of the list. *)
Definition uncovered (K : fctx) (fs : list (gset name * gset name)) : gset (name * name) :=
  filter (fun p => Forall (fun f => ¬ in_rect f p) fs) (fI K).
(** Crosses which a further factor covers for the first time. *)
Definition gain (K : fctx) (fs : list (gset name * gset name)) (f : gset name * gset name) : gset (name * name) :=
  filter (in_rect f) (uncovered K fs).
(** Number of crosses covered. *)
Definition ncovered (K : fctx) (fs : list (gset name * gset name)) : Z :=
  (Z.of_nat (size (fI K)) - Z.of_nat (size (uncovered K fs)))%Z.
