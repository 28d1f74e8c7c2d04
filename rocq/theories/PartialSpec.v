(** * Specification for partial contexts *)
From Verif Require Import Py Spec ContextModel ContextSpec PartialModel.

(** The attributes of object [g] in [c]. *)
Definition row (c : context) (g : name) : gset name := up (abs c) {[g]}.

(** Two contexts on the same objects and attributes, the certain crosses being
    among the possible ones. *)
Record partial_ok (p : pcontext) : Prop := {
  ok_x : good (px p);
  ok_q : good (pq p);
  ok_xo : objs (px p) = p_objs p;
  ok_qo : objs (pq p) = p_objs p;
  ok_xa : atts (px p) = p_atts p;
  ok_qa : atts (pq p) = p_atts p;
  ok_sub : ∀ g m, incident (px p) g m → incident (pq p) g m }.

(** [Y] is a way to decide the open cells of an example with certain attributes [C]
    and possible attributes [P] that respects the implications [L]. *)
Definition fills (L : list fimp) (C P Y : gset name) : Prop := C ⊆ Y ∧ Y ⊆ P ∧ model_of L Y.
(** What follows about the example from [L]: the certain attributes are those of all
    ways to fill it, the possible ones those of some. *)
Definition completed (L : list fimp) (C P C' P' : gset name) : Prop :=
  ∀ m, (m ∈ C' ↔ ∀ Y, fills L C P Y → m ∈ Y) ∧ (m ∈ P' ↔ ∃ Y, fills L C P Y ∧ m ∈ Y).

(** No example refutes the implication: none has the whole premise for certain and
    lacks an attribute of the conclusion for certain. *)
Definition unrefuted (p : pcontext) (i : fimp) : Prop :=
  ∀ g, g ∈ p_objs p → i.1 ⊆ row (px p) g → i.2 ⊆ row (pq p) g.

(** The instances a program can get from the class and its methods. *)
Inductive reachable : pcontext → Prop :=
  | reach_new arr xt qt os ats p : new_partial arr xt qt os ats = Ok p → reachable p
  | reach_copy p p' : reachable p → p_deepcopy p = Ok p' → reachable p'
  | reach_transpose p p' : reachable p → p_transpose p = Ok p' → reachable p'
  | reach_add p intent o : reachable p → reachable (p_add_object_with_intent p intent o).1
  | reach_complete p imps : reachable p → reachable (p_complete imps p).1.
