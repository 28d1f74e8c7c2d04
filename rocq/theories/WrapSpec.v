(** * What a context shows through its getters *)
From Verif Require Import Py Spec ContextModel ContextSpec MemoModel.

(** [m] has the names of [c0], and its getters return the rows and columns of [c0]
    (its own table may be another one). *)
Definition sees (m : mcxt) (c0 : context) : Prop :=
  objs (mc m) = objs c0 ∧ atts (mc m) = atts c0 ∧
  (∀ o, o ∈ objs c0 → (m_object_intent m o).2 = get_object_intent c0 o) ∧
  (∀ a, a ∈ atts c0 → (m_attribute_extent m a).2 = get_attribute_extent c0 a).
(** Calls of all the getters of a context with [n] objects and [k] attributes. *)
Definition read_all (n k : nat) : list mop := map MReadI (seq 0 n) ++ map MReadE (seq 0 k).
