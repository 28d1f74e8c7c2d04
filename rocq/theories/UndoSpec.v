(** * Changes made one after the other *)
From Verif Require Import Py Spec ContextModel.

(** What all getters of a context show. *)
Definition shows (c d : context) : Prop := objs d = objs c ∧ atts d = atts c ∧ np d = np c.
(** One change after the other, up to the first that fails. *)
Definition andthen (r : context * res unit) (f : context → context * res unit) : context * res unit :=
  match r with (c, Ok _) => f c | (c, Err e) => (c, Err e) end.
(** Adding rows one by one. *)
Fixpoint add_rows (d : context) (l : list (name * gset name)) : context * res unit :=
  match l with
  | [] => (d, Ok tt)
  | (o, J) :: l' => andthen (add_object_with_intent d J o) (λ d', add_rows d' l')
  end.
