(** * Histories of mutating calls on a context *)
From Verif Require Import Py ContextModel.

(** The mutating methods of [Context] with their arguments. *)
Inductive op :=
  | OpAddObject (row : list bool) (o : name)
  | OpAddAttribute (col : list bool) (a : name)
  | OpAddObjectWithIntent (intent : gset name) (o : name)
  | OpAddAttributeWithExtent (extent : gset name) (a : name)
  | OpSetAttributeExtent (extent : list name) (a : name)
  | OpSetObjectIntent (intent : list name) (o : name)
  | OpDeleteObject (o : name)
  | OpDeleteAttribute (a : name)
  | OpDeleteAttributes (names : list name)
  | OpRenameObject (old new : name)
  | OpRenameAttribute (old new : name)
  | OpRemoveEmptyObjects.

Definition step (c : context) (o : op) : upd context () :=
  match o with
  | OpAddObject row x => add_object c row x
  | OpAddAttribute col a => add_attribute c col a
  | OpAddObjectWithIntent i x => add_object_with_intent c i x
  | OpAddAttributeWithExtent e a => add_attribute_with_extent c e a
  | OpSetAttributeExtent e a => set_attribute_extent c e a
  | OpSetObjectIntent i x => set_object_intent c i x
  | OpDeleteObject x => delete_object c x
  | OpDeleteAttribute a => delete_attribute c a
  | OpDeleteAttributes ns => delete_attributes c ns
  | OpRenameObject a b => rename_object c a b
  | OpRenameAttribute a b => rename_attribute c a b
  | OpRemoveEmptyObjects => remove_empty_objects c
  end.

(** The context after a sequence of calls; the caller catches every exception
    and carries on. *)
Fixpoint run (c : context) (l : list op) : context :=
  match l with
  | [] => c
  | o :: l' => run (step c o).1 l'
  end.

(** [delete_attributes] is called with pairwise different names. *)
Definition op_ok (o : op) : Prop :=
  match o with OpDeleteAttributes ns => NoDup ns | _ => True end.
