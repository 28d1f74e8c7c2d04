(** * Model of the bases of a context computed through the memoising wrappers *)
From Verif Require Import Py Spec ContextModel ContextOps ClosureModel DgModel MemoModel CallModel.

(** fca/algorithms/closure_operators.py lines 18-26 and 8-16 as computations that inspect the
    context [c] (whose names do not change meanwhile) through its getters: [get_attribute_extent]
    and [get_object_intent] look up the index (context.py lines 339-341 and 352-354) and call the
    getters that the wrappers replace.  [l] is the order in which the collection is iterated, [k]
    what is done with the result. *)
Fixpoint p_aprime {A} (c : context) (acc : gset name) (l : list name) (k : res (gset name) → prog A) : prog A :=
  match l with
  | [] => k (Ok acc)
  | a :: l' =>
      match aind c a with
      | Err e => k (Err e)
      | Ok j => ReadE j (fun r => match r with Err e => k (Err e) | Ok v => p_aprime c (acc ∩ v) l' k end)
      end
  end.
Fixpoint p_oprime {A} (c : context) (acc : gset name) (l : list name) (k : res (gset name) → prog A) : prog A :=
  match l with
  | [] => k (Ok acc)
  | o :: l' =>
      match oind c o with
      | Err e => k (Err e)
      | Ok i => ReadI i (fun r => match r with Err e => k (Err e) | Ok v => p_oprime c (acc ∩ v) l' k end)
      end
  end.
(** closure_operators.py lines 33-35, converted to a set (dg_basis.py line 75). *)
Definition p_aclose (c : context) (X : gset name) : prog (gset name) :=
  p_aprime c (list_to_set (objs c)) (elements X) (fun g =>
    match g with
    | Err e => Ret (Err e)
    | Ok g => p_oprime c (list_to_set (atts c)) (elements g) (fun r =>
        Ret (m ← r; l ← py_sorted (elements m); Ok (list_to_set l)))
    end).
(** fca/context.py lines 292-297, [get_attribute_implications] with [basis=compute_dg_basis]
    (dg_basis.py lines 11-24), run by the decorator of lines 97-110. *)
Definition get_attribute_implications (m : mcxt) ords (confirmed : option (list fimp)) (cond : gset name → bool)
  : mcxt * res (list fimp) :=
  basis_computation m (fun m =>
    calling_dg_basis (atts (mc m)) (fun st X => exec (p_aclose (mc st) X) st) (lin_close ords) confirmed
      (fun st X => (st, cond X)) m).
