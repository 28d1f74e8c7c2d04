(** * Conceptual scaling: names and values *)
From Verif Require Import Py ContextModel.

(** The attributes of the scaled context: every attribute of the many-valued context
    joined with every attribute of its scale. *)
Definition derived_names (mats : list name) (scales : list context) : list name :=
  concat (zip_with (fun a s => map (fun m => NStr (pystr a ++ ":" ++ pystr m)) (atts s)) mats scales).
Definition no_colon (n : name) : Prop := ∀ x y, pystr n ≠ (x ++ ":" ++ y)%string.

(** Cells that are integers or strings: Python's truth value, and [b == v] for a truth
    value [b]. *)
Definition py_truth (v : name) : bool := match v with NInt z => negb (z =? 0)%Z | NStr s => negb (String.eqb s "") end.
Definition py_eq_bool (b : bool) (v : name) : bool := match v with NInt z => (z =? (if b then 1 else 0))%Z | NStr _ => false end.
