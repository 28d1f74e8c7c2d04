(** * Model of the rest of fca/implication.py

    Line numbers refer to that file. *)
From Verif Require Import Py Spec ContextModel ClosureModel StrModel.

(** Lines 95-102: [str2imp]; unpacking a list of another length than 2 raises
    ValueError. *)
Definition str2set (s : string) : gset name :=
  list_to_set (map (fun x => NStr (strip x)) (py_split "," s)).
Definition str2imp (s : string) : res fimp :=
  match py_split "=>" s with
  | [p; q] => Ok (str2set p, str2set q)
  | _ => Err ValueError
  end.
(** Lines 106-113: the constructor of [UnitImplication]. *)
Definition unit_imp (premise : gset name) (c : name) : fimp := (premise, {[c]}).
(** Lines 115-120: its property [conclusion]. *)
Definition unit_conclusion (i : fimp) : res (gset name) :=
  if decide (size (conclusion i) = 1) then Ok (conclusion i) else Err AssertionError.
(** Lines 84-89 for a [UnitImplication]: the conclusion is only looked at when the
    premise is contained in the set. *)
Definition unit_is_respected (i : fimp) (X : gset name) : res bool :=
  if bool_decide (i.1 ⊆ X) then c ← unit_conclusion i; Ok (bool_decide (c ⊆ X)) else Ok true.
(** Lines 139-149: [NegativeImplication.is_respected], argument of type [set] and
    partial example. *)
Definition neg_is_respected (i : fimp) (X : gset name) : bool :=
  negb (bool_decide (i.1 ⊆ X)) || bool_decide (conclusion i ∩ X = ∅).
Definition neg_is_respected_partial (i : fimp) (X : gset name * gset name) : bool :=
  bool_decide (conclusion i ∩ X.2 = ∅) || negb (bool_decide (i.1 ⊆ X.1)).
