(** * Model of [compare_tuples] (fca/algorithms/aibasis.py)

    Line numbers refer to that file. *)
From Verif Require Import Py Spec ContextModel ClosureModel AiModel.

(** Lines 24-33.  [p[1]] is [pset p].  The iteration order of the set [diff] does
    not matter to [sorted], [elements] gives one of them. *)
Definition compare_tuples (p r : pre) : res Z :=
  let diff := (pset p ∖ pset r) ∪ (pset r ∖ pset p) in
  if bool_decide (diff ≠ ∅) then
    l ← py_sorted (elements diff);
    match l with
    | m :: _ => Ok (if bool_decide (m ∈ pset p) then 1%Z else (-1)%Z)
    | [] => Err IndexError
    end
  else Ok 0%Z.

(** A sort using the function as comparison, as in [l.sort(key=cmp_to_key(compare_tuples))].
    The code never calls it: line 90 sorts by the sets themselves. *)
Definition compare_sort (_ : nat) (l : list pre) : list pre :=
  isort (fun p r => match compare_tuples p r with Ok z => Z.leb z 0 | Err _ => true end) l.
