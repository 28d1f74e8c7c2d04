(** * Putting sets to callbacks one after the other (specification) *)
From Verif Require Import Py Spec.

(** The sets [qs] are put to [aclose] in this order; a set that is not closed is then put to
    [cond], and if that agrees the set implies its closure.  The result is the last state
    and the implications. *)
Fixpoint put {St R} (cl : gset name → gset name) (aclose : St → gset name → St * R) (cond : St → gset name → St * bool)
    (st : St) (qs : list (gset name)) : St * list fimp :=
  match qs with
  | [] => (st, [])
  | X :: qs =>
      let st1 := (aclose st X).1 in
      if decide (X = cl X) then put cl aclose cond st1 qs
      else
        let (st2, keep) := cond st1 X in
        let (st3, L) := put cl aclose cond st2 qs in
        (st3, if keep then (X, cl X) :: L else L)
  end.
