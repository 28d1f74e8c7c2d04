(** * Model of fca/algorithms/dg_basis.py *)
From Verif Require Import Py Spec ContextModel ClosureModel.

(** [set(attributes[:i])] and [set(attributes[i:])]. *)
Definition pre (ms : list name) (i : nat) : gset name := list_to_set (take i ms).
Definition suf (ms : list name) (i : nat) : gset name := list_to_set (drop i ms).

(** The argument [close] as a function of a set and of the list of implications;
    [None] stands for Python's [None] passed as [imp_basis]. *)
Definition closer : Type := gset name → option (list fimp) → res (gset name).
(** [simple_closure(s, None)] fails on [implications[:]] (closure_operators.py 74). *)
Definition simple_close : closer := fun s L =>
  match L with None => Err TypeError | Some L => simple_closure s L end.
(** [lin_closure(s, None)] returns [s] (closure_operators.py 135-136).  [ords s L]
    is the order in which sets are iterated in the call with arguments [s], [L]. *)
Definition lin_close (ords : gset name → list fimp → nat → gset name → list name) : closer := fun s L =>
  match L with None => Ok s | Some L => lin_closure (ords s L) s L end.
(** [relative_basis + imp_basis]. *)
Definition cat_basis (R : list fimp) (L0 : option (list fimp)) : res (option (list fimp)) :=
  match L0 with None => Err TypeError | Some L => Ok (Some (R ++ L)) end.

Section dg.
  Context (ms : list name) (aclose : gset name → res (gset name)) (close : closer)
          (L0 : option (list fimp)) (cond : gset name → bool).

  (** Lines 85-94: the [for] loop, from [j = i-1] down; the new [a] and, if
      [break] was reached, the new [i]. *)
  Fixpoint dg_inner (R : list fimp) (a : gset name) (i : nat) : res (gset name * option nat) :=
    match i with
    | O => Ok (a, None)
    | S j =>
        m ← get_or IndexError (ms !! j);
        if bool_decide (m ∈ a) then dg_inner R (a ∖ {[m]}) j
        else
          L ← cat_basis R L0;
          b ← close (a ∪ {[m]}) L;
          if bool_decide ((b ∖ a) ∩ pre ms j = ∅) then Ok (b, Some j) else dg_inner R a j
    end.

  (** Lines 74-96: the [while] loop.  [aclose] already includes the conversion
      [set(...)] of line 75. *)
  Fixpoint dg_loop (fuel : nat) (R : list fimp) (a : gset name) (i : nat) : res (list fimp) :=
    if (size a <? length ms)%nat then
      match fuel with
      | O => Err OutOfFuel
      | S fuel' =>
          ac ← aclose a;
          let R' := if bool_decide (a ≠ ac) && cond a then R ++ [(a, ac)] else R in
          if bool_decide ((ac ∖ a) ∩ pre ms i ≠ ∅) then
            '(a2, oj) ← dg_inner R' (a ∖ suf ms i) i;
            dg_loop fuel' R' a2 (default i oj)
          else if (size ac =? length ms)%nat then Ok R'
          else
            '(a2, oj) ← dg_inner R' ac (length ms);
            dg_loop fuel' R' a2 (default (length ms) oj)
      end
    else Ok R.

  (** Lines 57-96.  The number of iterations is at most [2 ^ length attributes]. *)
  Definition generalized_compute_dg_basis : res (list fimp) :=
    a ← close ∅ L0;
    dg_loop (2 ^ length ms) [] a (length ms).

  (** Lines 114-150: the generator.  What is observed is the list of yielded
      implications and how the iteration ends: [Ok tt] for a normal end
      (StopIteration).  The consumer may stop after any prefix. *)
  Fixpoint dg_iter_loop (fuel : nat) (R : list fimp) (a : gset name) (i : nat) : list fimp * res unit :=
    if (size a <? length ms)%nat then
      match fuel with
      | O => ([], Err OutOfFuel)
      | S fuel' =>
          match aclose a with
          | Err e => ([], Err e)
          | Ok ac =>
              let out := if bool_decide (a ≠ ac) && cond a then [(a, ac)] else [] in
              let R' := R ++ out in
              let next a1 i1 :=
                match dg_inner R' a1 i1 with
                | Err e => (out, Err e)
                | Ok (a2, oj) => let '(rest, e) := dg_iter_loop fuel' R' a2 (default i1 oj) in (out ++ rest, e)
                end in
              if bool_decide ((ac ∖ a) ∩ pre ms i ≠ ∅) then next (a ∖ suf ms i) i
              else if (size ac =? length ms)%nat then (out, Ok tt)
              else next ac (length ms)
          end
      end
    else ([], Ok tt).
  Definition generalized_dg_basis_iter : list fimp * res unit :=
    match close ∅ L0 with
    | Err e => ([], Err e)
    | Ok a => dg_iter_loop (2 ^ length ms) [] a (length ms)
    end.
End dg.

(** Lines 19, 34, 107: [aclose] of a context, converted to a set (line 75). *)
Definition cxt_aclose (c : context) (X : gset name) : res (gset name) :=
  l ← fn_aclosure c (elements X); Ok (list_to_set l).
(** Lines 11-24. *)
Definition compute_dg_basis (c : context) ords (L0 : option (list fimp)) (cond : gset name → bool) : res (list fimp) :=
  generalized_compute_dg_basis (atts c) (cxt_aclose c) (lin_close ords) L0 cond.
(** Lines 26-39. *)
Definition compute_dg_basis_simple (c : context) (L0 : option (list fimp)) (cond : gset name → bool) : res (list fimp) :=
  generalized_compute_dg_basis (atts c) (cxt_aclose c) simple_close L0 cond.
(** Lines 99-112. *)
Definition dg_basis_iter_simple (c : context) (L0 : option (list fimp)) (cond : gset name → bool) : list fimp * res unit :=
  generalized_dg_basis_iter (atts c) (cxt_aclose c) simple_close L0 cond.
