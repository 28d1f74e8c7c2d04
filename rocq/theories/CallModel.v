(** * Model of fca/algorithms/dg_basis.py with callbacks that keep state *)
From Verif Require Import Py Spec ContextModel ClosureModel DgModel.

(** [generalized_compute_dg_basis] calls two functions it is given, [aclose] and [cond].
    [DgModel] has them as functions of the set alone.  Here they may keep a state of any
    type [St]: they can count or record their calls, cache, or answer by what they were
    asked before.  [close] stays a function of its arguments. *)
Section calls.
  Context {St : Type} (ms : list name) (aclose : St → gset name → St * res (gset name)) (close : closer)
          (L0 : option (list fimp)) (cond : St → gset name → St * bool).

  (** Lines 74-96: the [while] loop; [cond] is called on line 76 only if [a != a_closed]. *)
  Fixpoint cdg_loop (fuel : nat) (st : St) (R : list fimp) (a : gset name) (i : nat) : St * res (list fimp) :=
    if (size a <? length ms)%nat then
      match fuel with
      | O => (st, Err OutOfFuel)
      | S fuel' =>
          match aclose st a with
          | (st1, Err e) => (st1, Err e)
          | (st1, Ok ac) =>
              let '(st2, keep) := if bool_decide (a ≠ ac) then cond st1 a else (st1, false) in
              let R' := if keep then R ++ [(a, ac)] else R in
              let next a1 i1 :=
                match dg_inner ms close L0 R' a1 i1 with
                | Err e => (st2, Err e)
                | Ok (a2, oj) => cdg_loop fuel' st2 R' a2 (default i1 oj)
                end in
              if bool_decide ((ac ∖ a) ∩ pre ms i ≠ ∅) then next (a ∖ suf ms i) i
              else if (size ac =? length ms)%nat then (st2, Ok R')
              else next ac (length ms)
          end
      end
    else (st, Ok R).
  (** Lines 57-96. *)
  Definition calling_dg_basis (st : St) : St * res (list fimp) :=
    match close ∅ L0 with
    | Err e => (st, Err e)
    | Ok a => cdg_loop (2 ^ length ms) st [] a (length ms)
    end.
End calls.
(** Lines 11-24: [compute_dg_basis] with a [cond] that keeps state. *)
Definition calling_compute_dg_basis {St} (c : context) ords (L0 : option (list fimp)) (cond : St → gset name → St * bool) (st : St) :=
  calling_dg_basis (atts c) (fun st X => (st, cxt_aclose c X)) (lin_close ords) L0 cond st.
