(** * Specification of the probability of an intent (nothing here refers to the code) *)
From Coq Require Import Reals.
From Verif Require Import Py.
Local Open Scope R_scope.

(** Products over lists. *)
Definition rprod (f : name → R) (l : list name) : R := foldr (fun a r => f a * r) 1 l.
(** Independent attributes: attribute [a] has probability [p a], there are [n] objects.  The probability that [B] is
    the intent of some set of objects is the sum over the number [k] of objects having all of [B] of the probability
    that exactly [k] objects have [B] and no other attribute is common to them. *)
Definition closed_probability (p : name → R) (M B : list name) (n : nat) : R :=
  sum_f_R0 (fun k => C n k * (rprod p B ^ k * (1 - rprod p B) ^ (n - k)) * rprod (fun a => 1 - p a ^ k)
                       (List.filter (fun a => bool_decide (a ∉ B)) M)) n.
