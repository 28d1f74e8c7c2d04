(** * Model of make_random_context (fca/context.py) *)
From Coq Require Import QArith.
From Verif Require Import Py ContextModel.

(** Lines 804-818.  [rnd k] is the result of the [k]-th call of [random.random()];
    densities and random numbers are rationals. *)
Definition make_random_context (num_obj num_att : nat) (d : Q) (rnd : nat → Q) : res context :=
  mk_context (map (fun i => map (fun j => if Qlt_le_dec (rnd (i * num_att + j)%nat) d then true else false)
                                (seq 0 num_att)) (seq 0 num_obj)) None
             (map (fun i => NStr ("g" ++ pretty i)) (seq 0 num_obj))
             (map (fun i => NStr ("m" ++ pretty i)) (seq 0 num_att)).
