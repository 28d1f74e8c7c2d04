(** * Model of fca/algorithms/filtering/probability.py over the real numbers
    Floating point rounding is not modelled.  [math.log] raises ValueError on
    numbers that are not positive; every [except] clause of the file catches it. *)
From Coq Require Import Reals.
From Verif Require Import Py Spec ContextModel LatticeModel.
Local Open Scope R_scope.

Definition plog (x : R) : option R := if Rlt_dec 0 x then Some (ln x) else None.
(** Lines 51-58; summing over a set of reals does not depend on the order. *)
Definition log_subset_probability (pm : list (name * R)) (B : list name) : R :=
  foldl (fun ans a => match p ← dget a pm; plog p with Some l => ans + l | None => ans end) 0 B.
(** Lines 22-30: [None] when [mult_is_zero]. *)
Definition prob_mult (pm : list (name * R)) (notB : list name) (k : nat) : option R :=
  foldl (fun acc a => mu ← acc; p ← dget a pm; l ← plog (1 - p ^ k); Some (mu + l)) (Some 0) notB.
(** Lines 42-47: multiply by [nom[i] / float(den[i])]. *)
Definition prob_binom (n k : nat) (t : R) : R :=
  foldl (fun t i => t * (INR (n - k + 1 + i) / INR (1 + i))) t (seq 0 k).
(** Lines 22-49. *)
Fixpoint prob_loop (pm : list (name * R)) (notB : list name) (n : nat) (pB logpB : R) (ks : list nat) (ans : R) : R :=
  match ks with
  | [] => ans
  | k :: ks' =>
      match prob_mult pm notB k with
      | None => prob_loop pm notB n pB logpB ks' ans
      | Some mult =>
          if (if Req_EM_T pB 1 then Nat.eqb n k else false) then exp mult
          else
            let t := match plog (1 - pB) with
                     | Some l => exp (INR k * logpB + (INR n - INR k) * l + mult)
                     | None => 0
                     end in
            prob_loop pm notB n pB logpB ks' (ans + prob_binom n k t)
      end
  end.
(** Lines 10-49. *)
Definition get_intent_probability (B : gset name) (pm : list (name * R)) (n : nat) : R :=
  let l0 := log_subset_probability pm (elements B) in
  let pB := if decide (B = ∅) then 1 else exp l0 in
  let logpB := if decide (B = ∅) then 0 else l0 in
  let notB := List.filter (fun a => bool_decide (a ∉ B)) (map fst pm) in
  prob_loop pm notB n pB logpB (seq 0 (S n)) 0.
(** Lines 60-69. *)
Definition prob_pm (c : context) : res (list (name * R)) :=
  is ← mapM (get_object_intent_by_index c) (seq 0 (length (np c)));
  ps ← mapM (fun a => if decide (length (np c) = 0)%nat then Err ZeroDivisionError
                      else Ok (a, INR (length (List.filter (fun i => bool_decide (a ∈ i)) is)) / INR (length (np c))))
            (atts c);
  Ok (dict_of ps).
(** Lines 71-75. *)
Definition compute_probability (l : lattice) : res (list (fconcept * R)) :=
  pm ← prob_pm (lcxt l);
  ps ← mapM (fun x : fconcept => if chash x then Ok (x, get_intent_probability x.2 pm (length (np (lcxt l)))) else Err TypeError)
            (lconcepts l);
  Ok (dict_of ps).
