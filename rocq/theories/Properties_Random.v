(** * Random contexts: the final statements (C68) *)
From Coq Require Import QArith.
From Verif Require Import Py Spec ContextModel ContextSpec RandomModel RandomFacts Properties_Context.
Local Open Scope nat_scope.

(** ** C68 *)
Theorem C68_random_context n k d rnd :
  ∃ c, make_random_context n k d rnd = Ok c ∧ good c ∧ length (objs c) = n ∧ length (atts c) = k ∧
    (∀ i, i < n → objs c !! i = Some (NStr ("g" ++ pretty i))) ∧
    (∀ j, j < k → atts c !! j = Some (NStr ("m" ++ pretty j))) ∧
    (** the cross of row i and column j is decided by the (i*k+j)-th random number *)
    (∀ i j, i < n → j < k →
      (incident c (NStr ("g" ++ pretty i)) (NStr ("m" ++ pretty j)) ↔ (rnd (i * k + j)%nat < d)%Q)) ∧
    ((∀ x, 0 <= rnd x < 1)%Q → (1 <= d)%Q → ∀ g m, g ∈ objs c → m ∈ atts c → incident c g m) ∧
    ((∀ x, 0 <= rnd x < 1)%Q → (d <= 0)%Q → ∀ g m, ¬ incident c g m).
Proof. exact (random_context_spec n k d rnd). Qed.
Print Assumptions C68_random_context.
Example C68_case :
  (c ← make_random_context 2 3 (1 # 2) (fun x => if Nat.even x then 1 # 4 else 3 # 4);
   Ok (objs c, atts c, np c)) =
  Ok ([NStr "g0"; NStr "g1"], [NStr "m0"; NStr "m1"; NStr "m2"], [[true; false; true]; [false; true; false]]).
Proof. dec. Qed.
