(** * Reading implications, unit and negative implications: the final statements (C48, C70, C71) *)
From Verif Require Import Py Spec PyFacts SpecFacts ContextModel ContextSpec ContextOps ContextFacts ContextInit
  ContextFinal ClosureModel ClosureFacts StrModel StrSpec ImpStrModel StrFacts Properties_Context.

(** ** C48: str2imp *)
(** A printed implication is read back when both sides are non-empty and the names
    are strings without ',' and '=>' and without blanks around them. *)
Theorem C48_round_trip (i : fimp) : i.1 ≠ ∅ → conclusion i ≠ ∅ →
  (∀ x, x ∈ i.1 ∪ i.2 → ∃ s, x = NStr s ∧ ¬ str_contains "," s ∧ ¬ str_contains "=>" s ∧ strip s = s) →
  ∃ s, imp_repr i = Ok s ∧ str2imp s = Ok (i.1, conclusion i).
Proof. exact (str2imp_repr i). Qed.
Print Assumptions C48_round_trip.
Example C48_round_trip_case : imp_repr ({[sa; NStr "x y"]}, {[sb; sa]}) = Ok "a, x y => b"%string ∧
  str2imp "a, x y => b" = Ok ({[sa; NStr "x y"]}, {[sb]}) ∧ strip "x y" = "x y"%string.
Proof. split; [|split]; dec. Qed.

(** What is accepted, and with which result. *)
Theorem C48_parse s i : str2imp s = Ok i ↔ ∃ ps qs, ps ≠ [] ∧ qs ≠ [] ∧ (∀ x, x ∈ ps ++ qs → ¬ str_contains "," x) ∧
  ¬ str_contains "=>" (join "," ps) ∧ ¬ str_contains "=>" (join "," qs) ∧ s = (join "," ps ++ "=>" ++ join "," qs)%string ∧
  i = (list_to_set (map (λ x, NStr (strip x)) ps), list_to_set (map (λ x, NStr (strip x)) qs)).
Proof. exact (str2imp_spec s i). Qed.
Print Assumptions C48_parse.
Theorem C48_fails s : (∃ i, str2imp s = Ok i) ∨ str2imp s = Err ValueError.
Proof. exact (str2imp_total s). Qed.
Print Assumptions C48_fails.
Example C48_parse_case : str2imp "a,b ,  c==>d" = Ok ({[sa; sb; NStr "c="]}, {[NStr "d"]}) ∧
  str2imp "a => b => c" = Err ValueError ∧ str2imp "a, b" = Err ValueError.
Proof. split; [|split]; dec. Qed.

(** An empty side is read as the set holding the empty string. *)
Theorem C48_empty_side_refuted : ∃ i s j, imp_repr i = Ok s ∧ str2imp s = Ok j ∧ imp_eqb i j = false.
Proof. exists (∅, {[sa]}), " => a"%string, ({[NStr ""]}, {[sa]}). split; [|split]; dec. Qed.
Print Assumptions C48_empty_side_refuted.
(** Numbers come back as strings. *)
Theorem C48_numbers_refuted : ∃ i s j, imp_repr i = Ok s ∧ str2imp s = Ok j ∧ imp_eqb i j = false.
Proof. exists ({[o1]}, {[sa]}), "1 => a"%string, ({[NStr "1"]}, {[sa]}). split; [|split]; dec. Qed.
Print Assumptions C48_numbers_refuted.

(** ** C70: partial examples and negative implications *)
(** A partial example is a pair of the certain and the possible attributes; an
    implication is respected iff some completion respects it. *)
Theorem C70_partial_example (i : fimp) (C P : gset name) : C ⊆ P →
  is_respected_partial i (C, P) = true ↔ ∃ X, C ⊆ X ∧ X ⊆ P ∧ respects X i.
Proof. exact (partial_respected i C P). Qed.
Print Assumptions C70_partial_example.
Theorem C70_negative (i : fimp) X : neg_is_respected i X = true ↔ ¬ (i.1 ⊆ X ∧ ∃ x, x ∈ X ∧ x ∈ i.2 ∧ x ∉ i.1).
Proof. exact (neg_respected i X). Qed.
Print Assumptions C70_negative.
Theorem C70_negative_on_pairs (i : fimp) C P : C ⊆ P →
  neg_is_respected_partial i (C, P) = true ↔
    ¬ i.1 ⊆ C ∨ ∀ X, C ⊆ X → X ⊆ P → neg_is_respected i X = true.
Proof. exact (neg_partial_respected i C P). Qed.
Print Assumptions C70_negative_on_pairs.
Example C70_case : is_respected_partial ({[sa]}, {[sb]}) ({[sa]}, {[sa; sb; sc]}) = true ∧
  is_respected_partial ({[sa]}, {[sb]}) ({[sa]}, {[sa; sc]}) = false ∧
  neg_is_respected ({[sa]}, {[sb; sc]}) {[sa; sc]} = false ∧ neg_is_respected ({[sa]}, {[sb; sc]}) {[sa]} = true ∧
  neg_is_respected_partial ({[sa]}, {[sb]}) ({[sa]}, {[sa; sc]}) = true.
Proof. repeat split; dec. Qed.
(** For negative implications the answer on a partial example is neither "some
    completion respects it" nor "all do". *)
Theorem C70_negative_some_refuted : ∃ i C P X, C ⊆ P ∧ C ⊆ X ∧ X ⊆ P ∧ neg_is_respected i X = true ∧
  neg_is_respected_partial i (C, P) = false.
Proof. exists ({[sa]}, {[sb]}), {[sa]}, {[sa; sb]}, {[sa]}. repeat split; dec. Qed.
Print Assumptions C70_negative_some_refuted.
Theorem C70_negative_all_refuted : ∃ i C P X, C ⊆ P ∧ C ⊆ X ∧ X ⊆ P ∧ neg_is_respected i X = false ∧
  neg_is_respected_partial i (C, P) = true.
Proof. exists ({[sa]}, {[sb]}), ∅, {[sa; sb]}, {[sa; sb]}. repeat split; dec. Qed.
Print Assumptions C70_negative_all_refuted.

(** ** C71: unit implications *)
Theorem C71_unit p c : let i := unit_imp p c in
  unit_conclusion i = (if decide (c ∈ p) then Err AssertionError else Ok {[c]}) ∧
  ∀ X, unit_is_respected i X =
    (if decide (p ⊆ X) then if decide (c ∈ p) then Err AssertionError else Ok (bool_decide (c ∈ X)) else Ok true).
Proof. exact (unit_spec p c). Qed.
Print Assumptions C71_unit.
Example C71_case : unit_conclusion (unit_imp {[sa; sb]} sc) = Ok {[sc]} ∧ unit_conclusion (unit_imp {[sa; sb]} sa) = Err AssertionError ∧
  unit_is_respected (unit_imp {[sa]} sb) {[sa; sc]} = Ok false.
Proof. split; [|split]; dec. Qed.
