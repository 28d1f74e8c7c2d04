(** * Closure operators and implications: the final statements (C06, C07, C20-C22, C47) *)
From Verif Require Import Py Spec PyFacts SpecFacts ContextModel ContextSpec ContextOps ContextFacts ContextInit
  ContextFinal ClosureModel ClosureFacts Properties_Context.

(** ** C06: module functions oprime, aprime *)
Theorem C06_module_functions c l : good c →
  fn_oprime c l = oprime c l ∧ (objs c ≠ [] → fn_aprime c l = aprime c l).
Proof. intros Hg. split; [exact (fn_oprime_oprime c l Hg)|exact (fn_aprime_aprime c l Hg)]. Qed.
Print Assumptions C06_module_functions.
Example C06_module_case : fn_oprime ex [o1; o2] = Ok {[sa]} ∧ fn_aprime ex [sb; sb; sa] = Ok {[o1]}
  ∧ fn_oprime ex [o1; sa] = Err KeyError.
Proof. split; [|split]; dec. Qed.

(** On a context built without objects the module function fails where the
    method succeeds. *)
Theorem C06_module_no_objects_refuted :
  ∃ c, mk_context [] None [] [sa] = Ok c ∧ fn_aprime c [sa] = Err IndexError ∧ aprime c [sa] = Ok ∅.
Proof. eexists. split; [reflexivity|]. split; dec. Qed.
Print Assumptions C06_module_no_objects_refuted.

(** ** C07: module functions aclosure, oclosure *)
Theorem C07_module_functions c : good c → objs c ≠ [] →
  (∀ B, (∀ m, m ∈ B → m ∈ atts c) → ∃ X, aclosure c B = Ok X ∧
     (comparable (elements X) = true →
        ∃ k, fn_aclosure c B = Ok k ∧ k ≡ₚ elements X ∧ StronglySorted (λ x y, name_leb x y = true) k) ∧
     (comparable (elements X) = false → fn_aclosure c B = Err TypeError)) ∧
  (∀ A, (∀ g, g ∈ A → g ∈ objs c) → ∃ X, oclosure c A = Ok X ∧
     (comparable (elements X) = true →
        ∃ k, fn_oclosure c A = Ok k ∧ k ≡ₚ elements X ∧ StronglySorted (λ x y, name_leb x y = true) k) ∧
     (comparable (elements X) = false → fn_oclosure c A = Err TypeError)).
Proof. exact (fn_closures_final c). Qed.
Print Assumptions C07_module_functions.
Example C07_module_case : fn_aclosure ex [sb] = Ok [sa; sb] ∧ fn_oclosure ex [o3; o1] = Ok [o1; o2; o3].
Proof. split; dec. Qed.

(** ** C20: simple_closure *)
Theorem C20_simple_closure s imps :
  ((∀ i, i ∈ imps → is_ok (imp_repr i) = true) →
     ∃ C, simple_closure s imps = Ok C ∧ s ⊆ C ∧ (∀ i, i ∈ imps → i.1 ⊆ C → i.2 ⊆ C) ∧
       ∀ Y, s ⊆ Y → (∀ i, i ∈ imps → i.1 ⊆ Y → i.2 ⊆ Y) → C ⊆ Y) ∧
  ((∃ i, i ∈ imps ∧ is_ok (imp_repr i) = false) → simple_closure s imps = Err TypeError).
Proof. split; [exact (simple_closure_spec s imps)|exact (simple_closure_TypeError s imps)]. Qed.
Print Assumptions C20_simple_closure.
Definition sd := NStr "d". Definition se := NStr "e".
Definition imps1 : list fimp := [({[sc; se]}, {[sa; sb; sd]}); ({[sa]}, {[sb; sc]}); ({[sa]}, {[sb; sc]}); ({[sd; se]}, {[sa; sb; sc]})].
Example C20_case : simple_closure {[sa; se]} imps1 = Ok {[sa; sb; sc; sd; se]}
  ∧ simple_closure {[sa]} imps1 = Ok {[sa; sb; sc]} ∧ simple_closure {[sd]} imps1 = Ok {[sd]}.
Proof. split; [|split]; dec. Qed.

(** ** C21: lin_closure *)
(** [ord k X] is the order in which the [k]-th iterated set is traversed. *)
Theorem C21_lin_closure ord s imps :
  (∀ k X, ord k X ≡ₚ elements X) →
  (∀ p q i j, imps !! p = Some i → imps !! q = Some j → p ≠ q → imp_eqb i j = false) →
  (∀ i, i ∈ imps → is_ok (imp_repr i) = true) →
  ∃ C, lin_closure ord s imps = Ok C ∧ simple_closure s imps = Ok C ∧
    s ⊆ C ∧ (∀ i, i ∈ imps → i.1 ⊆ C → i.2 ⊆ C) ∧
    ∀ Y, s ⊆ Y → (∀ i, i ∈ imps → i.1 ⊆ Y → i.2 ⊆ Y) → C ⊆ Y.
Proof. exact (lin_closure_final ord s imps). Qed.
Print Assumptions C21_lin_closure.
Definition imps2 : list fimp := [({[sc; se]}, {[sa; sb; sd]}); ({[sa]}, {[sb; sc]}); ({[sd; se]}, {[sa; sb; sc]}); (∅, {[sa]})].
Example C21_case : lin_closure (λ _, elements) {[se]} imps2 = Ok {[sa; sb; sc; sd; se]}
  ∧ lin_closure (λ _ X, reverse (elements X)) ∅ imps2 = Ok {[sa; sb; sc]}.
Proof. split; dec. Qed.

(** Termination does not need distinct implications. *)
Theorem C21_terminates ord s imps : (∀ k X, ord k X ≡ₚ elements X) →
  ((∀ i, i ∈ imps → is_ok (imp_repr i) = true) →
     ∃ C, lin_closure ord s imps = Ok C ∧ s ⊆ C ∧ C ⊆ s ∪ ⋃ map snd imps) ∧
  ((∃ i, i ∈ imps ∧ is_ok (imp_repr i) = false) → lin_closure ord s imps = Err TypeError).
Proof. intros Ho. split; [exact (lin_closure_total ord s imps Ho)|exact (lin_closure_TypeError ord s imps)]. Qed.
Print Assumptions C21_terminates.

(** With a repeated implication the counter is decreased twice for one
    attribute and the conclusion is added although the premise is not there. *)
Theorem C21_repeated_refuted : ∃ s imps C,
  lin_closure (λ _, elements) s imps = Ok C ∧ simple_closure s imps = Ok s ∧ C ≠ s.
Proof.
  exists {[sa]}, [({[sa; sb]}, {[sc]}); ({[sa; sb]}, {[sc]})], {[sa; sc]}.
  split; [dec|]. split; [dec|]. by apply (bool_decide_unpack _).
Qed.
Print Assumptions C21_repeated_refuted.

(** ** C22: closure *)
Theorem C22_closure cur base imps k :
  ∃ C, cur ⊆ C ∧ (∀ i, i ∈ imps → i.1 ⊆ C → i.2 ⊆ C) ∧
    (∀ Y, cur ⊆ Y → (∀ i, i ∈ imps → i.1 ⊆ Y → i.2 ⊆ Y) → C ⊆ Y) ∧
    ((∀ x, x ∈ take k base → (x ∈ C ↔ x ∈ cur)) → closure cur base imps k = Ok (true, C)) ∧
    (¬ (∀ x, x ∈ take k base → (x ∈ C ↔ x ∈ cur)) → closure cur base imps k = Ok (false, ∅)).
Proof. exact (closure_final cur base imps k). Qed.
Print Assumptions C22_closure.
Example C22_case : closure {[sa]} [sb; sa; sc] imps1 0 = Ok (true, {[sa; sb; sc]})
  ∧ closure {[sa]} [sb; sa; sc] imps1 1 = Ok (false, ∅)
  ∧ closure {[sa]} [sa; sb; sc] imps1 1 = Ok (true, {[sa; sb; sc]}).
Proof. split; [|split]; dec. Qed.

(** ** C47: implications *)
Theorem C47_implication i j X :
  (is_respected i X = true ↔ (i.1 ⊆ X → i.2 ⊆ X)) ∧
  (imp_eqb i j = true ↔ i.1 = j.1 ∧ i.2 ∖ i.1 = j.2 ∖ j.1) ∧
  (imp_eqb i j = true → is_respected i X = is_respected j X ∧ imp_repr i = imp_repr j).
Proof. exact (implication_final i j X). Qed.
Print Assumptions C47_implication.
Example C47_case : imp_eqb ({[sa; sb]}, {[sb; sc]}) ({[sb; sa]}, {[sc]}) = true ∧
  imp_repr ({[sa; sb]}, {[sb; sc]}) = Ok "a, b => c"%string ∧
  is_respected ({[sa; sb]}, {[sb; sc]}) {[sa; sb]} = false.
Proof. split; [|split]; dec. Qed.
(** The string, and so the hash, exists unless one side mixes strings and numbers. *)
Theorem C47_hash i : is_ok (imp_repr i) = true ↔
  ((∀ x, x ∈ i.1 → is_str x = true) ∨ (∀ x, x ∈ i.1 → is_str x = false)) ∧
  ((∀ x, x ∈ i.2 → x ∉ i.1 → is_str x = true) ∨ (∀ x, x ∈ i.2 → x ∉ i.1 → is_str x = false)).
Proof. exact (hashable_final i). Qed.
Print Assumptions C47_hash.
Example C47_hash_case : imp_repr ({[sa; o1]}, ∅) = Err TypeError ∧ imp_repr ({[o2; o1]}, {[sa]}) = Ok "1, 2 => a"%string.
Proof. split; dec. Qed.
