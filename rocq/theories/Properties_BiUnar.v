(** * Bi-unary algebras: the final statements (C88-C92) *)
From Verif Require Import Py PyFacts BiUnarModel BiUnarSpec BiUnarFacts.

Ltac dec := apply (bool_decide_unpack _); vm_compute; exact I.
Definition f_eq_g : eqn := (1, 2).
Definition ff_f : eqn := (1, 3).
Definition gg_g : eqn := (2, 6).
(** f = (1 1), g = (2 1). *)
Definition alg : biunar := BiUnar [1; 1]%Z [2; 1]%Z.
Example alg_algebra : algebra 2 alg.
Proof. unfold algebra. split; [done|]. split; [done|]. split; intros x Hx; repeat (apply elem_of_cons in Hx as [->|Hx]; [lia|]); by apply elem_of_nil in Hx. Qed.
Definition eorder (S : gset eqn) : list eqn := elements S.

(** ** C88 *)
Theorem C88_intent n b : algebra n b → ∃ S, bu_intent b = Ok S ∧ ∀ i j, (i, j) ∈ S ↔ i < j < 7 ∧ satisfies n b (i, j).
Proof.
  intros Hb. destruct (bu_intent_spec n b Hb) as (S & E & HS). exists S. split; [done|]. intros i j. rewrite HS. split.
  - intros [H1 H2]. split; [by apply (attributes_bound (i, j))|done].
  - intros [H1 H2]. split; [by apply attributes_all|done].
Qed.
Print Assumptions C88_intent.
Theorem C88_equality n b e : algebra n b → e.1 < 7 → e.2 < 7 → ∃ v, eqn_holds e b = Ok v ∧ (v = true ↔ satisfies n b e).
Proof. intros Hb. exact (eqn_holds_spec n b Hb e). Qed.
Print Assumptions C88_equality.
(** The automorphic copy satisfies the mirrored equalities. *)
Theorem C88_copy ord n b S : algebra n b → (∀ X, ord X ≡ₚ elements X) → bu_intent b = Ok S →
  ∃ S', get_symmetric_attribute_set (ord S) = Ok S' ∧ bu_intent (automorphic_copy b) = Ok S'.
Proof.
  intros Hb Ho E. exists (swset S). split; [|exact (intent_copy n b S Hb E)]. apply symmetric_set_spec; [|apply Ho].
  destruct (bu_intent_spec n b Hb) as (S' & E' & HS). rewrite E in E'. injection E' as <-. intros e [He _]%HS. by apply elem_of_list_to_set.
Qed.
Print Assumptions C88_copy.
(** The table of the context. *)
Theorem C88_table n : ∃ t, context_table n = Ok t ∧ length t = length (generate_examples n) ∧
  ∀ k b r, generate_examples n !! k = Some b → t !! k = Some r →
    length r = length attributes ∧ ∀ j e v, attributes !! j = Some e → r !! j = Some v → v = true ↔ satisfies n b e.
Proof. exact (context_table_spec n). Qed.
Print Assumptions C88_table.
Lemma ok_is {A} `{EqDecision A} (r : res A) X : (match r with Ok Y => bool_decide (Y = X) | Err _ => false end) = true → r = Ok X.
Proof. destruct r; [|done]. by intros ->%bool_decide_eq_true. Qed.
Example C88_case : algebra 2 alg ∧ bu_intent alg = Ok {[(0, 6); (1, 3); (1, 4); (3, 4)]} ∧
  bu_intent (automorphic_copy alg) = Ok {[(0, 3); (2, 5); (2, 6); (5, 6)]} ∧ satisfies 2 alg (1, 4) ∧ ¬ satisfies 2 alg (1, 5).
Proof.
  split; [exact alg_algebra|]. split; [apply ok_is; by vm_compute|]. split; [apply ok_is; by vm_compute|]. split.
  - intros x Hx. assert (x = 1%Z ∨ x = 2%Z) as [->| ->] by lia; done.
  - intros H. by specialize (H 2%Z ltac:(lia)).
Qed.

(** ** C89 *)
(** The symmetric set consists of the mirrored equalities, and mirroring twice gives
    the set back. *)
Theorem C89_symmetric ord S : (∀ X, ord X ≡ₚ elements X) → S ⊆ list_to_set attributes →
  ∃ T, get_symmetric_attribute_set (ord S) = Ok T ∧ T ⊆ list_to_set attributes ∧
    (∀ e', e' ∈ T ↔ e' ∈ attributes ∧ ∃ e, e ∈ S ∧ mirror e e') ∧ get_symmetric_attribute_set (ord T) = Ok S ∧ size T = size S.
Proof. exact (symmetric_set_final ord S). Qed.
Print Assumptions C89_symmetric.
(** Of the two sets of an orbit one is maximal, and both are only when they are equal. *)
Theorem C89_orbit ord S T : (∀ X, ord X ≡ₚ elements X) → S ⊆ list_to_set attributes → get_symmetric_attribute_set (ord S) = Ok T →
  ∃ v w, is_orbit_maximal ord S = Ok v ∧ is_orbit_maximal ord T = Ok w ∧ (v = true ∨ w = true) ∧ (v = true ∧ w = true ↔ T = S).
Proof.
  intros Ho HS E. rewrite (symmetric_set_spec _ S HS (Ho S)) in E. injection E as <-.
  destruct (orbit_spec ord S Ho HS) as (v & w & H1 & H2 & H3 & H4). exists v, w. split; [done|]. split; [done|].
  rewrite orb_true_iff in H3. rewrite andb_true_iff in H4. done.
Qed.
Print Assumptions C89_orbit.
(** The maximal one is the first in the order of the attributes. *)
Theorem C89_maximal ord S T : (∀ X, ord X ≡ₚ elements X) → S ⊆ list_to_set attributes → get_symmetric_attribute_set (ord S) = Ok T →
  is_orbit_maximal ord S = Ok true ↔ T = S ∨ ∃ k e, attributes !! k = Some e ∧ e ∈ S ∧ e ∉ T ∧ ∀ k' e', k' < k → attributes !! k' = Some e' → e' ∈ S ↔ e' ∈ T.
Proof. exact (orbit_maximal_final ord S T). Qed.
Print Assumptions C89_maximal.
(** The symmetric implication holds in the copies exactly when the implication holds. *)
Theorem C89_implication ord n b i : (∀ X, ord X ≡ₚ elements X) → over_attributes i → algebra n b →
  ∃ i', get_symmetric_implication ord i = Ok i' ∧ over_attributes i' ∧ (holds_in n (automorphic_copy b) i' ↔ holds_in n b i).
Proof. exact (symmetric_imp_final ord n b i). Qed.
Print Assumptions C89_implication.
(** [get_symmetric_equality] finds nothing when the copy would have to be written the
    other way round. *)
Theorem C89_equality_refuted : ∃ e e', e ∈ attributes ∧ e' ∈ attributes ∧ mirror e e' ∧ get_symmetric_equality e = None ∧
  symmetric_eqn e = Ok (Some e').
Proof.
  exists f_eq_g, f_eq_g. split; [dec|]. split; [dec|]. split; [right; unfold is_flip, f_eq_g; cbn; repeat split; lia|].
  split; by vm_compute.
Qed.
Print Assumptions C89_equality_refuted.
(** Whenever it finds something, it is the mirrored equality. *)
Theorem C89_equality e e' : e ∈ attributes → get_symmetric_equality e = Some e' → e' ∈ attributes ∧ mirror e e'.
Proof. exact (symmetric_equality_final e e'). Qed.
Print Assumptions C89_equality.
Example C89_case : get_symmetric_attribute_set (eorder {[ff_f; f_eq_g]}) = Ok {[gg_g; f_eq_g]} ∧
  is_orbit_maximal eorder {[ff_f; f_eq_g]} = Ok true ∧ is_orbit_maximal eorder {[gg_g; f_eq_g]} = Ok false ∧
  is_orbit_maximal eorder {[f_eq_g]} = Ok true ∧ get_symmetric_equality ff_f = Some gg_g.
Proof. split; [apply ok_is; by vm_compute|]. repeat split; by vm_compute. Qed.

(** ** C90 *)
(** A set of equalities respects the background implications exactly when some
    equivalence relation on the terms makes exactly these equalities true. *)
Theorem C90_background S : S ⊆ list_to_set attributes →
  (∀ i, i ∈ generate_background_implications attributes → erespects S i) ↔
  ∃ E : nat → nat → Prop, (∀ i, E i i) ∧ (∀ i j, E i j → E j i) ∧ (∀ i j k, E i j → E j k → E i k) ∧ ∀ e, e ∈ attributes → e ∈ S ↔ E e.1 e.2.
Proof.
  intros HS. split; [exact (background_complete S HS)|]. intros (E & _ & H1 & H2 & H3). exact (background_sound E S H2 H1 H3).
Qed.
Print Assumptions C90_background.
(** In particular they hold in every algebra. *)
Theorem C90_algebras n b i : algebra n b → i ∈ generate_background_implications attributes → over_attributes i ∧ holds_in n b i.
Proof. exact (background_holds n b i). Qed.
Print Assumptions C90_algebras.
Example C90_case : length (generate_background_implications attributes) = 105 ∧
  ({[f_eq_g; ff_f]}, {[(2, 3)]}) ∈ generate_background_implications attributes ∧ ¬ erespects {[f_eq_g; ff_f]} ({[f_eq_g; ff_f]}, {[(2, 3)]}).
Proof. split; [by vm_compute|]. split; [dec|]. intros H. assert ((2, 3) ∈ ({[f_eq_g; ff_f]} : gset eqn)) as H' by (apply H; [done|set_solver]). by vm_compute in H'. Qed.

(** ** C91 *)
Theorem C91_examples n : (∀ b, b ∈ generate_examples n ↔ algebra n b) ∧ NoDup (generate_examples n) ∧
  length (generate_examples n) = n ^ n * n ^ n.
Proof. exact (conj (elem_of_examples n) (conj (NoDup_examples n) (length_examples n))). Qed.
Print Assumptions C91_examples.
(** The search finds an algebra of the given size that violates the implication when
    there is one. *)
Theorem C91_search n i : over_attributes i → ∃ o, find_counter_example n i = Ok o ∧
  match o with Some b => algebra n b ∧ ¬ holds_in n b i | None => ∀ b, algebra n b → holds_in n b i end.
Proof. exact (find_spec n i). Qed.
Print Assumptions C91_search.
(** An implication with no counterexample of some size can have one of a larger size. *)
Theorem C91_size_refuted : ∃ i n b, over_attributes i ∧ find_counter_example n i = Ok None ∧ algebra (S n) b ∧ ¬ holds_in (S n) b i.
Proof.
  exists (∅, {[f_eq_g]}), 1, alg. split; [split; dec|]. split; [by vm_compute|].
  split; [exact alg_algebra|]. intros H. specialize (H ltac:(set_solver) f_eq_g ltac:(set_solver) 1%Z ltac:(lia)). by vm_compute in H.
Qed.
Print Assumptions C91_size_refuted.
Example C91_case : over_attributes ({[ff_f]}, {[f_eq_g]}) ∧ find_counter_example 2 ({[ff_f]}, {[f_eq_g]}) = Ok (Some (BiUnar [1; 1] [1; 2])%Z) ∧
  find_counter_example 2 ({[f_eq_g]}, {[(3, 6)]}) = Ok None ∧ length (generate_examples 2) = 16.
Proof.
  split; [split; dec|]. split; [by vm_compute|]. split; by vm_compute.
Qed.

(** ** C92 *)
(** The two sets made from an algebra bound its intent, and every set between them
    respects the implication exactly when the algebra does. *)
Theorem C92_bounds ord n i b S : (∀ X, ord X ≡ₚ elements X) → over_attributes i → algebra n b → bu_intent b = Ok S →
  ∃ x q, generate_partial_counterexample ord i b = Ok (x, q) ∧ x ⊆ S ∧ S ⊆ q ∧ q ⊆ list_to_set attributes ∧
    ∀ Y, x ⊆ Y → Y ⊆ q → erespects Y i ↔ holds_in n b i.
Proof. exact (partial_spec ord n i b S). Qed.
Print Assumptions C92_bounds.
Example C92_case : ∃ x q, generate_partial_counterexample eorder ({[ff_f]}, {[f_eq_g]}) alg = Ok (x, q) ∧ x = {[ff_f]} ∧ f_eq_g ∉ q ∧ gg_g ∈ q ∧ size q = 20 ∧
  ¬ holds_in 2 alg ({[ff_f]}, {[f_eq_g]}).
Proof.
  set (r := match generate_partial_counterexample eorder ({[ff_f]}, {[f_eq_g]}) alg with Ok p => p | Err _ => (∅, ∅) end). exists r.1, r.2.
  split; [unfold r; by vm_compute|]. split; [dec|]. split; [dec|]. split; [dec|]. split; [dec|].
  intros H. assert (satisfies 2 alg f_eq_g) as Hs.
  { apply H; [|set_solver]. intros e He x Hx. cbn [fst] in He. apply elem_of_singleton in He as ->. assert (x = 1%Z ∨ x = 2%Z) as [->| ->] by lia; done. }
  by specialize (Hs 1%Z ltac:(lia)).
Qed.
