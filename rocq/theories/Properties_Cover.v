(** * Implication covers: the final statements (C49, C50, C69) *)
From Verif Require Import Py Spec PyFacts SpecFacts ContextModel ContextSpec ContextOps ContextFacts ContextInit
  ContextFinal ClosureModel ClosureFacts CoverSpec CoverModel CoverFacts Properties_Context Properties_Closure.

(** ** C49: compute_implication_cover *)
(** [ord n k X] is the order in which the set [X] is iterated for the [k]-th
    implication cut by the [n]-th object. *)
Theorem C49_cover c ord : good c → (∀ n k X, ord n k X ≡ₚ elements X) →
  ∃ L, compute_implication_cover c ord = Ok L ∧
    NoDup (map fst L) ∧
    (∀ i, i ∈ L → i.1 ⊆ fM (abs c) ∧ conclusion i = acl (abs c) i.1 ∖ i.1) ∧
    (∀ X, X ⊆ fM (abs c) → is_closure L X (acl (abs c) X)) ∧
    (∀ X a, X ⊆ fM (abs c) → a ∈ acl (abs c) X ↔ a ∈ X ∨ ∃ i, i ∈ L ∧ i.1 ⊆ X ∧ a ∈ conclusion i) ∧
    (atts c ≠ [] → ∀ p, p ∈ map fst L ↔ p ⊆ fM (abs c) ∧ unsubsumed (acl (abs c)) p) ∧
    (atts c = [] → L = [(∅, ∅)]).
Proof. intros Hc. exact (cover_main c Hc ord). Qed.
Print Assumptions C49_cover.
Example C49_case : good ex ∧ (∀ n k X, (fun (_ _ : nat) (Y : gset name) => elements Y) n k X ≡ₚ elements X) ∧
  compute_implication_cover ex (fun _ _ X => elements X) = Ok [({[sb]}, {[sa; sb]}); ({[sc]}, {[sa; sc]})].
Proof. split; [exact ex_good|]. split; [done|]. dec. Qed.

(** The list may contain implications that follow from the others. *)
Definition ex4 := get_ok empty_cxt (mk_context [[true; true; false; false]; [false; false; false; true]] None [o1; o2] [sa; sb; sc; sd]).
Example ex4_good : good ex4.
Proof.
  eapply (mk_context_good [[true; true; false; false]; [false; false; false; true]] None [o1; o2] [sa; sb; sc; sd]); [reflexivity| | |done].
  - by apply (bool_decide_unpack _).
  - by apply (bool_decide_unpack _).
Qed.
Theorem C49_irredundant_refuted : ∃ c L k i, good c ∧
  compute_implication_cover c (fun _ _ X => elements X) = Ok L ∧ L !! k = Some i ∧ entails (delete k L) i.
Proof.
  exists ex4, [({[sc]}, {[sa; sb; sc; sd]}); ({[sb]}, {[sa; sb]}); ({[sa]}, {[sa; sb]}); ({[sb; sd]}, {[sa; sb; sc]}); ({[sa; sd]}, {[sa; sb; sc]})],
    4, ({[sa; sd]}, {[sa; sb; sc]}).
  split; [exact ex4_good|]. split; [dec|]. split; [done|].
  destruct (is_redundant_main ({[sa; sd]}, {[sa; sb; sc]})
    [({[sc]}, {[sa; sb; sc; sd]}); ({[sb]}, {[sa; sb]}); ({[sa]}, {[sa; sb]}); ({[sb; sd]}, {[sa; sb; sc]})]) as (b & Hb & He).
  { apply Forall_forall. apply (bool_decide_unpack _). vm_compute. exact I. }
  apply He. assert (is_redundant ({[sa; sd]}, {[sa; sb; sc]})
    [({[sc]}, {[sa; sb; sc; sd]}); ({[sb]}, {[sa; sb]}); ({[sa]}, {[sa; sb]}); ({[sb; sd]}, {[sa; sb; sc]})] = Ok true) as E by dec.
  rewrite E in Hb. by injection Hb.
Qed.
Print Assumptions C49_irredundant_refuted.

(** ** C50: minimize *)
(** A list of implications is a list of references [cover] into a heap [h]; the
    premises are changed in place.  Names must be comparable with each other. *)
Theorem C50_minimize M cover h : comparable (elements M) = true → NoDup cover →
  (∀ r, r ∈ cover → (h r).1 ⊆ M ∧ (h r).2 ⊆ M) →
  ∃ cover' h', minimize cover h = Ok (cover', h') ∧ sublist cover' cover ∧
    (∀ X, model_of (map h' cover') X ↔ model_of (map h cover) X) ∧
    (∀ k i, map h' cover' !! k = Some i → ¬ entails (delete k (map h' cover')) i) ∧
    (∀ k i, map h' cover' !! k = Some i → model_of (delete k (map h' cover')) i.1) ∧
    (∀ r, (h' r).2 = (h r).2 ∧ (h r).1 ⊆ (h' r).1 ∧ ∀ X, model_of (map h cover) X → (h r).1 ⊆ X → (h' r).1 ⊆ X) ∧
    (∀ r, r ∉ cover → h' r = h r).
Proof. intros HM. exact (minimize_main M HM cover h). Qed.
Print Assumptions C50_minimize.
Definition heap (l : list fimp) (r : nat) : fimp := default (∅, ∅) (l !! r).
(** The resulting implications. *)
Definition min_result (cover : list nat) (l : list fimp) : res (list fimp) :=
  r ← minimize cover (heap l); Ok (map r.2 r.1).
Example C50_case :
  comparable (elements ({[sa; sb; sc; sd]} : gset name)) = true ∧
  min_result [0; 1; 2] [({[sa; sb]}, {[sc]}); ({[sb]}, {[sc]}); ({[sa]}, {[sc]})] =
    Ok [({[sb]}, {[sc]}); ({[sa]}, {[sc]})].
Proof. split; dec. Qed.

(** The same object twice in the list: everything may be lost. *)
Theorem C50_shared_refuted : ∃ l, min_result [0; 0] l = Ok [] ∧ ∃ X, ¬ model_of l X.
Proof.
  exists [({[sa]}, {[sb]})]. split; [dec|]. exists {[sa]}. intros H.
  assert (sb ∈ ({[sa]} : gset name)) as Hb; [|revert Hb; dec].
  apply (H ({[sa]}, {[sb]})); [by left|set_solver|set_solver].
Qed.
Print Assumptions C50_shared_refuted.

(** The result need not be as small as possible. *)
Theorem C50_minimum_refuted : ∃ l l' i, min_result [0; 1] l = Ok l' ∧ length l' = 2 ∧
  ∀ X, model_of [i] X ↔ model_of l' X.
Proof.
  exists [({[sa]}, {[sb]}); ({[sa]}, {[sc]})], [({[sa; sc]}, {[sb]}); ({[sa]}, {[sc]})], ({[sa]}, {[sb; sc]}).
  split; [dec|]. split; [done|]. intros X. rewrite !model_cons. unfold respects. cbn [fst snd].
  assert (model_of [] X) as H0 by (intros j Hj; by apply elem_of_nil in Hj). split.
  - intros [H _]. split; [|split; [|done]]; clear -H; set_solver.
  - intros (H1 & H2 & _). split; [|done]. clear -H1 H2. set_solver.
Qed.
Print Assumptions C50_minimum_refuted.

(** ** C69: is_redundant *)
Theorem C69_is_redundant i L : (∀ j, j ∈ L → is_ok (imp_repr j) = true) →
  ∃ b, is_redundant i L = Ok b ∧ (b = true ↔ entails L i).
Proof. exact (is_redundant_main i L). Qed.
Print Assumptions C69_is_redundant.
Example C69_case :
  is_redundant ({[sa]}, {[sc]}) [({[sa]}, {[sb]}); ({[sb]}, {[sc]})] = Ok true ∧
  is_redundant ({[sa]}, {[sc]}) [({[sa]}, {[sb]})] = Ok false.
Proof. split; dec. Qed.
