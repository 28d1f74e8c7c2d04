(** * Memoising wrappers and object implications: the final statements (C29, C30, C66) *)
From Verif Require Import Py Spec PyFacts SpecFacts ContextModel ContextSpec ContextOps ContextFacts ContextInit ContextMisc
  ContextFinal ClosureModel ClosureFacts DgModel DgSpec DgCxt DgFinal MemoModel MemoFacts Properties_Context Properties_Closure Properties_Dg.

(** ** C29 *)
Theorem C29_object_implications_fail c ords : good c → objs c ≠ [] →
  ∃ m, get_object_implications (fresh c) ords None = (m, Err TypeError) ∧
    mc m = c ∧ ilayers m ≠ [] ∧ elayers m ≠ [].
Proof.
  intros Hg Hne. exists (push (fresh c)). split; [exact (object_implications_default (fresh c) ords Hg Hne eq_refl)|]. done.
Qed.
Print Assumptions C29_object_implications_fail.
Theorem C29_no_objects c ords : good c → objs c = [] →
  get_object_implications (fresh c) ords None = (fresh c, Ok []).
Proof.
  intros Hg Hno. unfold get_object_implications, basis_computation. cbn [push mc obasis fresh].
  destruct (transpose_spec c) as (t & -> & _ & _ & Hat & _); [apply Hg..|].
  unfold compute_dg_basis, generalized_compute_dg_basis. rewrite Hat, Hno. reflexivity.
Qed.
Print Assumptions C29_no_objects.
Example C29_case : good ex ∧ objs ex ≠ [] ∧ (get_object_implications (fresh ex) elts None).2 = Err TypeError.
Proof. split; [exact ex_good|]. split; [done|]. dec. Qed.

(** ** C30 *)
(** As long as no basis computation has raised, the getters and every further
    basis computation see the current table: the one made by the mutators alone. *)
Theorem C30_current_values c l : calm (fresh c) l →
  let m := mrun (fresh c) l in
  mc m = run c (mutators l) ∧
  (∀ o, (m_object_intent m o).2 = get_object_intent (run c (mutators l)) o) ∧
  (∀ a, (m_attribute_extent m a).2 = get_attribute_extent (run c (mutators l)) a) ∧
  (∀ A (p : prog A), (basis_computation m (exec p)).2 = direct p (run c (mutators l))).
Proof. exact (calm_reads c l). Qed.
Print Assumptions C30_current_values.
(** Two reads, a decision depending on the values read, and a result. *)
Definition prog1 : prog (list fimp) :=
  ReadI 0 (λ r, ReadE 2 (λ s, match r, s with Ok X, Ok Y => if (size X =? size Y)%nat then Ret (Ok []) else ReadI 0 (λ r, Ret (X ← r; Ok [(X, Y)])) | _, _ => Ret (Err KeyError) end)).
Definition hist1 : list mop :=
  [MReadI 0; MBasis prog1; MMutate (OpSetObjectIntent [sb; sc] o1); MReadE 9; MMutate (OpAddObject [true; true; true] (NInt 7)); MReadI 4].
Example C30_case : calm (fresh ex) hist1 ∧ (m_object_intent (mrun (fresh ex) hist1) o1).2 = Ok {[sb; sc]} ∧
  get_object_intent ex o1 = Ok {[sa; sb]} ∧
  (basis_computation (fresh ex) (exec prog1)).2 = Ok [({[sa; sb]}, {[o2]})].
Proof. split; [|split; [|split]]; [|dec..].
  unfold hist1. cbn [calm]. repeat split; intros H; first [discriminate H|vm_compute; reflexivity].
Qed.

(** After a basis computation that raised: the wrappers stay.  From then on the
    first value read for a row (column) is returned for ever, whatever mutators,
    reads and basis computations follow. *)
Theorem C30_stale_for_ever m i v l : ilayers m ≠ [] → (read_intent m i).2 = Ok v →
  (read_intent (mrun (read_intent m i).1 l) i).2 = Ok v.
Proof. exact (stale_forever m i v l). Qed.
Print Assumptions C30_stale_for_ever.
Theorem C30_stale_for_ever_extent m i v l : elayers m ≠ [] → (read_extent m i).2 = Ok v →
  (read_extent (mrun (read_extent m i).1 l) i).2 = Ok v.
Proof. exact (stale_forever_extent m i v l). Qed.
Print Assumptions C30_stale_for_ever_extent.
(** In any history whatsoever a value read is the value in the present or in some earlier table. *)
Theorem C30_values_from_the_past c l :
  (∀ i v, (read_intent (mrun (fresh c) l) i).2 = Ok v →
     ∃ l1 l2, l = l1 ++ l2 ∧ get_object_intent_by_index (mc (mrun (fresh c) l1)) i = Ok v) ∧
  (∀ i v, (read_extent (mrun (fresh c) l) i).2 = Ok v →
     ∃ l1 l2, l = l1 ++ l2 ∧ get_attribute_extent_by_index (mc (mrun (fresh c) l1)) i = Ok v).
Proof. exact (reads_past c l). Qed.
Print Assumptions C30_values_from_the_past.
(** The natural expectation "a getter returns the row of the current table" fails. *)
Definition hist2 : list mop := [MObjImps elts None; MReadI 0; MMutate (OpSetObjectIntent [sc] o1)].
Theorem C30_current_value_refuted :
  ∃ m, m = mrun (fresh ex) hist2 ∧ get_object_intent (mc m) o1 = Ok {[sc]} ∧ (m_object_intent m o1).2 = Ok {[sa; sb]}.
Proof. eexists. split; [reflexivity|]. split; dec. Qed.
Print Assumptions C30_current_value_refuted.

(** ** C66 *)
Theorem C66_object_implications m ords : good (mc m) → comparable (objs (mc m)) = true →
  (∀ s L k X, ords s L k X ≡ₚ elements X) → obasis m = [] →
  ∃ R, get_object_implications m ords (Some []) = (MCxt (mc m) (ilayers m) (elayers m) R, Ok R) ∧
    (∀ i, i ∈ R → i.2 = ocl (abs (mc m)) i.1) ∧
    pseudo_family (fG (abs (mc m))) (ocl (abs (mc m))) [] (λ P, P ∈ map fst R) ∧
    StronglySorted (lectic (objs (mc m))) (map fst R).
Proof. exact (object_implications_spec m ords). Qed.
Print Assumptions C66_object_implications.
Example C66_case : comparable (objs ex) = true ∧
  (get_object_implications (fresh ex) elts (Some [])).2 =
    Ok [({[o4]}, {[o1; o2; o3; o4]}); ({[o3]}, {[o1; o2; o3]}); ({[o1; o2]}, {[o1; o2; o3]})].
Proof. split; [reflexivity|dec]. Qed.
(** Once computed, a non-empty basis is returned for ever, whatever the background passed and the table. *)
Theorem C66_cached m ords conf : wf (mc m) → distinct (mc m) → obasis m ≠ [] →
  get_object_implications m ords conf = (m, Ok (obasis m)).
Proof. exact (object_implications_cached m ords conf). Qed.
Print Assumptions C66_cached.
Definition hist3 : list mop := [MObjImps elts (Some []); MMutate (OpSetObjectIntent [sc] o4)].
(** So after an update the basis can contain implications between objects that no longer hold. *)
Theorem C66_stale_refuted :
  ∃ m R, m = mrun (fresh ex) hist3 ∧ (get_object_implications m elts (Some [])).2 = Ok R ∧
    (get_object_implications (fresh (mc m)) elts (Some [])).2 ≠ Ok R ∧
    ({[o4]}, {[o1; o2; o3; o4]}) ∈ R ∧ o1 ∉ ocl (abs (mc m)) {[o4]}.
Proof.
  exists (mrun (fresh ex) hist3), [({[o4]}, {[o1; o2; o3; o4]}); ({[o3]}, {[o1; o2; o3]}); ({[o1; o2]}, {[o1; o2; o3]})].
  split; [reflexivity|]. split; [dec|]. split; [dec|]. split; [dec|]. dec.
Qed.
Print Assumptions C66_stale_refuted.
