(** * Concept indices and filtering: the final statements (C36-C39, C41, C67) *)
From Coq Require Import QArith Qcanon.
From Verif Require Import Py Spec PyFacts SpecFacts ContextModel ContextSpec ContextOps ContextFacts ContextInit
  ContextFinal LatticeSpec LatticeModel NorrisFacts LatticeFacts FilterModel FilterFacts FilterFacts2 Properties_Context Properties_Lattice.
Local Open Scope nat_scope.

(** The lattices of the statements exist: C33. *)
(** ** C36 *)
Theorem C36_istability c l pop : good c → comparable (objs c) = true → comparable (atts c) = true → mk_lattice c = Ok l →
  (∀ k W, W ≠ ∅ → pop k W ∈ W) →
  ∃ st, compute_istability pop (lconcepts l) = Ok st ∧
    (∀ x, x ∈ map fst st → is_concept (abs c) x.1 x.2) ∧
    ∀ A B, is_concept (abs c) A B →
      ∃ n, is_card (λ S, S ⊆ A ∧ up (abs c) S = B) n ∧
        dget (A, B) st = Some (Q2Qc (inject_Z (Z.of_nat n) / inject_Z (2 ^ Z.of_nat (size A)))).
Proof.
  intros Hg Ho Ha Hl Hpop. destruct (lattice_spec c Hg Ho Ha l Hl) as (_ & Hnd & Hcs & _).
  destruct (istability_spec c Hg Ho Ha (lconcepts l) Hnd Hcs pop Hpop) as (st & H1 & H2 & H3).
  exists st. split; [exact H1|]. split; [intros [A B] Hx; exact (proj1 (Hcs A B) (H2 _ Hx))|].
  intros A B Hx. exact (H3 A B (proj2 (Hcs A B) Hx)).
Qed.
Print Assumptions C36_istability.
Definition pop_first (k : nat) (W : gset fconcept) : fconcept := default (∅, ∅) (head (elements W)).
Definition pop_last (k : nat) (W : gset fconcept) : fconcept := default (∅, ∅) (last (elements W)).
Lemma pop_first_in k W : W ≠ ∅ → pop_first k W ∈ W.
Proof.
  intros H. unfold pop_first. destruct (elements W) as [|x l] eqn:E.
  - apply elements_empty_inv in E. by fold_leibniz.
  - simpl. apply elem_of_elements. rewrite E. by left.
Qed.
(** Five of the eight subsets of {1,2,3} have the intent {a}. *)
Example C36_case : is_ok (mk_lattice ex) = true ∧ (∀ k W, W ≠ ∅ → pop_first k W ∈ W) ∧
  (st ← compute_istability pop_first (lconcepts ex_lat); get_or KeyError (dget ({[o1; o2; o3]}, {[sa]}) st)) = Ok (Q2Qc (5 # 8)) ∧
  (st ← compute_istability pop_last (lconcepts ex_lat); get_or KeyError (dget ({[o1; o2; o3]}, {[sa]}) st)) = Ok (Q2Qc (5 # 8)).
Proof. split; [by vm_compute|]. split; [exact pop_first_in|]. split; dec. Qed.

(** ** C37 *)
Theorem C37_estability c l pop : good c → comparable (objs c) = true → comparable (atts c) = true → mk_lattice c = Ok l →
  (∀ k W, W ≠ ∅ → pop k W ∈ W) →
  ∃ st, compute_estability pop (lconcepts l) = Ok st ∧
    (∀ x, x ∈ map fst st → is_concept (abs c) x.1 x.2) ∧
    ∀ A B, is_concept (abs c) A B →
      ∃ n, is_card (λ T, T ⊆ B ∧ down (abs c) T = A) n ∧
        dget (A, B) st = Some (Q2Qc (inject_Z (Z.of_nat n) / inject_Z (2 ^ Z.of_nat (size B)))).
Proof.
  intros Hg Ho Ha Hl Hpop. destruct (lattice_spec c Hg Ho Ha l Hl) as (_ & Hnd & Hcs & _).
  destruct (estability_spec c Ho Ha (lconcepts l) Hnd Hcs pop Hpop) as (st & H1 & H2 & H3).
  exists st. split; [exact H1|]. split; [intros [A B] Hx; exact (proj1 (Hcs A B) (H2 _ Hx))|].
  intros A B Hx. exact (H3 A B (proj2 (Hcs A B) Hx)).
Qed.
Print Assumptions C37_estability.
(** The subsets {b} and {a,b} of {a,b} have the extent {1}. *)
Example C37_case :
  (st ← compute_estability pop_first (lconcepts ex_lat); get_or KeyError (dget ({[o1]}, {[sa; sb]}) st)) = Ok (Q2Qc (1 # 2)) ∧
  (st ← compute_estability pop_first (lconcepts ex_lat); get_or KeyError (dget (∅, {[sa; sb; sc]}) st)) = Ok (Q2Qc (1 # 4)).
Proof. split; dec. Qed.

(** ** C38 *)
Theorem C38_separation c l : good c → comparable (objs c) = true → comparable (atts c) = true → mk_lattice c = Ok l →
  objs c ≠ [] →
  ∃ d, compute_separation_index l = Ok d ∧
    (∀ x, x ∈ map fst d ↔ x ∈ lconcepts l) ∧
    ∀ A B, is_concept (abs c) A B →
      dget (A, B) d = Some (if decide (A = ∅ ∨ B = ∅) then Q2Qc 1
        else Q2Qc (inject_Z (Z.of_nat (size A * size B)) /
                   inject_Z (Z.of_nat (size (filter (λ p, p.1 ∈ A ∨ p.2 ∈ B) (fI (abs c))))))).
Proof.
  intros Hg Ho Ha Hl Hne. destruct (lattice_spec c Hg Ho Ha l Hl) as (Hc & _ & Hcs & _).
  unfold compute_separation_index. rewrite Hc.
  destruct (index_of_spec (separation_one c) (lconcepts l)
    (λ x, if decide (x.1 = ∅ ∨ x.2 = ∅) then Q2Qc 1
          else qdiv (Z.of_nat (size x.1 * size x.2)) (Z.of_nat (size (crosses (abs c) x.1 x.2))))) as (d & H1 & H2 & H3).
  - intros [A B] Hx. exact (concept_hash c Ho Ha A B (proj1 (Hcs A B) Hx)).
  - intros [A B] Hx. exact (separation_one_spec c Hg A B Hne (proj1 (Hcs A B) Hx)).
  - exists d. split; [exact H1|]. split; [exact H2|]. intros A B Hx. exact (H3 (A, B) (proj2 (Hcs A B) Hx)).
Qed.
Print Assumptions C38_separation.
Example C38_case : (d ← compute_separation_index ex_lat; get_or KeyError (dget ({[o1; o2; o3]}, {[sa]}) d)) = Ok (Q2Qc (3 # 5)) ∧
  (d ← compute_separation_index ex_lat; get_or KeyError (dget ({[o1; o2; o3; o4]}, ∅) d)) = Ok (Q2Qc 1).
Proof. split; dec. Qed.
(** A context without objects: the column of an attribute cannot be read. *)
Theorem C38_no_objects_refuted : ∃ c l, good c ∧ mk_lattice c = Ok l ∧ compute_separation_index l = Err IndexError.
Proof.
  set (r := mk_context [] None [] [sa]). assert (r = Ok (get_ok empty_cxt r)) as Hr by reflexivity.
  exists (get_ok empty_cxt r), (get_ok ex_lat (mk_lattice (get_ok empty_cxt r))).
  split; [eapply mk_context_good; [exact Hr|dec|dec|done]|]. split; [by apply get_ok_eq; vm_compute|vm_compute; reflexivity].
Qed.
Print Assumptions C38_no_objects_refuted.

(** ** C39 *)
Theorem C39_sizes c l : good c → comparable (objs c) = true → comparable (atts c) = true → mk_lattice c = Ok l →
  (objs c ≠ [] → ∃ d, compute_extent_size l = Ok d ∧ (∀ x, x ∈ map fst d ↔ x ∈ lconcepts l) ∧
     ∀ A B, is_concept (abs c) A B →
       dget (A, B) d = Some (Q2Qc (inject_Z (Z.of_nat (size A)) / inject_Z (Z.of_nat (length (objs c)))))) ∧
  (atts c ≠ [] → ∃ d, compute_intent_size l = Ok d ∧ (∀ x, x ∈ map fst d ↔ x ∈ lconcepts l) ∧
     ∀ A B, is_concept (abs c) A B →
       dget (A, B) d = Some (Q2Qc (inject_Z (Z.of_nat (size B)) / inject_Z (Z.of_nat (length (atts c)))))) ∧
  (objs c = [] → compute_extent_size l = Err ZeroDivisionError) ∧
  (atts c = [] → compute_intent_size l = Err ZeroDivisionError).
Proof.
  intros Hg Ho Ha Hl. destruct (lattice_spec c Hg Ho Ha l Hl) as (Hc & _ & Hcs & _).
  assert (lconcepts l ≠ []) as Hne.
  { intros E. pose proof (proj2 (Hcs _ _) (top_concept (abs c))) as H. rewrite E in H. by apply elem_of_nil in H. }
  assert (∀ x, x ∈ lconcepts l → chash x = true) as Hh.
  { intros [A B] Hx. exact (concept_hash c Ho Ha A B (proj1 (Hcs A B) Hx)). }
  unfold compute_extent_size, compute_intent_size. rewrite Hc. split_and!; intros H.
  - destruct (index_of_spec (λ x, size_ratio (length (objs c)) x.1) (lconcepts l)
      (λ x, qdiv (Z.of_nat (size x.1)) (Z.of_nat (length (objs c))))) as (d & H1 & H2 & H3).
    + exact Hh.
    + intros x _. unfold size_ratio. rewrite decide_False by by destruct (objs c). reflexivity.
    + exists d. split; [exact H1|]. split; [exact H2|]. intros A B Hx. exact (H3 (A, B) (proj2 (Hcs A B) Hx)).
  - destruct (index_of_spec (λ x, size_ratio (length (atts c)) x.2) (lconcepts l)
      (λ x, qdiv (Z.of_nat (size x.2)) (Z.of_nat (length (atts c))))) as (d & H1 & H2 & H3).
    + exact Hh.
    + intros x _. unfold size_ratio. rewrite decide_False by by destruct (atts c). reflexivity.
    + exists d. split; [exact H1|]. split; [exact H2|]. intros A B Hx. exact (H3 (A, B) (proj2 (Hcs A B) Hx)).
  - apply index_of_err; [exact Hne|]. intros x _. rewrite H. reflexivity.
  - apply index_of_err; [exact Hne|]. intros x _. rewrite H. reflexivity.
Qed.
Print Assumptions C39_sizes.
Example C39_case : (d ← compute_extent_size ex_lat; get_or KeyError (dget ({[o1; o2; o3]}, {[sa]}) d)) = Ok (Q2Qc (3 # 4)) ∧
  (d ← compute_intent_size ex_lat; get_or KeyError (dget ({[o1]}, {[sa; sb]}) d)) = Ok (Q2Qc (2 # 3)).
Proof. split; dec. Qed.

(** ** C41 *)
(** [ix] is the dictionary of an arbitrary index function with values in an arbitrary type. *)
Theorem C41_filter_concepts {V} (geb : V → V → bool) (ix : list (fconcept * V)) (v : V) : ix ≠ [] →
  (∃ s, filter_concepts geb ix "value" v = Ok s ∧
     sconcepts s = map fst (filter (λ p, geb p.2 v = true) ix)) ∧
  filter_concepts geb ix "part" v = Err TypeError ∧
  filter_concepts geb ix "abs" v = Err TypeError ∧
  (∀ mode, mode ≠ "value"%string → is_ok (filter_concepts geb ix mode v) = false).
Proof.
  intros Hne. destruct ix as [|p ix]; [done|]. split; [|split; [reflexivity|split; [reflexivity|]]].
  - eexists. split; [reflexivity|]. simpl. f_equal. change (List.filter (λ q, geb q.2 v) (p :: ix) = filter (λ q, geb q.2 v = true) (p :: ix)).
    generalize (p :: ix). intros l. induction l as [|q l IH]; [reflexivity|]. rewrite filter_cons. simpl.
    destruct (geb q.2 v) eqn:E; [rewrite decide_True by done; f_equal; exact IH|rewrite decide_False by done; exact IH].
  - intros mode Hm. unfold filter_concepts. repeat (destruct (decide _)); done.
Qed.
Print Assumptions C41_filter_concepts.
Theorem C41_empty_index {V} (geb : V → V → bool) mode v : filter_concepts geb [] mode v = Err UnboundLocalError.
Proof. reflexivity. Qed.
Print Assumptions C41_empty_index.
Example C41_case : ∃ d s, compute_extent_size ex_lat = Ok d ∧
  filter_concepts (λ x y, bool_decide (y <= x)%Qc) d "value" (Q2Qc (1 # 2)) = Ok s ∧
  sconcepts s = [({[o1; o2; o3]}, {[sa]}); ({[o1; o2; o3; o4]}, ∅)].
Proof.
  set (d := get_ok [] (compute_extent_size ex_lat)).
  exists d, (get_ok (mk_system []) (filter_concepts (λ x y, bool_decide (y <= x)%Qc) d "value" (Q2Qc (1 # 2)))).
  split; [by apply get_ok_eq; vm_compute|]. split; [by apply get_ok_eq; vm_compute|dec].
Qed.

(** ** C67 *)
(** [base x] prints extent and intent, [fmt m] prints a dictionary, [hash] hashes strings: all arbitrary.  [ix] is the
    dictionary of the index function, which has an entry for every concept. *)
Theorem C67_compute_index_breaks_parents {V} (base : fconcept → string) (fmt : list (string * V) → string) (hash : string → Z)
    l (metas : fconcept → list (string * V)) ix nm x :
  (∀ y, y ∈ lconcepts l → y ∈ map fst ix) → x ∈ lconcepts l →
  let metas' := compute_index metas ix nm in
  cstr base fmt x (metas' x) ≠ cstr base fmt x [] ∧
  (hash (cstr base fmt x (metas' x)) ≠ hash (cstr base fmt x []) → meta_parents base fmt hash l metas' x = Err KeyError) ∧
  (metas x = [] → chash x = true → meta_parents base fmt hash l metas x = lat_parents l x).
Proof.
  intros Hix Hx metas'. assert (metas' x ≠ []) as Hm by (apply compute_index_meta; left; exact (Hix x Hx)).
  split; [|split].
  - exact (cstr_meta base fmt x (metas' x) Hm).
  - exact (proj2 (hget_spec base fmt hash (lparents l) metas' x)).
  - intros E Hh. unfold meta_parents, lat_parents, cget. rewrite Hh.
    apply (proj1 (hget_spec base fmt hash (lparents l) metas x)). by rewrite E.
Qed.
Print Assumptions C67_compute_index_breaks_parents.
(** A case: string length as hash. *)
Definition len_hash (s : string) : Z := Z.of_nat (String.length s).
Example C67_case :
  let ix := map (λ x, (x, 1%Z)) (lconcepts ex_lat) in
  let m0 := λ _ : fconcept, [] : list (string * Z) in
  meta_parents (λ _, "(..)") (λ _, "{..}") len_hash ex_lat m0 ({[o1]}, {[sa; sb]}) = Ok {[({[o1; o2; o3]}, {[sa]})]} ∧
  meta_parents (λ _, "(..)") (λ _, "{..}") len_hash ex_lat (compute_index m0 ix "index") ({[o1]}, {[sa; sb]}) = Err KeyError.
Proof. cbv zeta. split; dec. Qed.
