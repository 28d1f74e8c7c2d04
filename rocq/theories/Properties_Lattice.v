(** * Concepts, concept lattices and concept systems: the final statements (C31-C35) *)
From Verif Require Import Py Spec PyFacts SpecFacts ContextModel ContextSpec ContextOps ContextFacts ContextInit
  ContextFinal LatticeSpec LatticeModel NorrisFacts LatticeFacts Properties_Context.

(** ** C31 *)
Theorem C31_norris c : good c → ∃ cs, norris c = Ok cs ∧ NoDup cs ∧ ∀ A B, (A, B) ∈ cs ↔ is_concept (abs c) A B.
Proof.
  intros Hg. destruct (norris_spec c Hg) as (cs & H1 & H2 & _ & H3). exact (ex_intro _ cs (conj H1 (conj H2 H3))).
Qed.
Print Assumptions C31_norris.
Definition ex_concepts : list fconcept :=
  [(∅, {[sa; sb; sc]}); ({[o1]}, {[sa; sb]}); ({[o2]}, {[sa; sc]}); ({[o1; o2; o3]}, {[sa]}); ({[o1; o2; o3; o4]}, ∅)].
Example C31_case : norris ex = Ok ex_concepts.
Proof. dec. Qed.
Example C31_no_objects : norris (get_ok empty_cxt (mk_context [] None [] [sa; sb])) = Ok [(∅, {[sa; sb]})].
Proof. dec. Qed.
Example C31_no_attributes : norris (get_ok empty_cxt (mk_context [[]; []] None [o1; o2] [])) = Ok [({[o1; o2]}, ∅)].
Proof. dec. Qed.

(** ** C32 *)
Theorem C32_covering_relation cs :
  ((∀ x, x ∈ cs → chash x = true) →
     ∃ d, compute_covering_relation cs = Ok d ∧
       (∀ y, is_Some (dget y d) ↔ y ∈ cs) ∧
       (∀ y s, dget y d = Some s → ∀ x, x ∈ s ↔ covers cs x y)) ∧
  (∀ x, x ∈ cs → chash x = false → compute_covering_relation cs = Err TypeError).
Proof. exact (conj (covering_ok cs) (covering_err cs)). Qed.
Print Assumptions C32_covering_relation.
Example C32_case : ∃ d, compute_covering_relation ex_concepts = Ok d ∧ map fst d = ex_concepts ∧
  dget (∅, {[sa; sb; sc]}) d = Some {[({[o1]}, {[sa; sb]}); ({[o2]}, {[sa; sc]})]} ∧
  dget ({[o1; o2; o3; o4]}, ∅) d = Some ∅.
Proof.
  exists (get_ok [] (compute_covering_relation ex_concepts)). split; [by apply get_ok_eq; vm_compute|].
  split; [dec|]. split; dec.
Qed.
(** The list need not consist of concepts of one context, nor be free of repetitions. *)
Example C32_case_repeated : ∃ d, compute_covering_relation [(∅, {[sa]}); (∅, {[sa]}); ({[o1]}, ∅)] = Ok d ∧
  dget (∅, {[sa]}) d = Some {[({[o1]}, ∅)]}.
Proof.
  exists (get_ok [] (compute_covering_relation [(∅, {[sa]}); (∅, {[sa]}); ({[o1]}, ∅)])).
  split; [by apply get_ok_eq; vm_compute|]. dec.
Qed.
Example C32_case_mixed : chash ({[o1; sa]}, {[sb]}) = false.
Proof. reflexivity. Qed.

(** ** C33 *)
Theorem C33_lattice c : good c → comparable (objs c) = true → comparable (atts c) = true →
  ∃ l, mk_lattice c = Ok l ∧ lcxt l = c ∧
    NoDup (lconcepts l) ∧ (∀ A B, (A, B) ∈ lconcepts l ↔ is_concept (abs c) A B) ∧
    ltop l = (fG (abs c), up (abs c) (fG (abs c))) ∧
    lbottom l = (down (abs c) (fM (abs c)), fM (abs c)) ∧
    (∀ x : fconcept, is_concept (abs c) x.1 x.2 →
       (∃ ps, lat_parents l x = Ok ps ∧ ∀ y, y ∈ ps ↔ is_upper_cover (abs c) y x) ∧
       (∃ ks, lat_children l x = Ok ks ∧
          ∀ y : fconcept, y ∈ ks ↔ is_concept (abs c) y.1 y.2 ∧ is_upper_cover (abs c) x y) ∧
       (∀ y : fconcept, y ∈ cfilter (lconcepts l) x ↔ is_concept (abs c) y.1 y.2 ∧ x.1 ⊂ y.1) ∧
       (∀ y : fconcept, y ∈ cideal (lconcepts l) x ↔ is_concept (abs c) y.1 y.2 ∧ y.1 ⊂ x.1)) ∧
    (∀ x : fconcept, ¬ is_concept (abs c) x.1 x.2 →
       lat_parents l x = Err KeyError ∨ lat_parents l x = Err TypeError).
Proof.
  intros Hg Ho Ha. destruct (mk_lattice_ok c Hg Ho Ha) as (l & Hl & _).
  destruct (lattice_spec c Hg Ho Ha l Hl) as (H1 & H2 & H3 & H4 & H5 & H6 & H7).
  exact (ex_intro _ l (conj Hl (conj H1 (conj H2 (conj H3 (conj H5 (conj H4 (conj H6 H7)))))))).
Qed.
Print Assumptions C33_lattice.
Definition ex_lat := get_ok (Lattice empty_cxt [] [] (∅, ∅) (∅, ∅)) (mk_lattice ex).
Example C33_case : comparable (objs ex) = true ∧ comparable (atts ex) = true ∧ is_ok (mk_lattice ex) = true ∧
  ltop ex_lat = ({[o1; o2; o3; o4]}, ∅) ∧ lbottom ex_lat = (∅, {[sa; sb; sc]}) ∧
  lat_parents ex_lat ({[o1]}, {[sa; sb]}) = Ok {[({[o1; o2; o3]}, {[sa]})]} ∧
  lat_children ex_lat ({[o1; o2; o3]}, {[sa]}) = Ok {[({[o1]}, {[sa; sb]}); ({[o2]}, {[sa; sc]})]} ∧
  lat_parents ex_lat ({[o1]}, {[sb]}) = Err KeyError.
Proof. split; [reflexivity|]. split; [reflexivity|]. split; [by vm_compute|]. repeat split; dec. Qed.
(** Names that cannot be compared: the constructor fails. *)
Theorem C33_mixed_names_refuted : ∃ c, good c ∧ mk_lattice c = Err TypeError.
Proof.
  set (r := mk_context [[true]; [true]] None [o1; sa] [sb]).
  assert (r = Ok (get_ok empty_cxt r)) as Hr by reflexivity.
  exists (get_ok empty_cxt r). split; [|vm_compute; reflexivity].
  eapply mk_context_good; [exact Hr|dec|dec|done].
Qed.
Print Assumptions C33_mixed_names_refuted.

(** ** C34 *)
(** [foldl slist cs l] is the list of concepts after the operations [l]. *)
Definition cover_of (cs : list fconcept) (x : fconcept) : res (gset fconcept) :=
  d ← compute_covering_relation cs; cget d x.
Theorem C34_cache_never_stale cs l : let s := srun (mk_system cs) l in
  sconcepts s = foldl slist cs l ∧
  (∀ x, (sparents_of s x).2 = cover_of (sconcepts s) x) ∧
  (∀ x, (schildren s x).2 = children_of (cover_of (sconcepts s)) x (sconcepts s)).
Proof.
  intros s. assert (sinv s) as Hs by (apply srun_inv; done).
  split; [apply srun_list; done|].
  exact (conj (λ x, proj2 (proj2 (sparents_of_step s x Hs))) (λ x, proj2 (proj2 (schildren_step s x Hs)))).
Qed.
Print Assumptions C34_cache_never_stale.
(** Read out as covers: whenever the concepts can be hashed. *)
Theorem C34_parents_children cs l : let s := srun (mk_system cs) l in
  (∀ x, x ∈ sconcepts s → chash x = true) →
  ∀ x, x ∈ sconcepts s →
    (∃ ps, (sparents_of s x).2 = Ok ps ∧ ∀ y, y ∈ ps ↔ covers (sconcepts s) y x) ∧
    (∃ ks, (schildren s x).2 = Ok ks ∧ ∀ y, y ∈ ks ↔ y ∈ sconcepts s ∧ covers (sconcepts s) x y).
Proof.
  intros s Hh x Hx. destruct (C34_cache_never_stale cs l) as (_ & Hp & Hk). fold s in Hp, Hk.
  destruct (covering_ok _ Hh) as (d & Hd & Hd1 & Hd2).
  assert (∀ y, y ∈ sconcepts s → ∃ ps, cover_of (sconcepts s) y = Ok ps ∧ ∀ z, z ∈ ps ↔ covers (sconcepts s) z y) as H.
  { intros y Hy. pose proof (proj2 (Hd1 y) Hy) as [ps Hps]. exists ps. split; [|exact (Hd2 y ps Hps)].
    unfold cover_of. rewrite Hd. exact (cget_ok d y ps (Hh y Hy) Hps). }
  rewrite Hp, Hk. split; [exact (H x Hx)|].
  apply (children_of_ok (cover_of (sconcepts s)) x (sconcepts s) (λ y, covers (sconcepts s) x y) (Hh x Hx)).
  intros y Hy. destruct (H y Hy) as (ps & H1 & H2). exact (ex_intro _ ps (conj H1 (H2 x))).
Qed.
Print Assumptions C34_parents_children.
(** [remove] takes out the first equal concept, and raises ValueError leaving
    everything as it was when there is none. *)
Theorem C34_remove s x :
  (x ∉ sconcepts s → sremove s x = (s, Err ValueError)) ∧
  (x ∈ sconcepts s → ∃ l1 l2, sconcepts s = l1 ++ x :: l2 ∧ x ∉ l1 ∧
     sremove s x = (CSystem (l1 ++ l2) None, Ok tt)).
Proof.
  destruct (list_remove_spec x (sconcepts s)) as [H1 H2]. split; intros H; unfold sremove.
  - rewrite (H1 H). reflexivity.
  - destruct (H2 H) as (l1 & l2 & E1 & E2 & E3). exists l1, l2. rewrite E3. done.
Qed.
Print Assumptions C34_remove.
(** A history in which the middle concept is removed between two queries. *)
Example C34_case :
  let s := srun (mk_system [(∅, {[sa; sb]}); ({[o1; o2]}, ∅)])
             [SParents (∅, {[sa; sb]}); SAppend ({[o1]}, {[sa]}); SChildren ({[o1; o2]}, ∅)] in
  (sparents_of s (∅, {[sa; sb]})).2 = Ok {[({[o1]}, {[sa]})]} ∧
  (sparents_of (sstep s (SRemove ({[o1]}, {[sa]}))) (∅, {[sa; sb]})).2 = Ok {[({[o1; o2]}, ∅)]} ∧
  (schildren s ({[o1; o2]}, ∅)).2 = Ok {[({[o1]}, {[sa]})]}.
Proof. cbv zeta. repeat split; dec. Qed.

(** ** C35 *)
Theorem C35_provisional_extents c : good c →
  ∃ cs tr, norris_run c = Ok (cs, tr) ∧ norris c = Ok cs ∧
    map snd tr = map snd cs ∧ head tr = Some (∅, fM (abs c)) ∧
    ∀ k A B, tr !! k = Some (A, B) →
      (∃ A', cs !! k = Some (A', B) ∧ is_concept (abs c) A' B ∧ A ⊆ A') ∧
      ∃ i, i ≤ length (objs c) ∧
        (∀ g, g ∈ A ↔ g ∈ take i (objs c) ∧ ∀ m, m ∈ B → (g, m) ∈ fI (abs c)) ∧
        (i = 0 ∨ ∃ g, objs c !! pred i = Some g ∧ g ∈ A).
Proof.
  intros Hg. destruct (norris_run_spec c Hg) as (cs & tr & Hr & _). exists cs, tr. split; [exact Hr|].
  split; [unfold norris; by rewrite Hr|]. exact (norris_trace_spec c Hg cs tr Hr).
Qed.
Print Assumptions C35_provisional_extents.
(** A yielded pair need not be a concept. *)
Theorem C35_yields_concepts_refuted : ∃ c cs tr A B, good c ∧ norris_run c = Ok (cs, tr) ∧ (A, B) ∈ tr ∧ ¬ is_concept (abs c) A B.
Proof.
  set (p := get_ok ([], []) (norris_run ex)).
  exists ex, p.1, p.2, {[o1; o2]}, {[sa]}. split; [exact ex_good|]. split; [|split].
  - rewrite <-(surjective_pairing p). by apply get_ok_eq; vm_compute.
  - dec.
  - intros (_ & _ & _ & H). revert H. dec.
Qed.
Print Assumptions C35_yields_concepts_refuted.
