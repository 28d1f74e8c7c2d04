(** * Concepts, implications, transposition and reduction together: the final statements (C100-C104) *)
From Coq Require Import QArith Qcanon.
From Verif Require Import Py Spec PyFacts SpecFacts ContextModel ContextSpec ContextOps ContextFacts ContextInit
  ContextMisc ContextFinal ClosureModel ClosureFacts DgSpec DgModel DgFinal LatticeSpec LatticeModel NorrisFacts LatticeFacts
  FilterModel FilterFacts FilterFacts2 CrossFacts Properties_Context Properties_Closure Properties_Dg Properties_Lattice Properties_Filter.
Local Open Scope nat_scope.

(** ** C100: the intents are the sets that respect the basis *)
Theorem C100_intents_respect_basis c ords : good c → comparable (atts c) = true →
  (∀ s L k X, ords s L k X ≡ₚ elements X) →
  ∃ cs R, norris c = Ok cs ∧ compute_dg_basis c ords (Some []) always = Ok R ∧
    NoDup (map snd cs) ∧
    ∀ B, B ∈ map snd cs ↔ B ⊆ fM (abs c) ∧ ∀ i, i ∈ R → i.1 ⊆ B → i.2 ⊆ B.
Proof.
  intros Hg Hc Ho. destruct (C31_norris c Hg) as (cs & Hcs & _).
  destruct (C23_dg_basis c ords Hg Hc Ho) as (R & HR & _). exists cs, R. split; [done|]. split; [done|].
  exact (intents_final c ords cs R Hg Hc Ho Hcs HR).
Qed.
Print Assumptions C100_intents_respect_basis.

(** {a, c, d} respects no sound set of implications of the example: {d} -> {b, c, d}. *)
Example C100_case : (∃ A, (A, {[sa; sc]}) ∈ get_ok [] (norris dgx)) ∧ ¬ ∃ A, (A, {[sa; sc; sd]}) ∈ get_ok [] (norris dgx).
Proof.
  split.
  - exists {[o2]}. dec.
  - intros [A HA]. assert ({[sa; sc; sd]} ∈ map snd (get_ok [] (norris dgx))) as H.
    { apply elem_of_list_fmap. by exists (A, {[sa; sc; sd]}). }
    revert H. dec.
Qed.

(** ** C101: the closure under the basis is the closure in the context *)
Theorem C101_closure_by_basis c ords ord B : good c → comparable (atts c) = true →
  (∀ s L k X, ords s L k X ≡ₚ elements X) → (∀ k X, ord k X ≡ₚ elements X) →
  (∀ m, m ∈ B → m ∈ atts c) →
  ∃ R X, compute_dg_basis c ords (Some []) always = Ok R ∧ aclosure c B = Ok X ∧
    simple_closure (list_to_set B) R = Ok X ∧ lin_closure ord (list_to_set B) R = Ok X.
Proof.
  intros Hg Hc Ho Hord HB. destruct (C23_dg_basis c ords Hg Hc Ho) as (R & HR & _). exists R.
  destruct (closure_final c ords ord R B Hg Hc Ho Hord HR HB) as (X & H). exists X. done.
Qed.
Print Assumptions C101_closure_by_basis.

Example C101_case : aclosure dgx [sd] = Ok {[sb; sc; sd]} ∧ simple_closure {[sd]} dgx_basis = Ok {[sb; sc; sd]} ∧
  lin_closure (λ _, elements) {[sd]} dgx_basis = Ok {[sb; sc; sd]}.
Proof. split; [|split]; dec. Qed.

(** ** C102: the lattice of the transposed context is the lattice upside down *)
Definition swap (x : gset name * gset name) : gset name * gset name := (x.2, x.1).

Theorem C102_transposed_lattice c : good c → comparable (objs c) = true → comparable (atts c) = true →
  ∃ t l l', transpose c = Ok t ∧ mk_lattice c = Ok l ∧ mk_lattice t = Ok l' ∧
    lconcepts l' ≡ₚ map swap (lconcepts l) ∧
    ltop l' = swap (lbottom l) ∧ lbottom l' = swap (ltop l) ∧
    ∀ x, x ∈ lconcepts l →
      (∃ ps ks, lat_parents l' (swap x) = Ok ps ∧ lat_children l x = Ok ks ∧ ∀ y, swap y ∈ ps ↔ y ∈ ks) ∧
      (∃ ps ks, lat_parents l x = Ok ps ∧ lat_children l' (swap x) = Ok ks ∧ ∀ y, swap y ∈ ks ↔ y ∈ ps).
Proof.
  intros Hg Ho Ha.
  destruct (C09_transpose c (good_wf _ Hg) (good_distinct _ Hg)) as (t & Ht & Gt & Ot & At & _).
  pose proof (transpose_abs c t (good_wf _ Hg) (good_distinct _ Hg) Ht) as Habs.
  destruct (C33_lattice c Hg Ho Ha) as (l & Hl & _ & Hn & Hcs & Htop & Hbot & Hpk & _).
  destruct (C33_lattice t Gt) as (l' & Hl' & _ & Hn' & Hcs' & Htop' & Hbot' & Hpk' & _); [by rewrite Ot|by rewrite At|].
  exists t, l, l'. split; [done|]. split; [done|]. split; [done|].
  assert (∀ A B, (B, A) ∈ lconcepts l' ↔ (A, B) ∈ lconcepts l) as Hsw.
  { intros A B. rewrite Hcs, Hcs', Habs. apply is_concept_ftrans. }
  split; [|split; [|split]].
  - apply NoDup_Permutation; [done| |].
    + apply NoDup_fmap_2_strong; [|done]. intros [A B] [A' B'] _ _ [= -> ->]. done.
    + intros [B A]. rewrite Hsw. rewrite elem_of_list_fmap. split.
      * intros H. exists (A, B). done.
      * intros ([A' B'] & [= -> ->] & H). done.
  - rewrite Htop', Hbot, Habs. unfold swap. simpl. by rewrite up_ftrans.
  - rewrite Hbot', Htop, Habs. unfold swap. simpl. by rewrite down_ftrans.
  - intros [A B] Hx. apply Hcs in Hx. assert (is_concept (abs t) B A) as Hx' by (rewrite Habs; by apply is_concept_ftrans).
    destruct (Hpk (A, B) Hx) as ((ps & E1 & P1) & (ks & E2 & P2) & _).
    destruct (Hpk' (B, A) Hx') as ((ps' & E3 & P3) & (ks' & E4 & P4) & _).
    split.
    + exists ps', ks. split; [done|]. split; [done|]. intros [A' B']. rewrite P3, P2, Habs. unfold swap. simpl. split.
      * intros H. pose proof H as [H1 _]. simpl in H1. rewrite is_concept_ftrans in H1. split; [done|].
        by apply (upper_cover_ftrans (abs c) (A, B) (A', B') Hx H1).
      * intros [H1 H]. by apply (upper_cover_ftrans (abs c) (A, B) (A', B') Hx H1).
    + exists ps, ks'. split; [done|]. split; [done|]. intros [A' B']. rewrite P1, P4, Habs. unfold swap. simpl.
      rewrite is_concept_ftrans. split.
      * intros [H1 H]. by apply (upper_cover_ftrans (abs c) (A', B') (A, B) H1 Hx).
      * intros H. pose proof H as [H1 _]. simpl in H1. split; [done|].
        by apply (upper_cover_ftrans (abs c) (A', B') (A, B) H1 Hx).
Qed.
Print Assumptions C102_transposed_lattice.

Example C102_case : norris (get_ok empty_cxt (transpose ex)) =
  Ok [(∅, {[o1; o2; o3; o4]}); ({[sa]}, {[o1; o2; o3]}); ({[sa; sb]}, {[o1]}); ({[sa; sc]}, {[o2]}); ({[sa; sb; sc]}, ∅)].
Proof. dec. Qed.

(** ** C103: the indices under transposition *)
Theorem C103_transposed_indices c t l l' pop pop' :
  good c → comparable (objs c) = true → comparable (atts c) = true →
  transpose c = Ok t → mk_lattice c = Ok l → mk_lattice t = Ok l' →
  (∀ k W, W ≠ ∅ → pop k W ∈ W) → (∀ k W, W ≠ ∅ → pop' k W ∈ W) →
  (∃ st st', compute_istability pop (lconcepts l) = Ok st ∧ compute_estability pop' (lconcepts l') = Ok st' ∧
     ∀ x, x ∈ lconcepts l → is_Some (dget x st) ∧ dget (swap x) st' = dget x st) ∧
  (∃ st st', compute_estability pop (lconcepts l) = Ok st ∧ compute_istability pop' (lconcepts l') = Ok st' ∧
     ∀ x, x ∈ lconcepts l → is_Some (dget x st) ∧ dget (swap x) st' = dget x st) ∧
  (objs c ≠ [] → ∃ d d', compute_extent_size l = Ok d ∧ compute_intent_size l' = Ok d' ∧
     ∀ x, x ∈ lconcepts l → is_Some (dget x d) ∧ dget (swap x) d' = dget x d) ∧
  (atts c ≠ [] → ∃ d d', compute_intent_size l = Ok d ∧ compute_extent_size l' = Ok d' ∧
     ∀ x, x ∈ lconcepts l → is_Some (dget x d) ∧ dget (swap x) d' = dget x d) ∧
  (objs c ≠ [] → atts c ≠ [] → ∃ d d', compute_separation_index l = Ok d ∧ compute_separation_index l' = Ok d' ∧
     ∀ x, x ∈ lconcepts l → is_Some (dget x d) ∧ dget (swap x) d' = dget x d).
Proof.
  intros Hg Ho Ha Ht Hl Hl' Hp Hp'.
  destruct (C09_transpose c (good_wf _ Hg) (good_distinct _ Hg)) as (t0 & E0 & Gt & Ot & At & _).
  rewrite Ht in E0. injection E0 as <-.
  pose proof (transpose_abs c t (good_wf _ Hg) (good_distinct _ Hg) Ht) as Habs.
  destruct (lattice_spec c Hg Ho Ha l Hl) as (_ & _ & Hcs & _).
  assert (comparable (objs t) = true) as Ho' by by rewrite Ot. assert (comparable (atts t) = true) as Ha' by by rewrite At.
  assert (∀ A B, (A, B) ∈ lconcepts l → is_concept (abs c) A B ∧ is_concept (abs t) B A) as Hx.
  { intros A B H%Hcs. split; [done|]. rewrite Habs. by apply is_concept_ftrans. }
  split; [|split; [|split; [|split]]].
  - destruct (C36_istability c l pop Hg Ho Ha Hl Hp) as (st & E1 & _ & P1).
    destruct (C37_estability t l' pop' Gt Ho' Ha' Hl' Hp') as (st' & E2 & _ & P2).
    exists st, st'. split; [done|]. split; [done|]. intros [A B] H. destruct (Hx A B H) as [H1 H2].
    destruct (P1 A B H1) as (n & C1 & ->). destruct (P2 B A H2) as (n' & C2 & D2). unfold swap. cbn [fst snd]. rewrite D2.
    split; [by eexists|]. rewrite (is_card_unique _ n n' C1); [done|].
    destruct C2 as (k & N & Q & Len). exists k. split; [done|]. split; [|done]. intros S. rewrite (Q S), Habs, down_ftrans. done.
  - destruct (C37_estability c l pop Hg Ho Ha Hl Hp) as (st & E1 & _ & P1).
    destruct (C36_istability t l' pop' Gt Ho' Ha' Hl' Hp') as (st' & E2 & _ & P2).
    exists st, st'. split; [done|]. split; [done|]. intros [A B] H. destruct (Hx A B H) as [H1 H2].
    destruct (P1 A B H1) as (n & C1 & ->). destruct (P2 B A H2) as (n' & C2 & D2). unfold swap. cbn [fst snd]. rewrite D2.
    split; [by eexists|]. rewrite (is_card_unique _ n n' C1); [done|].
    destruct C2 as (k & N & Q & Len). exists k. split; [done|]. split; [|done]. intros S. rewrite (Q S), Habs, up_ftrans. done.
  - intros Hne. destruct (C39_sizes c l Hg Ho Ha Hl) as [F1 _]. destruct (F1 Hne) as (d & E1 & _ & P1).
    destruct (C39_sizes t l' Gt Ho' Ha' Hl') as (_ & F2 & _). rewrite At in F2. destruct (F2 Hne) as (d' & E2 & _ & P2).
    exists d, d'. split; [done|]. split; [done|]. intros [A B] H. destruct (Hx A B H) as [H1 H2].
    unfold swap. cbn [fst snd]. rewrite (P1 A B H1), (P2 B A H2). split; [by eexists|done].
  - intros Hne. destruct (C39_sizes c l Hg Ho Ha Hl) as (_ & F1 & _). destruct (F1 Hne) as (d & E1 & _ & P1).
    destruct (C39_sizes t l' Gt Ho' Ha' Hl') as (F2 & _). rewrite Ot in F2. destruct (F2 Hne) as (d' & E2 & _ & P2).
    exists d, d'. split; [done|]. split; [done|]. intros [A B] H. destruct (Hx A B H) as [H1 H2].
    unfold swap. cbn [fst snd]. rewrite (P1 A B H1), (P2 B A H2). split; [by eexists|done].
  - intros Hne Hne'. destruct (C38_separation c l Hg Ho Ha Hl Hne) as (d & E1 & _ & P1).
    destruct (C38_separation t l' Gt Ho' Ha' Hl') as (d' & E2 & _ & P2); [by rewrite Ot|].
    exists d, d'. split; [done|]. split; [done|]. intros [A B] H. destruct (Hx A B H) as [H1 H2].
    unfold swap. cbn [fst snd]. rewrite (P1 A B H1), (P2 B A H2). split; [by eexists|].
    rewrite Habs. f_equal.
    assert (size (filter (λ p, p.1 ∈ B ∨ p.2 ∈ A) (fI (ftrans (abs c)))) = size (filter (λ p, p.1 ∈ A ∨ p.2 ∈ B) (fI (abs c)))) as ->.
    { apply crosses_ftrans. }
    rewrite (Nat.mul_comm (size B)). destruct (decide (A = ∅ ∨ B = ∅)), (decide (B = ∅ ∨ A = ∅)); try done; exfalso; tauto.
Qed.
Print Assumptions C103_transposed_indices.

(** The stability 5/8 of C36, read from the transposed context. *)
Example C103_case : (l ← mk_lattice (get_ok empty_cxt (transpose ex)); st ← compute_estability pop_first (lconcepts l);
    get_or KeyError (dget ({[sa]}, {[o1; o2; o3]}) st)) = Ok (Q2Qc (5 # 8)) ∧
  (l ← mk_lattice (get_ok empty_cxt (transpose ex)); d ← compute_separation_index l;
    get_or KeyError (dget ({[sa]}, {[o1; o2; o3]}) d)) = (d ← compute_separation_index ex_lat; get_or KeyError (dget ({[o1; o2; o3]}, {[sa]}) d)) ∧
  (l ← mk_lattice (get_ok empty_cxt (transpose ex)); d ← compute_separation_index l;
    get_or KeyError (dget ({[sa]}, {[o1; o2; o3]}) d)) = Ok (Q2Qc (3 # 5)).
Proof. split; [|split]; dec. Qed.

(** ** C104: clarifying and reducing keep the lattice and the implications *)
Theorem C104_clarified c : good c →
  ∃ c', clarify_objects c = Ok c' ∧ good c' ∧
    (∀ cs cs', norris c = Ok cs → norris c' = Ok cs' →
       map snd cs' ≡ₚ map snd cs ∧ ∀ A B, (A, B) ∈ cs → (filter (λ g, g ∈ objs c') A, B) ∈ cs') ∧
    (∀ ords, comparable (atts c) = true → (∀ s L k X, ords s L k X ≡ₚ elements X) →
       compute_dg_basis c' ords (Some []) always = compute_dg_basis c ords (Some []) always).
Proof.
  intros Hg. destruct (C13_clarify c Hg) as (c' & E & Hg' & Ha & Hs & Hi & _ & _ & Hcl).
  exists c'. split; [done|]. split; [done|]. exact (fewer_objects c c' Hg Hg' Ha Hi Hs Hcl).
Qed.
Print Assumptions C104_clarified.

Theorem C104_reduced_objects c : good c → length (atts c) ≤ 63 →
  ∃ c', reduce_objects c = Ok c' ∧ good c' ∧
    (∀ cs cs', norris c = Ok cs → norris c' = Ok cs' →
       map snd cs' ≡ₚ map snd cs ∧ ∀ A B, (A, B) ∈ cs → (filter (λ g, g ∈ objs c') A, B) ∈ cs') ∧
    (∀ ords, comparable (atts c) = true → (∀ s L k X, ords s L k X ≡ₚ elements X) →
       compute_dg_basis c' ords (Some []) always = compute_dg_basis c ords (Some []) always).
Proof.
  intros Hg H63. destruct (C14_reduce_objects c Hg H63) as (c' & E & Hg' & Ha & Hs & Hi & Hcl & _).
  exists c'. split; [done|]. split; [done|]. apply (fewer_objects c c' Hg Hg' Ha Hi); [|exact Hcl].
  intros g Hgo. eapply elem_of_submseteq; [exact Hgo|by apply sublist_submseteq].
Qed.
Print Assumptions C104_reduced_objects.

Theorem C104_reduced_attributes c : good c → length (objs c) ≤ 63 →
  ∃ c', reduce_attributes c = Ok c' ∧ good c' ∧
    (∀ cs cs', norris c = Ok cs → norris c' = Ok cs' →
       map fst cs' ≡ₚ map fst cs ∧ ∀ A B, (A, B) ∈ cs → (A, filter (λ m, m ∈ atts c') B) ∈ cs') ∧
    (∀ ords t t', comparable (objs c) = true → (∀ s L k X, ords s L k X ≡ₚ elements X) →
       transpose c = Ok t → transpose c' = Ok t' →
       compute_dg_basis t' ords (Some []) always = compute_dg_basis t ords (Some []) always).
Proof.
  intros Hg H63. destruct (C16_reduce_attributes c Hg H63) as (c' & E & Hg' & Ho & Hs & Hi & Hcl & _).
  exists c'. split; [done|]. split; [done|]. apply (fewer_attributes c c' Hg Hg' Ho Hi); [|exact Hcl].
  intros g Hgo. eapply elem_of_submseteq; [exact Hgo|by apply sublist_submseteq].
Qed.
Print Assumptions C104_reduced_attributes.

(** Object 3 of the example is reducible; {1,2,3} becomes {1,2}. *)
Example C104_case : ∃ c', reduce_objects ex = Ok c' ∧ objs c' = [o1; o2; o4] ∧
  (({[o1; o2; o3]}, {[sa]}) : fconcept) ∈ get_ok [] (norris ex) ∧ (({[o1; o2]}, {[sa]}) : fconcept) ∈ get_ok [] (norris c') ∧
  length (get_ok [] (norris ex)) = 5 ∧ length (get_ok [] (norris c')) = 5 ∧
  compute_dg_basis ex elts (Some []) always = compute_dg_basis c' elts (Some []) always ∧
  compute_dg_basis ex elts (Some []) always = Ok [({[sc]}, {[sa; sc]}); ({[sb]}, {[sa; sb]})].
Proof.
  exists (get_ok empty_cxt (reduce_objects ex)). split; [by apply get_ok_eq; vm_compute|].
  split; [vm_compute; reflexivity|]. split; [dec|]. split; [dec|]. split; [dec|]. split; [dec|]. split; dec.
Qed.
Example C104_attributes : ∃ c', reduce_attributes ex16 = Ok c' ∧ atts c' = [sb; sc] ∧
  map fst (get_ok [] (norris ex16)) = map fst (get_ok [] (norris c')).
Proof.
  exists (get_ok empty_cxt (reduce_attributes ex16)). split; [by apply get_ok_eq; vm_compute|].
  split; [vm_compute; reflexivity|dec].
Qed.
