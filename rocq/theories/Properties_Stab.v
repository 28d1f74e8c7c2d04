(** * Stability under changes of the context: the final statements (C129) *)
From Coq Require Import QArith Qcanon.
From Verif Require Import Py Spec PyFacts SpecFacts ContextModel ContextSpec ContextOps ContextFacts ContextInit
  ContextMisc ContextReduce ContextFinal LatticeSpec LatticeModel
  NorrisFacts LatticeFacts FilterModel FilterFacts FilterFacts2 CrossFacts StabFacts
  Properties_Context Properties_Lattice Properties_Filter.
Local Open Scope nat_scope.

(** One context restricted to some of its objects, or of its attributes. *)
Lemma istab_sub c c' l l' pop pop' : good c → good c' → comparable (objs c') = true → comparable (atts c) = true →
  atts c' = atts c → (∀ g, g ∈ objs c → g ∈ objs c') → (∀ g m, g ∈ objs c → incident c' g m ↔ incident c g m) →
  mk_lattice c = Ok l → mk_lattice c' = Ok l' → (∀ k W, W ≠ ∅ → pop k W ∈ W) → (∀ k W, W ≠ ∅ → pop' k W ∈ W) →
  ∃ st st', compute_istability pop (lconcepts l) = Ok st ∧ compute_istability pop' (lconcepts l') = Ok st' ∧
    (∀ A B, (A, B) ∈ lconcepts l → ∃ A', A' = down (abs c') B ∧ A = A' ∩ fG (abs c) ∧ (A', B) ∈ lconcepts l' ∧
       ∃ v v', dget (A, B) st = Some v ∧ dget (A', B) st' = Some v' ∧ (v <= v')%Qc) ∧
    (∀ A B, (A, B) ∈ lconcepts l' → A ⊆ fG (abs c) → (A, B) ∈ lconcepts l ∧ ∃ v, dget (A, B) st = Some v ∧ dget (A, B) st' = Some v).
Proof.
  intros Hg Hg' Ho' Ha Ea Hsub Hinc Hl Hl' Hp Hp'.
  assert (comparable (objs c) = true) as Ho.
  { unfold comparable in *. rewrite orb_true_iff, !forallb_forall in *. setoid_rewrite <-elem_of_list_In. setoid_rewrite <-elem_of_list_In in Ho'. naive_solver. }
  assert (comparable (atts c') = true) as Ha' by (by rewrite Ea).
  destruct (C36_istability c l pop Hg Ho Ha Hl Hp) as (st & E & _ & P).
  destruct (C36_istability c' l' pop' Hg' Ho' Ha' Hl' Hp') as (st' & E' & _ & P').
  destruct (lattice_spec c Hg Ho Ha l Hl) as (_ & _ & Hcs & _). destruct (lattice_spec c' Hg' Ho' Ha' l' Hl') as (_ & _ & Hcs' & _).
  assert (fG (abs c) ⊆ fG (abs c')) as HG by (intros g; rewrite !elem_of_fG; apply Hsub).
  assert (fM (abs c') = fM (abs c)) as HM by (simpl; by rewrite Ea).
  assert (∀ g m, g ∈ fG (abs c) → (g, m) ∈ fI (abs c') ↔ (g, m) ∈ fI (abs c)) as HI.
  { intros g m. rewrite elem_of_fG, !elem_of_fI. apply Hinc. }
  exists st, st'. split; [done|]. split; [done|]. split.
  - intros A B HC%Hcs. cbn in HC. exists (down (abs c') B). split; [done|].
    split. { destruct HC as (_ & _ & _ & <-). apply set_eq. intros g. rewrite elem_of_intersection. by apply sub_down. }
    pose proof (sub_concept _ _ HG HM HI A B HC) as HC'. split; [by apply Hcs'|].
    destruct (P A B HC) as (n & N1 & ->). destruct (P' _ B HC') as (n' & N2 & ->).
    eexists _, _. split; [done|]. split; [done|].
    destruct (sub_grow _ _ HG HM HI A B n n' HC N1 N2) as [HA Hn]. apply stab_le; [by apply subseteq_size|].
    by rewrite <-size_difference.
  - intros A B HC'%Hcs' HA. cbn in HC'. pose proof (sub_back _ _ HG HM HI A B HC' HA) as HC. split; [by apply Hcs|].
    destruct (P A B HC) as (n & N1 & ->). destruct (P' A B HC') as (n' & N2 & ->).
    eexists. split; [done|]. by rewrite (sub_same _ _ HM HI A B n n' HA N1 N2).
Qed.
Lemma estab_sub c c' l l' pop pop' : good c → good c' → comparable (objs c) = true → comparable (atts c') = true →
  objs c' = objs c → (∀ m, m ∈ atts c → m ∈ atts c') → (∀ g m, m ∈ atts c → incident c' g m ↔ incident c g m) →
  mk_lattice c = Ok l → mk_lattice c' = Ok l' → (∀ k W, W ≠ ∅ → pop k W ∈ W) → (∀ k W, W ≠ ∅ → pop' k W ∈ W) →
  ∃ st st', compute_estability pop (lconcepts l) = Ok st ∧ compute_estability pop' (lconcepts l') = Ok st' ∧
    (∀ A B, (A, B) ∈ lconcepts l → ∃ B', B' = up (abs c') A ∧ B = B' ∩ fM (abs c) ∧ (A, B') ∈ lconcepts l' ∧
       ∃ v v', dget (A, B) st = Some v ∧ dget (A, B') st' = Some v' ∧ (v <= v')%Qc) ∧
    (∀ A B, (A, B) ∈ lconcepts l' → B ⊆ fM (abs c) → (A, B) ∈ lconcepts l ∧ ∃ v, dget (A, B) st = Some v ∧ dget (A, B) st' = Some v).
Proof.
  intros Hg Hg' Ho Ha' Eo Hsub Hinc Hl Hl' Hp Hp'.
  assert (comparable (atts c) = true) as Ha.
  { unfold comparable in *. rewrite orb_true_iff, !forallb_forall in *. setoid_rewrite <-elem_of_list_In. setoid_rewrite <-elem_of_list_In in Ha'. naive_solver. }
  assert (comparable (objs c') = true) as Ho' by (by rewrite Eo).
  destruct (C37_estability c l pop Hg Ho Ha Hl Hp) as (st & E & _ & P).
  destruct (C37_estability c' l' pop' Hg' Ho' Ha' Hl' Hp') as (st' & E' & _ & P').
  destruct (lattice_spec c Hg Ho Ha l Hl) as (_ & _ & Hcs & _). destruct (lattice_spec c' Hg' Ho' Ha' l' Hl') as (_ & _ & Hcs' & _).
  set (K := ftrans (abs c)). set (K' := ftrans (abs c')).
  assert (fG K ⊆ fG K') as HG by (intros m; change (m ∈ fM (abs c) → m ∈ fM (abs c')); rewrite !elem_of_fM; apply Hsub).
  assert (fM K' = fM K) as HM by (simpl; by rewrite Eo).
  assert (∀ m g, m ∈ fG K → (m, g) ∈ fI K' ↔ (m, g) ∈ fI K) as HI.
  { intros m g Hm. unfold K, K'. rewrite !ftrans_fI, !elem_of_fI. apply Hinc. by apply elem_of_fM. }
  assert (∀ A B n, is_card (λ T, T ⊆ B ∧ down (abs c) T = A) n → is_card (λ T, T ⊆ B ∧ up K T = A) n) as T1.
  { intros A B n (k & k1 & k2 & k3). exists k. split; [done|]. split; [|done]. intros S. unfold K. by rewrite k2, up_ftrans. }
  assert (∀ A B n, is_card (λ T, T ⊆ B ∧ down (abs c') T = A) n → is_card (λ T, T ⊆ B ∧ up K' T = A) n) as T2.
  { intros A B n (k & k1 & k2 & k3). exists k. split; [done|]. split; [|done]. intros S. unfold K'. by rewrite k2, up_ftrans. }
  exists st, st'. split; [done|]. split; [done|]. split.
  - intros A B HC%Hcs. cbn in HC. exists (up (abs c') A). split; [done|].
    pose proof (proj2 (is_concept_ftrans _ _ _) HC) as HCt. fold K in HCt.
    split. { destruct HC as (_ & _ & <- & _). apply set_eq. intros m. rewrite elem_of_intersection, <-(down_ftrans (abs c)), <-(down_ftrans (abs c')). by apply sub_down. }
    pose proof (sub_concept _ _ HG HM HI B A HCt) as HCt'. rewrite <-(down_ftrans (abs c')). fold K'.
    pose proof (proj1 (is_concept_ftrans _ _ _) HCt') as HC'. split; [by apply Hcs'|].
    destruct (P A B HC) as (n & N1%T1 & ->). destruct (P' A _ HC') as (n' & N2%T2 & ->).
    eexists _, _. split; [done|]. split; [done|].
    destruct (sub_grow _ _ HG HM HI B A n n' HCt N1 N2) as [HA Hn]. apply stab_le; [by apply subseteq_size|].
    by rewrite <-size_difference.
  - intros A B HC'%Hcs' HB. cbn in HC'. pose proof (proj2 (is_concept_ftrans _ _ _) HC') as HCt'. fold K' in HCt'.
    pose proof (proj1 (is_concept_ftrans _ _ _) (sub_back _ _ HG HM HI B A HCt' HB)) as HC. split; [by apply Hcs|].
    destruct (P A B HC) as (n & N1%T1 & ->). destruct (P' A B HC') as (n' & N2%T2 & ->).
    eexists. split; [done|]. by rewrite (sub_same _ _ HM HI B A n n' HB N1 N2).
Qed.

(** The other stability: over a restriction to some objects the extensional
    stability is not lower, and the same if the objects left out have the intent. *)
Lemma estab_objects c c' l l' pop pop' : good c → good c' → comparable (objs c') = true → comparable (atts c) = true →
  atts c' = atts c → (∀ g, g ∈ objs c → g ∈ objs c') → (∀ g m, g ∈ objs c → incident c' g m ↔ incident c g m) →
  mk_lattice c = Ok l → mk_lattice c' = Ok l' → (∀ k W, W ≠ ∅ → pop k W ∈ W) → (∀ k W, W ≠ ∅ → pop' k W ∈ W) →
  ∃ st st', compute_estability pop (lconcepts l) = Ok st ∧ compute_estability pop' (lconcepts l') = Ok st' ∧
    ∀ A B, (A, B) ∈ lconcepts l → ∃ A', A' = down (abs c') B ∧ A = A' ∩ fG (abs c) ∧ (A', B) ∈ lconcepts l' ∧
       ∃ v v', dget (A, B) st = Some v ∧ dget (A', B) st' = Some v' ∧ (v' <= v)%Qc ∧
         ((∀ g, g ∈ objs c' → g ∉ objs c → g ∈ A') → v' = v).
Proof.
  intros Hg Hg' Ho' Ha Ea Hsub Hinc Hl Hl' Hp Hp'.
  assert (comparable (objs c) = true) as Ho.
  { unfold comparable in *. rewrite orb_true_iff, !forallb_forall in *. setoid_rewrite <-elem_of_list_In. setoid_rewrite <-elem_of_list_In in Ho'. naive_solver. }
  assert (comparable (atts c') = true) as Ha' by (by rewrite Ea).
  destruct (C37_estability c l pop Hg Ho Ha Hl Hp) as (st & E & _ & P).
  destruct (C37_estability c' l' pop' Hg' Ho' Ha' Hl' Hp') as (st' & E' & _ & P').
  destruct (lattice_spec c Hg Ho Ha l Hl) as (_ & _ & Hcs & _). destruct (lattice_spec c' Hg' Ho' Ha' l' Hl') as (_ & _ & Hcs' & _).
  assert (fG (abs c) ⊆ fG (abs c')) as HG by (intros g; rewrite !elem_of_fG; apply Hsub).
  assert (fM (abs c') = fM (abs c)) as HM by (simpl; by rewrite Ea).
  assert (∀ g m, g ∈ fG (abs c) → (g, m) ∈ fI (abs c') ↔ (g, m) ∈ fI (abs c)) as HI.
  { intros g m. rewrite elem_of_fG, !elem_of_fI. apply Hinc. }
  exists st, st'. split; [done|]. split; [done|].
  intros A B HC%Hcs. exists (down (abs c') B). split; [done|].
  split. { destruct HC as (_ & _ & _ & <-). apply set_eq. intros g. rewrite elem_of_intersection. by apply sub_down. }
  pose proof (sub_concept _ _ HG HM HI A B HC) as HC'. split; [by apply Hcs'|].
  destruct (P A B HC) as (n & N1 & ->). destruct (P' _ B HC') as (n' & N2 & ->).
  destruct (sub_dual_le _ _ HG HI A B n n' HC N1 N2) as [Hn Hn'].
  eexists _, _. split; [done|]. split; [done|]. split; [by apply stab_same_le|].
  intros Hall. rewrite Hn'; [done|]. intros g. rewrite !elem_of_fG. apply Hall.
Qed.
Lemma istab_attributes c c' l l' pop pop' : good c → good c' → comparable (objs c) = true → comparable (atts c') = true →
  objs c' = objs c → (∀ m, m ∈ atts c → m ∈ atts c') → (∀ g m, m ∈ atts c → incident c' g m ↔ incident c g m) →
  mk_lattice c = Ok l → mk_lattice c' = Ok l' → (∀ k W, W ≠ ∅ → pop k W ∈ W) → (∀ k W, W ≠ ∅ → pop' k W ∈ W) →
  ∃ st st', compute_istability pop (lconcepts l) = Ok st ∧ compute_istability pop' (lconcepts l') = Ok st' ∧
    ∀ A B, (A, B) ∈ lconcepts l → ∃ B', B' = up (abs c') A ∧ B = B' ∩ fM (abs c) ∧ (A, B') ∈ lconcepts l' ∧
       ∃ v v', dget (A, B) st = Some v ∧ dget (A, B') st' = Some v' ∧ (v' <= v)%Qc ∧
         ((∀ m, m ∈ atts c' → m ∉ atts c → m ∈ B') → v' = v).
Proof.
  intros Hg Hg' Ho Ha' Eo Hsub Hinc Hl Hl' Hp Hp'.
  assert (comparable (atts c) = true) as Ha.
  { unfold comparable in *. rewrite orb_true_iff, !forallb_forall in *. setoid_rewrite <-elem_of_list_In. setoid_rewrite <-elem_of_list_In in Ha'. naive_solver. }
  assert (comparable (objs c') = true) as Ho' by (by rewrite Eo).
  destruct (C36_istability c l pop Hg Ho Ha Hl Hp) as (st & E & _ & P).
  destruct (C36_istability c' l' pop' Hg' Ho' Ha' Hl' Hp') as (st' & E' & _ & P').
  destruct (lattice_spec c Hg Ho Ha l Hl) as (_ & _ & Hcs & _). destruct (lattice_spec c' Hg' Ho' Ha' l' Hl') as (_ & _ & Hcs' & _).
  set (K := ftrans (abs c)). set (K' := ftrans (abs c')).
  assert (fG K ⊆ fG K') as HG by (intros m; change (m ∈ fM (abs c) → m ∈ fM (abs c')); rewrite !elem_of_fM; apply Hsub).
  assert (fM K' = fM K) as HM by (simpl; by rewrite Eo).
  assert (∀ m g, m ∈ fG K → (m, g) ∈ fI K' ↔ (m, g) ∈ fI K) as HI.
  { intros m g Hm. unfold K, K'. rewrite !ftrans_fI, !elem_of_fI. apply Hinc. by apply elem_of_fM. }
  exists st, st'. split; [done|]. split; [done|].
  intros A B HC%Hcs. exists (up (abs c') A). split; [done|].
  pose proof (proj2 (is_concept_ftrans _ _ _) HC) as HCt. fold K in HCt.
  split. { destruct HC as (_ & _ & <- & _). apply set_eq. intros m. rewrite elem_of_intersection, <-(down_ftrans (abs c)), <-(down_ftrans (abs c')). by apply sub_down. }
  pose proof (sub_concept _ _ HG HM HI B A HCt) as HCt'. rewrite <-(down_ftrans (abs c')). fold K'.
  pose proof (proj1 (is_concept_ftrans _ _ _) HCt') as HC'. split; [by apply Hcs'|].
  destruct (P A B HC) as (n & N1 & ->). destruct (P' A _ HC') as (n' & N2 & ->).
  destruct (sub_dual_le _ _ HG HI B A n n' HCt) as [Hn Hn'].
  { destruct N1 as (k & k1 & k2 & k3). exists k. split; [done|]. split; [|done]. intros S. unfold K. by rewrite k2, down_ftrans. }
  { destruct N2 as (k & k1 & k2 & k3). exists k. split; [done|]. split; [|done]. intros S. rewrite k2. unfold K'. by rewrite !down_ftrans. }
  eexists _, _. split; [done|]. split; [done|]. split; [by apply stab_same_le|].
  intros Hall. rewrite Hn'; [done|]. intros m. change (m ∈ fM (abs c') → m ∉ fM (abs c) → m ∈ down K' A). rewrite !elem_of_fM.
  unfold K'. rewrite down_ftrans. rewrite <-(down_ftrans (abs c')). apply Hall.
Qed.

(** ** C129.  A new object: a concept whose intent it does not have keeps its
    intensional stability, and its extensional stability does not rise; otherwise
    the object joins the extent, the intensional stability does not fall, and the
    extensional stability stays the same. *)
Theorem C129_added_object c J o l pop pop' : good c → o ∉ objs c → comparable (objs c ++ [o]) = true → comparable (atts c) = true →
  mk_lattice c = Ok l → (∀ k W, W ≠ ∅ → pop k W ∈ W) → (∀ k W, W ≠ ∅ → pop' k W ∈ W) →
  ∃ c' l' st st' dt dt', add_object_with_intent c J o = (c', Ok tt) ∧ mk_lattice c' = Ok l' ∧
    compute_istability pop (lconcepts l) = Ok st ∧ compute_istability pop' (lconcepts l') = Ok st' ∧
    compute_estability pop (lconcepts l) = Ok dt ∧ compute_estability pop' (lconcepts l') = Ok dt' ∧
    ∀ A B, (A, B) ∈ lconcepts l →
      (¬ B ⊆ J → (A, B) ∈ lconcepts l' ∧ (∃ v, dget (A, B) st = Some v ∧ dget (A, B) st' = Some v) ∧
         ∃ w w', dget (A, B) dt = Some w ∧ dget (A, B) dt' = Some w' ∧ (w' <= w)%Qc) ∧
      (B ⊆ J → (A ∪ {[o]}, B) ∈ lconcepts l' ∧
         (∃ v v', dget (A, B) st = Some v ∧ dget (A ∪ {[o]}, B) st' = Some v' ∧ (v <= v')%Qc) ∧
         ∃ w, dget (A, B) dt = Some w ∧ dget (A ∪ {[o]}, B) dt' = Some w).
Proof.
  intros Hg Hn Hco Hca Hl Hp Hp'.
  destruct (C04_add_object_with_intent c J o (good_wf _ Hg) (good_distinct _ Hg) Hn) as (c' & E & Hg' & Eo & Ea & Hi).
  rewrite <-Eo in Hco. destruct (C33_lattice c' Hg' Hco ltac:(by rewrite Ea)) as (l' & Hl' & _).
  destruct (istab_sub c c' l l' pop pop' Hg Hg' Hco Hca Ea) as (st & st' & E1 & E2 & H1 & H2); try done.
  { intros g Hgo. rewrite Eo. apply elem_of_app. by left. }
  { intros g m Hgo. rewrite Hi. split; [|by left]. intros [|(-> & _)]; [done|by destruct Hn]. }
  destruct (estab_objects c c' l l' pop pop' Hg Hg' Hco Hca Ea) as (dt & dt' & E3 & E4 & H3); try done.
  { intros g Hgo. rewrite Eo. apply elem_of_app. by left. }
  { intros g m Hgo. rewrite Hi. split; [|by left]. intros [|(-> & _)]; [done|by destruct Hn]. }
  exists c', l', st, st', dt, dt'. do 6 (split; [done|]). intros A B HC.
  destruct (H1 A B HC) as (A' & EA' & EA & HC' & v & v' & Hv & Hv' & Hle).
  destruct (H3 A B HC) as (A1 & EA1 & _ & _ & w & w' & Hw & Hw' & Hle' & Heq). rewrite <-EA' in EA1. subst A1.
  assert (comparable (objs c) = true) as Hco'.
  { rewrite Eo in Hco. unfold comparable in *. rewrite !forallb_app, orb_true_iff, !andb_true_iff in *. tauto. }
  assert (is_concept (abs c) A B) as (c1 & c2 & c3 & c4).
  { destruct (lattice_spec c Hg Hco' Hca l Hl) as (_ & _ & Hcs & _). exact (proj1 (Hcs _ _) HC). }
  assert (∀ g, g ∈ A' ↔ g ∈ A ∨ g = o ∧ B ⊆ J) as HA'.
  { intros g. rewrite EA', EA, EA', elem_of_intersection, elem_of_down, !elem_of_fG, Eo, elem_of_app, elem_of_list_singleton. split.
    - intros [[Hgo| ->] H]; [left; naive_solver|]. right. split; [done|]. intros m Hm. specialize (H m Hm). rewrite elem_of_fI, Hi in H.
      destruct H as [H|(_ & _ & H)]; [|done]. exfalso. apply Hn. apply elem_of_fI, (abs_fwf c) in H as [H _]. by apply elem_of_fG in H.
    - intros [[[? H] Hgo]|[-> HB]]; [naive_solver|]. split; [by right|]. intros m Hm. rewrite elem_of_fI, Hi. right. split; [done|].
      split; [by apply elem_of_fM, c2|by apply HB]. }
  split; intros HB.
  - assert (A' = A) as EAA by (apply set_eq; intros g; rewrite HA'; tauto). rewrite EAA in *. split; [done|]. split; [by apply (H2 A B HC' c1)|by exists w, w'].
  - assert (A ∪ {[o]} = A') as -> by (apply set_eq; intros g; rewrite HA', elem_of_union, elem_of_singleton; tauto). split; [done|]. split; [by exists v, v'|].
    exists w. split; [done|]. rewrite <-Heq; [done|]. intros g. rewrite Eo, elem_of_app, elem_of_list_singleton, HA'. tauto.
Qed.
Print Assumptions C129_added_object.

(** A deleted object: the concepts without it in the extent are left with their
    stability, and the stability of no other intent left rises. *)
Theorem C129_deleted_object c o l pop pop' : good c → o ∈ objs c → comparable (objs c) = true → comparable (atts c) = true →
  mk_lattice c = Ok l → (∀ k W, W ≠ ∅ → pop k W ∈ W) → (∀ k W, W ≠ ∅ → pop' k W ∈ W) →
  ∃ c' l' st st' dt dt', delete_object c o = (c', Ok tt) ∧ mk_lattice c' = Ok l' ∧
    compute_istability pop (lconcepts l) = Ok st ∧ compute_istability pop' (lconcepts l') = Ok st' ∧
    compute_estability pop (lconcepts l) = Ok dt ∧ compute_estability pop' (lconcepts l') = Ok dt' ∧
    (∀ A B, (A, B) ∈ lconcepts l → o ∉ A → (A, B) ∈ lconcepts l' ∧ ∃ v, dget (A, B) st = Some v ∧ dget (A, B) st' = Some v) ∧
    (∀ A B, (A, B) ∈ lconcepts l' → ∃ A0, (A0, B) ∈ lconcepts l ∧ A = A0 ∖ {[o]} ∧
       (∃ v v', dget (A0, B) st = Some v ∧ dget (A, B) st' = Some v' ∧ (v' <= v)%Qc) ∧
       ∃ w w', dget (A0, B) dt = Some w ∧ dget (A, B) dt' = Some w' ∧ (w <= w')%Qc ∧ (o ∈ A0 → w' = w)).
Proof.
  intros Hg Hin Hco Hca Hl Hp Hp'.
  destruct (C04_delete_object c o (good_wf _ Hg) (good_distinct _ Hg) Hin) as (c' & E & Hg' & Eo & Ea & Hi).
  assert (∀ g, g ∈ objs c' ↔ g ≠ o ∧ g ∈ objs c) as Ho' by (intros g; by rewrite Eo, elem_of_list_filter).
  assert (comparable (objs c') = true) as Hco'.
  { unfold comparable in *. rewrite orb_true_iff, !forallb_forall in *. setoid_rewrite <-elem_of_list_In. setoid_rewrite <-elem_of_list_In in Hco. naive_solver. }
  destruct (C33_lattice c' Hg' Hco' ltac:(by rewrite Ea)) as (l' & Hl' & _).
  destruct (istab_sub c' c l' l pop' pop Hg' Hg Hco ltac:(by rewrite Ea) ltac:(done)) as (st' & st & E1 & E2 & H1 & H2); try done.
  { intros g Hgo%Ho'. tauto. }
  { intros g m Hgo%Ho'. rewrite Hi. tauto. }
  destruct (estab_objects c' c l' l pop' pop Hg' Hg Hco ltac:(by rewrite Ea) ltac:(done)) as (dt' & dt & E3 & E4 & H3); try done.
  { intros g Hgo%Ho'. tauto. }
  { intros g m Hgo%Ho'. rewrite Hi. tauto. }
  exists c', l', st, st', dt, dt'. do 6 (split; [done|]).
  assert (∀ A B, (A, B) ∈ lconcepts l → A ⊆ fG (abs c)) as Hsub.
  { intros A B HC. destruct (lattice_spec c Hg Hco Hca l Hl) as (_ & _ & Hcs & _). exact (proj1 (proj1 (Hcs _ _) HC)). }
  split.
  - intros A B HC Ho. destruct (H2 A B HC) as (? & v & ? & ?); [|split; [done|by exists v]].
    intros g Hg0. apply elem_of_fG, Ho'. split; [by intros ->|]. by apply elem_of_fG, (Hsub A B HC).
  - intros A B HC. destruct (H1 A B HC) as (A0 & EA0 & EA & HC' & v' & v & ? & ? & ?). exists A0. split; [done|].
    destruct (H3 A B HC) as (A1 & EA1 & _ & _ & w' & w & ? & ? & ? & Heq). rewrite <-EA0 in EA1. subst A1.
    split; [|split; [by exists v, v'|exists w, w'; do 3 (split; [done|]); intros Ho0; symmetry; apply Heq;
      intros g Hg0 Hn0; destruct (decide (g = o)) as [->|]; [done|destruct Hn0; by apply Ho']]].
    rewrite EA. apply set_eq. intros g. rewrite elem_of_intersection, elem_of_difference, elem_of_singleton, elem_of_fG, Ho'. split; [tauto|].
    intros [Hg0 Hne]. split; [done|]. split; [done|]. by apply elem_of_fG, (Hsub A0 B HC').
Qed.
Print Assumptions C129_deleted_object.

(** The same for attributes and extensional stability. *)
Theorem C129_added_attribute c X a l pop pop' : good c → objs c ≠ [] → a ∉ atts c → comparable (objs c) = true → comparable (atts c ++ [a]) = true →
  mk_lattice c = Ok l → (∀ k W, W ≠ ∅ → pop k W ∈ W) → (∀ k W, W ≠ ∅ → pop' k W ∈ W) →
  ∃ c' l' st st' dt dt', add_attribute_with_extent c X a = (c', Ok tt) ∧ mk_lattice c' = Ok l' ∧
    compute_estability pop (lconcepts l) = Ok st ∧ compute_estability pop' (lconcepts l') = Ok st' ∧
    compute_istability pop (lconcepts l) = Ok dt ∧ compute_istability pop' (lconcepts l') = Ok dt' ∧
    ∀ A B, (A, B) ∈ lconcepts l →
      (¬ A ⊆ X → (A, B) ∈ lconcepts l' ∧ (∃ v, dget (A, B) st = Some v ∧ dget (A, B) st' = Some v) ∧
         ∃ w w', dget (A, B) dt = Some w ∧ dget (A, B) dt' = Some w' ∧ (w' <= w)%Qc) ∧
      (A ⊆ X → (A, B ∪ {[a]}) ∈ lconcepts l' ∧
         (∃ v v', dget (A, B) st = Some v ∧ dget (A, B ∪ {[a]}) st' = Some v' ∧ (v <= v')%Qc) ∧
         ∃ w, dget (A, B) dt = Some w ∧ dget (A, B ∪ {[a]}) dt' = Some w).
Proof.
  intros Hg Hne Hn Hco Hca Hl Hp Hp'.
  destruct (C04_add_attribute_with_extent c X a (good_wf _ Hg) (good_distinct _ Hg) Hn) as (c' & E & _ & _ & Hg' & Eo & Ea & Hi).
  specialize (Hg' Hne). rewrite <-Ea in Hca. destruct (C33_lattice c' Hg' ltac:(by rewrite Eo) Hca) as (l' & Hl' & _).
  destruct (estab_sub c c' l l' pop pop' Hg Hg' Hco Hca Eo) as (st & st' & E1 & E2 & H1 & H2); try done.
  { intros g Hgo. rewrite Ea. apply elem_of_app. by left. }
  { intros g m Hgo. rewrite Hi. split; [|by left]. intros [|(-> & _)]; [done|by destruct Hn]. }
  destruct (istab_attributes c c' l l' pop pop' Hg Hg' Hco Hca Eo) as (dt & dt' & E3 & E4 & H3); try done.
  { intros g Hgo. rewrite Ea. apply elem_of_app. by left. }
  { intros g m Hgo. rewrite Hi. split; [|by left]. intros [|(-> & _)]; [done|by destruct Hn]. }
  exists c', l', st, st', dt, dt'. do 6 (split; [done|]). intros A B HC.
  destruct (H1 A B HC) as (B' & EB' & EB & HC' & v & v' & Hv & Hv' & Hle).
  destruct (H3 A B HC) as (B1 & EB1 & _ & _ & w & w' & Hw & Hw' & Hle' & Heq). rewrite <-EB' in EB1. subst B1.
  assert (comparable (atts c) = true) as Hca'.
  { rewrite Ea in Hca. unfold comparable in *. rewrite !forallb_app, orb_true_iff, !andb_true_iff in *. tauto. }
  assert (is_concept (abs c) A B) as (c1 & c2 & c3 & c4).
  { destruct (lattice_spec c Hg Hco Hca' l Hl) as (_ & _ & Hcs & _). exact (proj1 (Hcs _ _) HC). }
  assert (∀ m, m ∈ B' ↔ m ∈ B ∨ m = a ∧ A ⊆ X) as HB'.
  { intros m. rewrite EB', EB, EB', elem_of_intersection, elem_of_up, !elem_of_fM, Ea, elem_of_app, elem_of_list_singleton. split.
    - intros [[Hgo| ->] H]; [left; naive_solver|]. right. split; [done|]. intros g Hm. specialize (H g Hm). rewrite elem_of_fI, Hi in H.
      destruct H as [H|(_ & _ & H)]; [|done]. exfalso. apply Hn. apply elem_of_fI, (abs_fwf c) in H as [_ H]. by apply elem_of_fM in H.
    - intros [[[? H] Hgo]|[-> HB]]; [naive_solver|]. split; [by right|]. intros m Hm. rewrite elem_of_fI, Hi. right. split; [done|].
      split; [by apply elem_of_fG, c1|by apply HB]. }
  split; intros HA.
  - assert (B' = B) as EBB by (apply set_eq; intros g; rewrite HB'; tauto). rewrite EBB in *. split; [done|]. split; [by apply (H2 A B HC' c2)|by exists w, w'].
  - assert (B ∪ {[a]} = B') as -> by (apply set_eq; intros g; rewrite HB', elem_of_union, elem_of_singleton; tauto). split; [done|]. split; [by exists v, v'|].
    exists w. split; [done|]. rewrite <-Heq; [done|]. intros g. rewrite Ea, elem_of_app, elem_of_list_singleton, HB'. tauto.
Qed.
Print Assumptions C129_added_attribute.

Theorem C129_deleted_attributes c ns l pop pop' : good c → objs c ≠ [] → NoDup ns → (∀ a, a ∈ ns → a ∈ atts c) →
  comparable (objs c) = true → comparable (atts c) = true →
  mk_lattice c = Ok l → (∀ k W, W ≠ ∅ → pop k W ∈ W) → (∀ k W, W ≠ ∅ → pop' k W ∈ W) →
  ∃ c' l' st st' dt dt', delete_attributes c ns = (c', Ok tt) ∧ mk_lattice c' = Ok l' ∧
    compute_estability pop (lconcepts l) = Ok st ∧ compute_estability pop' (lconcepts l') = Ok st' ∧
    compute_istability pop (lconcepts l) = Ok dt ∧ compute_istability pop' (lconcepts l') = Ok dt' ∧
    (∀ A B, (A, B) ∈ lconcepts l → B ## list_to_set ns → (A, B) ∈ lconcepts l' ∧ ∃ v, dget (A, B) st = Some v ∧ dget (A, B) st' = Some v) ∧
    (∀ A B, (A, B) ∈ lconcepts l' → ∃ B0, (A, B0) ∈ lconcepts l ∧ B = B0 ∖ list_to_set ns ∧
       (∃ v v', dget (A, B0) st = Some v ∧ dget (A, B) st' = Some v' ∧ (v' <= v)%Qc) ∧
       ∃ w w', dget (A, B0) dt = Some w ∧ dget (A, B) dt' = Some w' ∧ (w <= w')%Qc ∧ (list_to_set ns ⊆ B0 → w' = w)).
Proof.
  intros Hg Hne Hnd Hns Hco Hca Hl Hp Hp'.
  destruct (C04_delete_attributes c ns (good_wf _ Hg) (good_distinct _ Hg) Hne Hnd Hns) as (c' & E & Hg' & Eo & Ea & Hi).
  assert (∀ g, g ∈ atts c' ↔ g ∉ ns ∧ g ∈ atts c) as Ha' by (intros g; by rewrite Ea, elem_of_list_filter).
  assert (comparable (atts c') = true) as Hca'.
  { unfold comparable in *. rewrite orb_true_iff, !forallb_forall in *. setoid_rewrite <-elem_of_list_In. setoid_rewrite <-elem_of_list_In in Hca. naive_solver. }
  destruct (C33_lattice c' Hg' ltac:(by rewrite Eo) Hca') as (l' & Hl' & _).
  destruct (estab_sub c' c l' l pop' pop Hg' Hg ltac:(by rewrite Eo) Hca ltac:(done)) as (st' & st & E1 & E2 & H1 & H2); try done.
  { intros g Hgo%Ha'. tauto. }
  { intros g m Hgo%Ha'. rewrite Hi. tauto. }
  destruct (istab_attributes c' c l' l pop' pop Hg' Hg ltac:(by rewrite Eo) Hca ltac:(done)) as (dt' & dt & E3 & E4 & H3); try done.
  { intros g Hgo%Ha'. tauto. }
  { intros g m Hgo%Ha'. rewrite Hi. tauto. }
  exists c', l', st, st', dt, dt'. do 6 (split; [done|]).
  assert (∀ A B, (A, B) ∈ lconcepts l → B ⊆ fM (abs c)) as Hsub.
  { intros A B HC. destruct (lattice_spec c Hg Hco Hca l Hl) as (_ & _ & Hcs & _). exact (proj1 (proj2 (proj1 (Hcs _ _) HC))). }
  split.
  - intros A B HC HB. destruct (H2 A B HC) as (? & v & ? & ?); [|split; [done|by exists v]].
    intros m Hm. apply elem_of_fM, Ha'. split; [|by apply elem_of_fM, (Hsub A B HC)]. intros Hmn. apply (HB m Hm). by apply elem_of_list_to_set.
  - intros A B HC. destruct (H1 A B HC) as (B0 & EB0 & EB & HC' & v' & v & ? & ? & ?). exists B0. split; [done|].
    destruct (H3 A B HC) as (B1 & EB1 & _ & _ & w' & w & ? & ? & ? & Heq). rewrite <-EB0 in EB1. subst B1.
    split; [|split; [by exists v, v'|exists w, w'; do 3 (split; [done|]); intros Hs; symmetry; apply Heq;
      intros g Hg0 Hn0; apply Hs, elem_of_list_to_set; destruct (decide (g ∈ ns)); [done|destruct Hn0; by apply Ha']]].
    rewrite EB. apply set_eq. intros m. rewrite elem_of_intersection, elem_of_difference, elem_of_list_to_set, elem_of_fM, Ha'. split; [tauto|].
    intros [Hm Hx]. split; [done|]. split; [done|]. by apply elem_of_fM, (Hsub A B0 HC').
Qed.
Print Assumptions C129_deleted_attributes.

(** Concrete cases: the values do rise and fall. *)
Definition istab_of (c : context) (x : fconcept) : res Qc :=
  l ← mk_lattice c; st ← compute_istability pop_first (lconcepts l); get_or KeyError (dget x st).
Definition estab_of (c : context) (x : fconcept) : res Qc :=
  l ← mk_lattice c; st ← compute_estability pop_last (lconcepts l); get_or KeyError (dget x st).
Definition o5 := NInt 5.
Definition sd4 := NStr "d".
Example C129_case : o5 ∉ objs ex ∧ comparable (objs ex ++ [o5]) = true ∧ comparable (atts ex) = true ∧ is_ok (mk_lattice ex) = true ∧
  istab_of ex ({[o1; o2; o3]}, {[sa]}) = Ok (Q2Qc (5 # 8)) ∧
  istab_of (add_object_with_intent ex {[sa]} o5).1 ({[o1; o2; o3; o5]}, {[sa]}) = Ok (Q2Qc (13 # 16)) ∧
  istab_of (add_object_with_intent ex {[sb]} o5).1 ({[o1; o2; o3]}, {[sa]}) = Ok (Q2Qc (5 # 8)) ∧
  estab_of ex ({[o1]}, {[sa; sb]}) = Ok (Q2Qc (1 # 2)) ∧
  estab_of (add_object_with_intent ex {[sb]} o5).1 ({[o1]}, {[sa; sb]}) = Ok (Q2Qc (1 # 4)) ∧
  estab_of (add_object_with_intent ex {[sa; sb; sc]} o5).1 ({[o1; o5]}, {[sa; sb]}) = Ok (Q2Qc (1 # 2)).
Proof. split_and!; dec. Qed.
Example C129_case_deleted : o3 ∈ objs ex ∧ NoDup [sc] ∧
  istab_of (delete_object ex o3).1 ({[o1; o2]}, {[sa]}) = Ok (Q2Qc (1 # 4)) ∧
  istab_of (delete_object ex o3).1 ({[o1]}, {[sa; sb]}) = istab_of ex ({[o1]}, {[sa; sb]}) ∧
  estab_of (delete_attributes ex [sc]).1 ({[o1]}, {[sa; sb]}) = Ok (Q2Qc (1 # 2)) ∧
  estab_of ex (∅, {[sa; sb; sc]}) = Ok (Q2Qc (1 # 4)) ∧
  estab_of (add_attribute_with_extent ex {[o1; o2]} sd4).1 ({[o1; o2; o3]}, {[sa]}) = estab_of ex ({[o1; o2; o3]}, {[sa]}).
Proof. split_and!; dec. Qed.
