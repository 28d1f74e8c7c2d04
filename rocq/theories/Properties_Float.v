(** * Indices, filtering and factorisation with floats: the final statements (C108-C111) *)
From Coq Require Import ZArith QArith Qcanon Floats.SpecFloat.
From Verif Require Import FloatSpec.
From Verif Require Import Py PyFacts Spec SpecFacts ContextModel ContextSpec ContextOps ContextFacts ContextInit ContextFinal
  LatticeSpec LatticeModel NorrisFacts LatticeFacts FilterModel FilterFacts FilterFacts2
  FactorSpec FactorModel FactorFacts FactorFacts2 FactorFacts3 FloatModel FloatFacts FloatFacts2 FloatFacts3
  Properties_Context Properties_Lattice Properties_Filter Properties_Factor.
Local Open Scope nat_scope.

Local Instance spec_float_eq_dec : EqDecision spec_float.
Proof. solve_decision. Defined.
Lemma frac_le a b p q : (0 < b)%Z → (0 < q)%Z → (qdiv p q <= qdiv a b)%Qc ↔ (p * b <= a * q)%Z.
Proof.
  intros Hb Hq. unfold qdiv, Qcle. cbn [this Q2Qc]. rewrite !Qred_correct. unfold Qle, Qdiv, Qmult, Qinv, inject_Z.
  destruct b as [|b|b]; [lia| |lia]. destruct q as [|q|q]; [lia| |lia]. simpl. rewrite !Z.mul_1_r. done.
Qed.
Lemma frac_lt a b p q : (0 < b)%Z → (0 < q)%Z → (qdiv a b < qdiv p q)%Qc ↔ (a * q < p * b)%Z.
Proof.
  intros Hb Hq. rewrite <- qltb_spec. pose proof (qltb_false (qdiv a b) (qdiv p q)) as H. rewrite frac_le in H by done.
  destruct (qltb _ _); split; intros H'; try done.
  - apply Z.lt_nge. intros H1. by apply H in H1.
  - assert (p * b <= a * q)%Z by by apply H. lia.
Qed.

(** ** C108: the quotients *)
(** [a / b] of ints with 0 <= a <= b is a nearest float; the order of two quotients is
    kept, and reflected when the product of the denominators is below 2^53. *)
Theorem C108_division a b : (0 <= a <= b)%Z → (0 < b)%Z → ∃ x, fdiv a b = Ok x ∧ pyfloat x ∧ nearest (frac a b) x.
Proof.
  intros Ha Hb. destruct (fdiv_spec a b Ha Hb) as (x & E & H). exists x. split; [done|]. split; [apply H|].
  exact (rounded_nearest _ _ H).
Qed.
Print Assumptions C108_division.
Theorem C108_order a b p q x y : (0 <= a <= b)%Z → (0 < b)%Z → (0 <= p <= q)%Z → (0 < q)%Z →
  fdiv a b = Ok x → fdiv p q = Ok y →
  ((a * q <= p * b)%Z → SFleb x y = true) ∧
  ((b * q < 2 ^ 53)%Z → (SFleb x y = true ↔ (a * q <= p * b)%Z) ∧ (SFltb x y = true ↔ (a * q < p * b)%Z)).
Proof.
  intros Ha Hb Hp Hq Ex Ey. pose proof (fdiv_rounded _ _ _ Ha Hb Ex) as Hx. pose proof (fdiv_rounded _ _ _ Hp Hq Ey) as Hy.
  split.
  - intros H. apply (rounded_le _ _ _ _ Hx Hy). by apply frac_le.
  - intros Hbq. split.
    + rewrite (rounded_leb a b p q x y Ha Hb Hp Hq Hbq Hx Hy). by apply frac_le.
    + rewrite (rounded_ltb a b p q x y Ha Hb Hp Hq Hbq Hx Hy), qltb_spec. by apply frac_lt.
Qed.
Print Assumptions C108_order.
Example C108_case : fdiv 1 3 = Ok (S754_finite false 6004799503160661 (-54)) ∧ fdiv 3 4 = Ok (S754_finite false 6755399441055744 (-53)) ∧
  fdiv 7 7 = Ok fone ∧ fdiv 1 0 = Err ZeroDivisionError ∧
  SFltb (S754_finite false 6004799503160661 (-54)) (S754_finite false 6755399441055744 (-53)) = true.
Proof. vm_compute. done. Qed.
(** Without the bound different fractions may be the same float: 1, or 0. *)
Theorem C108_bound_refuted :
  fdiv (2 ^ 54 - 1) (2 ^ 54) = Ok fone ∧ fdiv 1 (2 ^ 1076) = Ok (S754_zero false).
Proof. by vm_compute. Qed.
Print Assumptions C108_bound_refuted.

(** ** C108: the indices *)
Theorem C108_istability c l pop : good c → comparable (objs c) = true → comparable (atts c) = true → mk_lattice c = Ok l →
  (∀ k W, W ≠ ∅ → pop k W ∈ W) →
  ∃ d, fcompute_istability pop (lconcepts l) = Ok d ∧
    (∀ x, x ∈ map fst d ↔ is_concept (abs c) x.1 x.2) ∧
    ∀ A B, is_concept (abs c) A B →
      ∃ n y, is_card (λ S, S ⊆ A ∧ up (abs c) S = B) n ∧ dget (A, B) d = Some y ∧
        nearest (frac (Z.of_nat n) (2 ^ Z.of_nat (size A))) y ∧
        (size A ≤ 53 → exactly (frac (Z.of_nat n) (2 ^ Z.of_nat (size A))) y) ∧
        ((Z.of_nat (size A) ≤ 1074)%Z → SFltb (S754_zero false) y = true).
Proof.
  intros Hg Ho Ha Hl Hp. destruct (istability_float c Hg Ho Ha l Hl pop Hp) as (d & E & _ & Hk & _ & _ & Hd).
  exists d. split; [done|]. split; [done|]. intros A B Hc.
  destruct (Hd A B Hc) as (a & b & y & (n & Hn & ->) & -> & Hab & Hb & Ey & Hr). exists n, y. split; [done|]. split; [done|].
  split; [exact (rounded_nearest _ _ Hr)|]. split.
  - intros Hs. apply rounded_dyadic; [done|lia|done].
  - intros Hs. assert (0 < n) as Hn0. { apply (card_pos _ _ A Hn). split; [done|]. apply Hc. }
    eapply rounded_pos; [|split; [|exact Hs]|exact Hr]; lia.
Qed.
Print Assumptions C108_istability.
Theorem C108_estability c l pop : good c → comparable (objs c) = true → comparable (atts c) = true → mk_lattice c = Ok l →
  (∀ k W, W ≠ ∅ → pop k W ∈ W) →
  ∃ d, fcompute_estability pop (lconcepts l) = Ok d ∧
    (∀ x, x ∈ map fst d ↔ is_concept (abs c) x.1 x.2) ∧
    ∀ A B, is_concept (abs c) A B →
      ∃ n y, is_card (λ T, T ⊆ B ∧ down (abs c) T = A) n ∧ dget (A, B) d = Some y ∧
        nearest (frac (Z.of_nat n) (2 ^ Z.of_nat (size B))) y ∧
        (size B ≤ 53 → exactly (frac (Z.of_nat n) (2 ^ Z.of_nat (size B))) y) ∧
        ((Z.of_nat (size B) ≤ 1074)%Z → SFltb (S754_zero false) y = true).
Proof.
  intros Hg Ho Ha Hl Hp. destruct (estability_float c Hg Ho Ha l Hl pop Hp) as (d & E & _ & Hk & _ & _ & Hd).
  exists d. split; [done|]. split; [done|]. intros A B Hc.
  destruct (Hd A B Hc) as (a & b & y & (n & Hn & ->) & -> & Hab & Hb & Ey & Hr). exists n, y. split; [done|]. split; [done|].
  split; [exact (rounded_nearest _ _ Hr)|]. split.
  - intros Hs. apply rounded_dyadic; [done|lia|done].
  - intros Hs. assert (0 < n) as Hn0. { apply (card_pos _ _ B Hn). split; [done|]. apply Hc. }
    eapply rounded_pos; [|split; [|exact Hs]|exact Hr]; lia.
Qed.
Print Assumptions C108_estability.
Theorem C108_separation c l : good c → comparable (objs c) = true → comparable (atts c) = true → mk_lattice c = Ok l →
  objs c ≠ [] →
  ∃ d, fcompute_separation_index l = Ok d ∧ (∀ x, x ∈ map fst d ↔ is_concept (abs c) x.1 x.2) ∧
    ∀ A B, is_concept (abs c) A B → ∃ y, dget (A, B) d = Some y ∧
      (A = ∅ ∨ B = ∅ → exactly (frac 1 1) y) ∧
      (A ≠ ∅ → B ≠ ∅ → nearest (frac (Z.of_nat (size A * size B))
         (Z.of_nat (size (filter (λ p, p.1 ∈ A ∨ p.2 ∈ B) (fI (abs c)))))) y).
Proof.
  intros Hg Ho Ha Hl Hne. destruct (separation_float c Hg Ho Ha l Hl Hne) as (d & E & _ & Hk & _ & _ & Hd).
  exists d. split; [done|]. split; [done|]. intros A B Hc.
  destruct (Hd A B Hc) as (a & b & y & -> & -> & Hab & Hb & Ey & Hr). exists y. split; [done|].
  destruct (decide (A = ∅ ∨ B = ∅)) as [He|He].
  - split; [|tauto]. intros _. apply (rounded_dyadic 1 0); [lia|lia|exact Hr].
  - split; [done|]. intros _ _. exact (rounded_nearest _ _ Hr).
Qed.
Print Assumptions C108_separation.
Theorem C108_sizes c l : good c → comparable (objs c) = true → comparable (atts c) = true → mk_lattice c = Ok l →
  (objs c ≠ [] → ∃ d, fcompute_extent_size l = Ok d ∧ (∀ x, x ∈ map fst d ↔ is_concept (abs c) x.1 x.2) ∧
     ∀ A B, is_concept (abs c) A B → ∃ y, dget (A, B) d = Some y ∧
       nearest (frac (Z.of_nat (size A)) (Z.of_nat (length (objs c)))) y) ∧
  (atts c ≠ [] → ∃ d, fcompute_intent_size l = Ok d ∧ (∀ x, x ∈ map fst d ↔ is_concept (abs c) x.1 x.2) ∧
     ∀ A B, is_concept (abs c) A B → ∃ y, dget (A, B) d = Some y ∧
       nearest (frac (Z.of_nat (size B)) (Z.of_nat (length (atts c)))) y) ∧
  (objs c = [] → fcompute_extent_size l = Err ZeroDivisionError) ∧
  (atts c = [] → fcompute_intent_size l = Err ZeroDivisionError).
Proof.
  intros Hg Ho Ha Hl. split; [|split; [|exact (sizes_float_err c Hg Ho Ha l Hl)]]; intros Hne.
  - destruct (extent_size_float c Hg Ho Ha l Hl Hne) as (d & E & _ & Hk & _ & _ & Hd).
    exists d. split; [done|]. split; [done|]. intros A B Hc.
    destruct (Hd A B Hc) as (a & b & y & -> & -> & _ & _ & Ey & Hr). exists y. split; [done|]. exact (rounded_nearest _ _ Hr).
  - destruct (intent_size_float c Hg Ho Ha l Hl Hne) as (d & E & _ & Hk & _ & _ & Hd).
    exists d. split; [done|]. split; [done|]. intros A B Hc.
    destruct (Hd A B Hc) as (a & b & y & -> & -> & _ & _ & Ey & Hr). exists y. split; [done|]. exact (rounded_nearest _ _ Hr).
Qed.
Print Assumptions C108_sizes.
Definition f58 : spec_float := S754_finite false 5629499534213120 (-53).
Definition f35 : spec_float := S754_finite false 5404319552844595 (-53).
Definition f34 : spec_float := S754_finite false 6755399441055744 (-53).
Definition f23 : spec_float := S754_finite false 6004799503160661 (-53).
(** The values of C36, C38 and C39; 3/5 and 2/3 are rounded. *)
Example C108_index_case : fdiv 5 8 = Ok f58 ∧ fdiv 3 5 = Ok f35 ∧ fdiv 3 4 = Ok f34 ∧ fdiv 2 3 = Ok f23 ∧
  (st ← fcompute_istability pop_first (lconcepts ex_lat); get_or KeyError (dget ({[o1; o2; o3]}, {[sa]}) st)) = Ok f58 ∧
  (d ← fcompute_separation_index ex_lat; get_or KeyError (dget ({[o1; o2; o3]}, {[sa]}) d)) = Ok f35 ∧
  (d ← fcompute_extent_size ex_lat; get_or KeyError (dget ({[o1; o2; o3]}, {[sa]}) d)) = Ok f34 ∧
  (d ← fcompute_intent_size ex_lat; get_or KeyError (dget ({[o1]}, {[sa; sb]}) d)) = Ok f23.
Proof. split_and!; vm_compute; reflexivity. Qed.
(** A stability of 1.0 does not mean that every subset of the extent has the intent of
    the concept: 54 objects without the attribute; the empty set has it. *)
Definition tall_objs : list name := map (fun i => NInt (Z.of_nat i)) (seq 0 54).
Definition tall_table : list (list bool) := replicate 54 [false].
Definition tall := get_ok empty_cxt (mk_context tall_table None tall_objs [sa]).
Definition tall_lat := get_ok ex_lat (mk_lattice tall).
Lemma tall_good : good tall.
Proof. eapply (mk_context_good tall_table None); [by apply get_ok_eq; vm_compute|dec|dec|done]. Qed.
Theorem C108_stability_one_refuted : ¬ ∀ c l pop d A B, good c → comparable (objs c) = true → comparable (atts c) = true →
  mk_lattice c = Ok l → (∀ k W, W ≠ ∅ → pop k W ∈ W) → fcompute_istability pop (lconcepts l) = Ok d →
  dget (A, B) d = Some fone → ∀ S, S ⊆ A → up (abs c) S = B.
Proof.
  intros H.
  assert (up (abs tall) ∅ = ∅) as H'; [|revert H'; dec].
  apply (H tall tall_lat pop_first (get_ok [] (fcompute_istability pop_first (lconcepts tall_lat)))
    (list_to_set tall_objs) ∅ tall_good).
  - by vm_compute.
  - by vm_compute.
  - by apply get_ok_eq; vm_compute.
  - exact pop_first_in.
  - by apply get_ok_eq; vm_compute.
  - vm_compute. reflexivity.
  - apply empty_subseteq.
Qed.
Print Assumptions C108_stability_one_refuted.

(** ** C109: filtering by a float index *)
(** With the threshold [p / q] and denominators small enough, the concepts kept are those
    whose exact index is at least the exact fraction. *)
Theorem C109_istability c l pop d p q opt : good c → comparable (objs c) = true → comparable (atts c) = true → mk_lattice c = Ok l →
  (∀ k W, W ≠ ∅ → pop k W ∈ W) → fcompute_istability pop (lconcepts l) = Ok d →
  (0 <= p <= q)%Z → (0 < q)%Z → fdiv p q = Ok opt → (2 ^ Z.of_nat (length (objs c)) * q < 2 ^ 53)%Z →
  ∃ s, ffilter_concepts d "value" opt = Ok s ∧
    ∀ A B, (A, B) ∈ sconcepts s ↔ is_concept (abs c) A B ∧
      ∃ n, is_card (λ S, S ⊆ A ∧ up (abs c) S = B) n ∧ (p * 2 ^ Z.of_nat (size A) <= Z.of_nat n * q)%Z.
Proof.
  intros Hg Ho Ha Hl Hp E Hpq Hq Eo Hb. destruct (istability_float c Hg Ho Ha l Hl pop Hp) as (d' & E' & Hd).
  rewrite E in E'. injection E' as <-. destruct (filter_float c d _ _ p q opt Hd Hpq Hq Eo) as (s & Es & Hs).
  { intros A B b (HA & _) ->. eapply Z.le_lt_trans; [|exact Hb]. apply Z.mul_le_mono_nonneg_r; [lia|].
    apply Z.pow_le_mono_r; [lia|]. apply inj_le. apply subseteq_size in HA. rewrite HA.
    change (size (list_to_set (objs c) : gset name) ≤ length (objs c)). by rewrite size_list_to_set by apply Hg. }
  exists s. split; [done|]. intros A B. rewrite Hs. split.
  - intros (a & b & Hc & (n & Hn & ->) & -> & Hle). split; [done|]. exists n. split; [done|]. rewrite frac_le in Hle; [exact Hle|lia|lia].
  - intros (Hc & n & Hn & Hle). exists (Z.of_nat n), (2 ^ Z.of_nat (size A))%Z. split; [exact Hc|]. split; [by exists n|]. split; [done|]. apply frac_le; [lia|lia|done].
Qed.
Print Assumptions C109_istability.
Theorem C109_estability c l pop d p q opt : good c → comparable (objs c) = true → comparable (atts c) = true → mk_lattice c = Ok l →
  (∀ k W, W ≠ ∅ → pop k W ∈ W) → fcompute_estability pop (lconcepts l) = Ok d →
  (0 <= p <= q)%Z → (0 < q)%Z → fdiv p q = Ok opt → (2 ^ Z.of_nat (length (atts c)) * q < 2 ^ 53)%Z →
  ∃ s, ffilter_concepts d "value" opt = Ok s ∧
    ∀ A B, (A, B) ∈ sconcepts s ↔ is_concept (abs c) A B ∧
      ∃ n, is_card (λ T, T ⊆ B ∧ down (abs c) T = A) n ∧ (p * 2 ^ Z.of_nat (size B) <= Z.of_nat n * q)%Z.
Proof.
  intros Hg Ho Ha Hl Hp E Hpq Hq Eo Hb. destruct (estability_float c Hg Ho Ha l Hl pop Hp) as (d' & E' & Hd).
  rewrite E in E'. injection E' as <-. destruct (filter_float c d _ _ p q opt Hd Hpq Hq Eo) as (s & Es & Hs).
  { intros A B b (_ & HB & _) ->. eapply Z.le_lt_trans; [|exact Hb]. apply Z.mul_le_mono_nonneg_r; [lia|].
    apply Z.pow_le_mono_r; [lia|]. apply inj_le. apply subseteq_size in HB. rewrite HB.
    change (size (list_to_set (atts c) : gset name) ≤ length (atts c)). by rewrite size_list_to_set by apply Hg. }
  exists s. split; [done|]. intros A B. rewrite Hs. split.
  - intros (a & b & Hc & (n & Hn & ->) & -> & Hle). split; [done|]. exists n. split; [done|]. rewrite frac_le in Hle; [exact Hle|lia|lia].
  - intros (Hc & n & Hn & Hle). exists (Z.of_nat n), (2 ^ Z.of_nat (size B))%Z. split; [exact Hc|]. split; [by exists n|]. split; [done|]. apply frac_le; [lia|lia|done].
Qed.
Print Assumptions C109_estability.
Theorem C109_separation c l d p q opt : good c → comparable (objs c) = true → comparable (atts c) = true → mk_lattice c = Ok l →
  objs c ≠ [] → fcompute_separation_index l = Ok d →
  (0 <= p <= q)%Z → (0 < q)%Z → fdiv p q = Ok opt → (Z.of_nat (S (size (fI (abs c)))) * q < 2 ^ 53)%Z →
  ∃ s, ffilter_concepts d "value" opt = Ok s ∧
    ∀ A B, (A, B) ∈ sconcepts s ↔ is_concept (abs c) A B ∧
      (A = ∅ ∨ B = ∅ ∨
       (p * Z.of_nat (size (filter (λ x, x.1 ∈ A ∨ x.2 ∈ B) (fI (abs c)))) <= Z.of_nat (size A * size B) * q)%Z).
Proof.
  intros Hg Ho Ha Hl Hne E Hpq Hq Eo Hb. destruct (separation_float c Hg Ho Ha l Hl Hne) as (d' & E' & Hd).
  rewrite E in E'. injection E' as <-. destruct (filter_float c d _ _ p q opt Hd Hpq Hq Eo) as (s & Es & Hs).
  { intros A B b _ ->. eapply Z.le_lt_trans; [|exact Hb]. apply Z.mul_le_mono_nonneg_r; [lia|].
    destruct (decide _); [lia|]. assert (size (crosses (abs c) A B) ≤ size (fI (abs c))); [|lia].
    apply subseteq_size. intros x. unfold crosses. rewrite elem_of_filter. tauto. }
  exists s. split; [done|]. intros A B. rewrite Hs. split.
  - intros (a & b & Hc & -> & -> & Hle). split; [done|]. destruct (decide (A = ∅ ∨ B = ∅)) as [He|He]; [tauto|].
    right. right. rewrite frac_le in Hle; [exact Hle| |lia]. pose proof (crosses_bounds c A B Hc He). lia.
  - intros (Hc & He'). eexists _, _. split; [done|]. split; [done|]. split; [done|].
    destruct (decide (A = ∅ ∨ B = ∅)) as [He|He]; [apply frac_le; lia|].
    pose proof (crosses_bounds c A B Hc He). apply frac_le; [lia|lia|]. destruct He' as [?|[?|?]]; [tauto|tauto|done].
Qed.
Print Assumptions C109_separation.
Theorem C109_extent_size c l d p q opt : good c → comparable (objs c) = true → comparable (atts c) = true → mk_lattice c = Ok l →
  objs c ≠ [] → fcompute_extent_size l = Ok d →
  (0 <= p <= q)%Z → (0 < q)%Z → fdiv p q = Ok opt → (Z.of_nat (length (objs c)) * q < 2 ^ 53)%Z →
  ∃ s, ffilter_concepts d "value" opt = Ok s ∧
    ∀ A B, (A, B) ∈ sconcepts s ↔ is_concept (abs c) A B ∧ (p * Z.of_nat (length (objs c)) <= Z.of_nat (size A) * q)%Z.
Proof.
  intros Hg Ho Ha Hl Hne E Hpq Hq Eo Hb. destruct (extent_size_float c Hg Ho Ha l Hl Hne) as (d' & E' & Hd).
  rewrite E in E'. injection E' as <-. destruct (filter_float c d _ _ p q opt Hd Hpq Hq Eo) as (s & Es & Hs).
  { by intros A B b _ ->. }
  assert (0 < length (objs c)) by (destruct (objs c); [done|simpl; lia]).
  exists s. split; [done|]. intros A B. rewrite Hs. split.
  - intros (a & b & Hc & -> & -> & Hle). split; [done|]. rewrite frac_le in Hle; [exact Hle|lia|lia].
  - intros (Hc & Hle). eexists _, _. split; [done|]. split; [done|]. split; [done|]. apply frac_le; [lia|lia|done].
Qed.
Print Assumptions C109_extent_size.
Theorem C109_intent_size c l d p q opt : good c → comparable (objs c) = true → comparable (atts c) = true → mk_lattice c = Ok l →
  atts c ≠ [] → fcompute_intent_size l = Ok d →
  (0 <= p <= q)%Z → (0 < q)%Z → fdiv p q = Ok opt → (Z.of_nat (length (atts c)) * q < 2 ^ 53)%Z →
  ∃ s, ffilter_concepts d "value" opt = Ok s ∧
    ∀ A B, (A, B) ∈ sconcepts s ↔ is_concept (abs c) A B ∧ (p * Z.of_nat (length (atts c)) <= Z.of_nat (size B) * q)%Z.
Proof.
  intros Hg Ho Ha Hl Hne E Hpq Hq Eo Hb. destruct (intent_size_float c Hg Ho Ha l Hl Hne) as (d' & E' & Hd).
  rewrite E in E'. injection E' as <-. destruct (filter_float c d _ _ p q opt Hd Hpq Hq Eo) as (s & Es & Hs).
  { by intros A B b _ ->. }
  assert (0 < length (atts c)) by (destruct (atts c); [done|simpl; lia]).
  exists s. split; [done|]. intros A B. rewrite Hs. split.
  - intros (a & b & Hc & -> & -> & Hle). split; [done|]. rewrite frac_le in Hle; [exact Hle|lia|lia].
  - intros (Hc & Hle). eexists _, _. split; [done|]. split; [done|]. split; [done|]. apply frac_le; [lia|lia|done].
Qed.
Print Assumptions C109_intent_size.
(** Any threshold, also an infinity or NaN, and no bound: a concept with an intensional
    stability not smaller than that of a concept kept is kept. *)
Theorem C109_any_threshold c l pop d opt : good c → comparable (objs c) = true → comparable (atts c) = true → mk_lattice c = Ok l →
  (∀ k W, W ≠ ∅ → pop k W ∈ W) → fcompute_istability pop (lconcepts l) = Ok d → pyfloat opt →
  ∃ s, ffilter_concepts d "value" opt = Ok s ∧
    (∀ A B, (A, B) ∈ sconcepts s ↔ is_concept (abs c) A B ∧ ∃ y, dget (A, B) d = Some y ∧ SFleb opt y = true) ∧
    ∀ A B A' B' n n', (A, B) ∈ sconcepts s → is_concept (abs c) A' B' →
      is_card (λ S, S ⊆ A ∧ up (abs c) S = B) n → is_card (λ S, S ⊆ A' ∧ up (abs c) S = B') n' →
      (Z.of_nat n * 2 ^ Z.of_nat (size A') <= Z.of_nat n' * 2 ^ Z.of_nat (size A))%Z → (A', B') ∈ sconcepts s.
Proof.
  intros Hg Ho Ha Hl Hp E Hopt. destruct (istability_float c Hg Ho Ha l Hl pop Hp) as (d' & E' & Hd).
  rewrite E in E'. injection E' as <-. destruct (filter_float_up c d _ _ opt Hd Hopt) as (s & Es & Hs & Hup).
  exists s. split; [done|]. split; [done|]. intros A B A' B' n n' H1 H2 H3 H4 H5.
  eapply Hup; [exact H1|exact H2|by exists n|done|by exists n'|done|]. apply frac_le; [lia|lia|done].
Qed.
Print Assumptions C109_any_threshold.
(** Threshold 3/5, which is not a float; the concept with the separation index 3/5 is kept. *)
Example C109_case : fdiv 3 5 = Ok f35 ∧ (Z.of_nat (S (size (fI (abs ex)))) * 5 < 2 ^ 53)%Z ∧ objs ex ≠ [] ∧
  (d ← fcompute_separation_index ex_lat; s ← ffilter_concepts d "value" f35; Ok (map snd (sconcepts s))) =
    (Ok [{[sa; sb; sc]}; {[sa]}; ∅] : res (list (gset name))).
Proof. split_and!; [by vm_compute|by vm_compute|done|dec]. Qed.

(** ** C110: algorithm2 with a float fidelity *)
Lemma ncovered_bounds (K : fctx) fs : (0 <= ncovered K fs <= Z.of_nat (size (fI K)))%Z.
Proof.
  unfold ncovered. assert (size (uncovered K fs) ≤ size (fI K)); [|lia]. apply subseteq_size. intros p.
  unfold uncovered. rewrite elem_of_filter. tauto.
Qed.
Lemma same_cut_ncovered (K : fctx) f q fs : fI K ≠ ∅ → same_cut (size (fI K)) f q →
  ∃ x, fdiv (ncovered K fs) (Z.of_nat (size (fI K))) = Ok x ∧
    SFltb x f = qltb (qdiv (ncovered K fs) (Z.of_nat (size (fI K)))) q.
Proof.
  intros HI Hc. assert (size (fI K) ≠ 0) as Hn by (intros E; apply size_empty_inv in E; set_solver).
  destruct (fdiv_spec _ (Z.of_nat (size (fI K))) (ncovered_bounds K fs) ltac:(lia)) as (x & E & _). exists x. split; [done|].
  apply Hc; [apply ncovered_bounds|done].
Qed.
(** Any fidelity which is a float.  A factor is yielded as long as the quotient of covered
    and all crosses is below the fidelity. *)
Theorem C110_algorithm2 c ord f : good c → (∀ k i X, ord k i X ≡ₚ elements X) → fI (abs c) ≠ ∅ → pyfloat f →
  let n := Z.of_nat (size (fI (abs c))) in
  ∃ ys r, falgorithm2 c ord f = (ys, r) ∧
    (∀ i y, ys !! i = Some y → let before := map fst (take i ys) in
      is_concept (abs c) y.1.1 y.1.2 ∧ gain (abs c) before y.1 ≠ ∅ ∧
      nearest (frac (Z.of_nat (size (gain (abs c) before y.1))) n) y.2 ∧
      (∀ m, m ∈ atts c → m ∉ y.1.2 →
        size (gain (abs c) before (down (abs c) (y.1.2 ∪ {[m]}), up (abs c) (down (abs c) (y.1.2 ∪ {[m]}))))
        ≤ size (gain (abs c) before y.1)) ∧
      ∃ x, fdiv (ncovered (abs c) before) n = Ok x ∧ SFltb x f = true) ∧
    (SFltb fone f = false → r = Ok tt ∧ ∃ x, fdiv (ncovered (abs c) (map fst ys)) n = Ok x ∧ SFltb x f = false) ∧
    (SFltb fone f = true → r = Err AssertionError ∧ uncovered (abs c) (map fst ys) = ∅).
Proof.
  intros Hg Hord HI Hf n. destruct (threshold (size (fI (abs c))) f (crosses_pos c HI) Hf) as (q & Hcut & Hq).
  destruct (algorithm2_spec c ord q Hg Hord HI) as (ys0 & r0 & E0 & H1 & _ & H3 & H4).
  destruct (falgorithm2_sim c ord Hg HI f q Hcut) as [Er Hd]. rewrite E0 in Er, Hd. cbn [fst snd] in Er, Hd.
  destruct (falgorithm2 c ord f) as [ys r]. cbn [fst snd] in Er, Hd. subst r0. exists ys, r. split; [done|].
  pose proof (drel_keys _ _ Hd) as Hk. split; [|split].
  - intros i y Hy before. destruct (Forall2_lookup_r _ _ _ i y Hd Hy) as (y0 & Hy0 & Ey & Hr).
    assert (before = map fst (take i ys0)) as Eb.
    { unfold before. by rewrite <- !firstn_map, Hk. }
    destruct (H1 i y0 Hy0) as (G1 & G2 & G3 & G4 & G5). rewrite <- Eb, Ey in *.
    split; [done|]. split; [done|]. split; [|split].
    + rewrite G3 in Hr. exact (rounded_nearest _ _ Hr).
    + intros m Hm. apply G4. by apply elem_of_list_to_set.
    + destruct (same_cut_ncovered (abs c) f q before HI Hcut) as (x & Ex & Hx). exists x. split; [done|].
      rewrite Hx. by apply qltb_spec.
  - intros H. apply Hq in H. destruct (H3 H) as [-> Hle]. split; [done|].
    destruct (same_cut_ncovered (abs c) f q (map fst ys) HI Hcut) as (x & Ex & Hx). exists x. split; [done|].
    rewrite Hx, Hk. by apply qltb_false.
  - intros H. rewrite Hk. apply H4. apply Qcnot_le_lt. intros Hle. apply Hq in Hle. congruence.
Qed.
Print Assumptions C110_algorithm2.
(** A fidelity [p / q]: the loop stops at the first factor with which the exact fraction
    of covered crosses reaches the exact fraction [p / q]. *)
Theorem C110_literal c ord p q f : good c → (∀ k i X, ord k i X ≡ₚ elements X) → fI (abs c) ≠ ∅ →
  let n := Z.of_nat (size (fI (abs c))) in
  (0 <= p <= q)%Z → (0 < q)%Z → fdiv p q = Ok f → (n * q < 2 ^ 53)%Z →
  ∃ ys, falgorithm2 c ord f = (ys, Ok tt) ∧
    map fst ys = map fst (algorithm2 c ord (frac p q)).1 ∧
    (∀ i, i < length ys → (ncovered (abs c) (map fst (take i ys)) * q < p * n)%Z) ∧
    (p * n <= ncovered (abs c) (map fst ys) * q)%Z.
Proof.
  intros Hg Hord HI n Hpq Hq Ef Hb. pose proof (crosses_pos c HI) as Hn.
  pose proof (literal_cut (size (fI (abs c))) f p q Hn Hpq Hq Hb Ef) as Hcut.
  destruct (algorithm2_spec c ord (qdiv p q) Hg Hord HI) as (ys0 & r0 & E0 & H1 & _ & H3 & _).
  destruct (falgorithm2_sim c ord Hg HI f (qdiv p q) Hcut) as [Er Hd]. rewrite E0 in Er, Hd.
  change (frac p q) with (qdiv p q). rewrite E0. cbn [fst snd] in *.
  destruct (falgorithm2 c ord f) as [ys r]. cbn [fst snd] in Er, Hd. subst r0.
  pose proof (drel_keys _ _ Hd) as Hk. destruct (H3 (proj2 (qdiv_unit p q Hpq Hq))) as [-> Hle].
  exists ys. split; [done|]. split; [done|]. split.
  - intros i [y0 Hy0]%lookup_lt_is_Some_2. destruct (Forall2_lookup_r _ _ _ i y0 Hd Hy0) as (z0 & Hz0 & _).
    destruct (H1 i z0 Hz0) as (_ & _ & _ & _ & G5). rewrite <- firstn_map, Hk, firstn_map.
    rewrite frac_lt in G5; [exact G5|lia|lia].
  - rewrite Hk. rewrite frac_le in Hle; [exact Hle|lia|lia].
Qed.
Print Assumptions C110_literal.
(** The default fidelity 1: all crosses are covered, if there are fewer than 2^53. *)
Theorem C110_default c ord : good c → (∀ k i X, ord k i X ≡ₚ elements X) →
  (fI (abs c) = ∅ → falgorithm2 c ord fone = ([], Err ZeroDivisionError)) ∧
  (fI (abs c) ≠ ∅ → (Z.of_nat (size (fI (abs c))) < 2 ^ 53)%Z →
   ∃ ys, falgorithm2 c ord fone = (ys, Ok tt) ∧
     ∀ g m, incident c g m ↔ ∃ y, y ∈ ys ∧ g ∈ y.1.1 ∧ m ∈ y.1.2).
Proof.
  intros Hg Hord. split.
  - intros HI. unfold falgorithm2. destruct (fI_pairs c Hg) as (l & -> & ->). by rewrite HI.
  - intros HI Hb. destruct (C110_literal c ord 1 1 fone Hg Hord HI) as (ys & E & Hk & _); [lia|lia|by vm_compute|lia|].
    exists ys. split; [done|]. destruct (proj2 (C42_algorithm2 c ord Hg Hord) HI) as (ys0 & E0 & _ & H0 & _).
    change (frac 1 1) with (qdiv 1 1) in Hk. rewrite qdiv_self, E0 in Hk by done. cbn [fst] in Hk.
    intros g m. rewrite H0. split; intros (y & Hy & H).
    + apply (elem_of_list_fmap_1 fst) in Hy. change (fst <$> ys0) with (map fst ys0) in Hy. rewrite <- Hk in Hy.
      apply elem_of_list_fmap in Hy as (z & Ez & Hz). exists z. by rewrite <- Ez.
    + apply (elem_of_list_fmap_1 fst) in Hy. change (fst <$> ys) with (map fst ys) in Hy. rewrite Hk in Hy.
      apply elem_of_list_fmap in Hy as (z & Ez & Hz). exists z. by rewrite <- Ez.
Qed.
Print Assumptions C110_default.
(** Fidelity 3/5 is reached by the first factor, which covers 3 of 5 crosses; 0.5 and 1 as in C42 and C43. *)
Example C110_case : good ex ∧ fI (abs ex) ≠ ∅ ∧ fdiv 3 5 = Ok f35 ∧ (Z.of_nat (size (fI (abs ex))) * 5 < 2 ^ 53)%Z ∧ SFltb fone f35 = false ∧
  falgorithm2 ex ord_el f35 = ([(({[o1; o2; o3]}, {[sa]}), f35)], Ok tt) ∧
  map fst (falgorithm2 ex ord_el fone).1 = [({[o1; o2; o3]}, {[sa]}); ({[o1]}, {[sa; sb]}); ({[o2]}, {[sa; sc]})] ∧
  (falgorithm2 ex ord_el (S754_infinity false)).2 = Err AssertionError ∧ falgorithm2 ex ord_el S754_nan = ([], Ok tt).
Proof.
  split; [exact ex_good|]. split; [dec|]. split; [by vm_compute|]. split; [by vm_compute|]. split; [by vm_compute|].
  split; [dec|]. split; [dec|]. split; by vm_compute.
Qed.

(** ** C111: algorithm2_w_condition with a float fidelity *)
Lemma wrel_keys d e : wrel d e → map fst (map fst e) = map fst (map fst d).
Proof. induction 1 as [|p q d f [E _] H IH]; [done|]. simpl. by rewrite E, IH. Qed.
Theorem C111_w_condition c ord allow mn ge f : good c → (∀ k i X, ord k i X ≡ₚ elements X) → pyfloat f →
  let n := Z.of_nat (size (fI (abs c))) in
  (fI (abs c) = ∅ → falgorithm2_w_condition c ord allow mn ge f = ([], Ok tt)) ∧
  (fI (abs c) ≠ ∅ →
   ∃ ys r, falgorithm2_w_condition c ord allow mn ge f = (ys, r) ∧
    (r = Ok tt ∨ r = Err (UserException 239) ∧ ¬ (mn ≤ 1 ∧ ge = false)%Z) ∧
    uncovered (abs c) (map fst (map fst ys)) ≠ ∅ ∧
    ∀ i A B v w, ys !! i = Some ((A, B), v, w) → let before := map fst (map fst (take i ys)) in
      is_concept (abs c) A B ∧
      (mn ≤ Z.of_nat (size A) ∧ mn ≤ Z.of_nat (size B))%Z ∧ (ge = true → size B ≤ size A) ∧
      (** the quotient of covered and all crosses is at most what is reported *)
      (∃ x, fdiv (ncovered (abs c) (before ++ [(A, B)])) n = Ok x ∧ SFleb x w = true) ∧
      (allow = true → gain (abs c) before (A, B) ≠ ∅) ∧
      (allow = false → ∃ m, m ∈ B ∧ ∀ h, h ∈ before → m ∉ h.2) ∧
      (allow = true → (mn ≤ 1)%Z → ge = false →
        nearest (frac (Z.of_nat (size (gain (abs c) before (A, B)))) n) v ∧
        nearest (frac (ncovered (abs c) (before ++ [(A, B)])) n) w)).
Proof.
  intros Hg Hord Hf n. split.
  - intros HI. unfold falgorithm2_w_condition. destruct (fI_pairs c Hg) as (l & -> & ->). by rewrite HI.
  - intros HI. destruct (threshold (size (fI (abs c))) f (crosses_pos c HI) Hf) as (q & Hcut & _).
    destruct (wcond_full c ord allow mn ge q Hg Hord HI) as (ys0 & r0 & E0 & H1 & H2 & H3).
    destruct (fwcond_sim c ord Hg HI allow mn ge f q Hcut) as [Er Hd]. rewrite E0 in Er, Hd. cbn [fst snd] in Er, Hd.
    destruct (falgorithm2_w_condition c ord allow mn ge f) as [ys r]. cbn [fst snd] in Er, Hd. subst r0. exists ys, r.
    pose proof (wrel_keys _ _ Hd) as Hk. split; [done|]. split; [done|]. split; [by rewrite Hk|].
    intros i A B v w Hy before. destruct (Forall2_lookup_r _ _ _ i _ Hd Hy) as ([[[A0 B0] v0] w0] & Hy0 & Ey & Hv & Hw).
    cbn [fst snd] in Ey, Hv, Hw. injection Ey as -> ->.
    assert (before = map fst (map fst (take i ys0))) as Eb.
    { unfold before. by rewrite <- !firstn_map, Hk. }
    destruct (H3 i A B v0 w0 Hy0) as (G1 & G2 & G3 & G4 & G5 & G6 & G7). rewrite <- Eb in *.
    split; [done|]. split; [done|]. split; [done|]. split; [|split; [done|split; [done|]]].
    + destruct (fdiv_spec _ n (ncovered_bounds (abs c) (before ++ [(A, B)]))) as (x & Ex & Hx).
      { pose proof (crosses_pos c HI). lia. }
      exists x. split; [done|]. exact (rounded_le _ _ _ _ Hx Hw G4).
    + intros H4 H5 H6. destruct (G7 H4 H5 H6) as [-> ->]. split; [exact (rounded_nearest _ _ Hv)|exact (rounded_nearest _ _ Hw)].
Qed.
Print Assumptions C111_w_condition.
Theorem C111_literal c ord allow mn ge p q f : good c → (∀ k i X, ord k i X ≡ₚ elements X) → fI (abs c) ≠ ∅ →
  (0 <= p <= q)%Z → (0 < q)%Z → fdiv p q = Ok f → (Z.of_nat (size (fI (abs c))) * q < 2 ^ 53)%Z →
  (falgorithm2_w_condition c ord allow mn ge f).2 = (algorithm2_w_condition c ord allow mn ge (frac p q)).2 ∧
  Forall2 (λ x y, x.1.1 = y.1.1 ∧ nearest y.1.2 x.1.2 ∧ nearest y.2 x.2)
    (falgorithm2_w_condition c ord allow mn ge f).1 (algorithm2_w_condition c ord allow mn ge (frac p q)).1.
Proof.
  intros Hg Hord HI Hpq Hq Ef Hb.
  pose proof (literal_cut (size (fI (abs c))) f p q (crosses_pos c HI) Hpq Hq Hb Ef) as Hcut.
  destruct (fwcond_sim c ord Hg HI allow mn ge f (qdiv p q) Hcut) as [Er Hd]. split; [exact Er|].
  apply Forall2_flip. eapply Forall2_impl; [exact Hd|]. intros x y (H1 & H2 & H3). unfold flip. split; [done|].
  split; by apply rounded_nearest.
Qed.
Print Assumptions C111_literal.
Definition f15 : spec_float := S754_finite false 7205759403792794 (-55).
Definition f45 : spec_float := S754_finite false 7205759403792794 (-53).
Example C111_case : fdiv 1 5 = Ok f15 ∧ fdiv 4 5 = Ok f45 ∧ (Z.of_nat (size (fI (abs ex))) * 1 < 2 ^ 53)%Z ∧ fdiv 1 1 = Ok fone ∧
  falgorithm2_w_condition ex ord_el true 1 false fone =
    ([(({[o1; o2; o3]}, {[sa]}), f35, f35); (({[o1]}, {[sa; sb]}), f15, f45)], Ok tt).
Proof. split; [by vm_compute|]. split; [by vm_compute|]. split; [by vm_compute|]. split; [by vm_compute|]. dec. Qed.
