(** * The float indices of a lattice, filtering by them, and the factorisations *)
From Coq Require Import ZArith Reals QArith Qreals Qcanon Lra Floats.SpecFloat.
From Flocq Require Import Core.Core.
From Verif Require Import FloatSpec FloatReal.
From Verif Require Import Py PyFacts Spec SpecFacts ContextModel ContextSpec ContextOps ContextFacts ContextInit ContextFinal
  LatticeSpec LatticeModel NorrisFacts LatticeFacts FilterModel FilterFacts FilterFacts2
  FactorSpec FactorModel FactorFacts FactorFacts2 FactorFacts3 FloatModel FloatFacts.
Local Open Scope nat_scope.

Lemma NoDup_keys_stab_loop ltu side pop : ∀ fuel k cs subsets count W st st',
  stab_loop ltu side pop fuel k cs subsets count W st = Ok st' → NoDup (map fst st) → NoDup (map fst st').
Proof.
  induction fuel as [|fuel IH]; intros k cs subsets count W st st' E Hnd.
  { destruct cs; [|done]. by injection E as <-. }
  destruct cs as [|c0 cs]; [by injection E as <-|]. cbn [stab_loop] in E. destruct (decide (W = ∅)); [done|].
  destruct (dget _ subsets) as [sb|]; [|done]. cbn [get_or mbind res_bind] in E.
  destruct (list_remove _ _) as [cs'|]; [|done]. cbn [mbind res_bind] in E.
  destruct (stab_upd _ _ _ _ _ _) as [r|]; [|done]. cbn [mbind res_bind] in E. eapply IH; [exact E|].
  by apply NoDup_keys_dset.
Qed.
Lemma NoDup_keys_stab ltc ltu side pop first cs st : stab ltc ltu side pop first cs = Ok st → NoDup (map fst st).
Proof.
  unfold stab. destruct (forallb chash cs); [|done]. destruct (first cs); [|done]. cbn [mbind res_bind].
  intros E. eapply NoDup_keys_stab_loop; [exact E|]. constructor.
Qed.
Lemma NoDup_keys_index f cs d : index_of f cs = Ok d → NoDup (map fst d).
Proof. unfold index_of. destruct (mapM _ cs); [|done]. cbn [mbind res_bind]. intros [= <-]. apply NoDup_keys_dict_of. Qed.

Lemma card_le_pow P n (X : gset name) : is_card P n → (∀ S, P S → S ⊆ X) → (Z.of_nat n ≤ 2 ^ Z.of_nat (size X))%Z.
Proof.
  intros (l & H1 & H2 & <-) H. change (size X) with (length (elements X)). rewrite <- length_subs_l.
  apply inj_le, submseteq_length, NoDup_submseteq; [done|]. intros S HS. apply elem_of_subs_l.
  rewrite list_to_set_elements_L. by apply H, H2.
Qed.
Lemma card_pos P n S : is_card P n → P S → 0 < n.
Proof. intros (l & H1 & H2 & <-) H%H2. destruct l; [by apply elem_of_nil in H|simpl; lia]. Qed.
Lemma rounded_pos a k x : (0 < a)%Z → (0 <= k <= 1074)%Z → rounded (qdiv a (2 ^ k)) x → SFltb (S754_zero false) x = true.
Proof.
  intros Ha Hk [H1 H2]. apply (SFltb_value (S754_zero false) x 0 _ I H1 eq_refl H2). rewrite Q2R_qdiv by lia.
  apply (rnd_pos k); [done|]. assert (1 <= IZR a)%R as H by (apply IZR_le; lia).
  assert (0 < / IZR (2 ^ k))%R as Hi by (apply Rinv_0_lt_compat, IZR_lt; lia).
  unfold Rdiv. rewrite <- (Rmult_1_l (/ _)) at 1. apply Rmult_le_compat_r; [lra|done].
Qed.

Lemma is_card_unique (P : gset name → Prop) n n' : is_card P n → is_card P n' → n = n'.
Proof.
  intros (l & H1 & H2 & <-) (l' & H1' & H2' & <-).
  assert (l ≡ₚ l') as ->; [|done]. apply NoDup_Permutation; [done..|]. intros S. by rewrite H2, H2'.
Qed.
Lemma SFleb_up opt p q x y : pyfloat opt → rounded p x → rounded q y → (p <= q)%Qc → SFleb opt x = true → SFleb opt y = true.
Proof.
  intros Ho [Hx Hx'] [Hy Hy'] Hpq. destruct (fvalue opt) as [r|] eqn:E.
  - rewrite (SFleb_value _ _ _ _ Ho Hx E Hx'), (SFleb_value _ _ _ _ Ho Hy E Hy'). intros H.
    eapply Rle_trans; [exact H|]. apply rnd_le. by apply Q2R_le.
  - destruct opt, x, y; simpl in *; try discriminate; done.
Qed.

Section lat.
  Context (c : context) (Hg : good c) (Ho : comparable (objs c) = true) (Ha : comparable (atts c) = true).
  Context (l : lattice) (Hl : mk_lattice c = Ok l).
  Notation K := (abs c).

  (** A float dictionary with one entry per concept, the rounded [num/den]. *)
  Definition float_index (d : list (fconcept * spec_float)) (num den : gset name → gset name → Z → Prop) : Prop :=
    NoDup (map fst d) ∧ (∀ x, x ∈ map fst d ↔ is_concept K x.1 x.2) ∧
    (∀ A B z z', num A B z → num A B z' → z = z') ∧ (∀ A B z z', den A B z → den A B z' → z = z') ∧
    ∀ A B, is_concept K A B → ∃ a b y, num A B a ∧ den A B b ∧ (0 <= a <= b)%Z ∧ (0 < b)%Z ∧
      dget (A, B) d = Some y ∧ rounded (qdiv a b) y.

  Lemma istability_float pop : (∀ k W, W ≠ ∅ → pop k W ∈ W) →
    ∃ d, fcompute_istability pop (lconcepts l) = Ok d ∧
      float_index d (λ A B a, ∃ n, is_card (λ S, S ⊆ A ∧ up K S = B) n ∧ a = Z.of_nat n)
        (λ A B b, b = 2 ^ Z.of_nat (size A))%Z.
  Proof.
    intros Hpop. destruct (lattice_spec c Hg Ho Ha l Hl) as (_ & Hnd & Hcs & _).
    destruct (istability_spec c Hg Ho Ha (lconcepts l) Hnd Hcs pop Hpop) as (st & H1 & H2 & H3).
    assert (∀ A B n, is_card (λ S, S ⊆ A ∧ up K S = B) n → (Z.of_nat n ≤ 2 ^ Z.of_nat (size A))%Z) as Hle.
    { intros A B n Hn. eapply card_le_pow; [exact Hn|]. by intros S [? _]. }
    assert (NoDup (map fst st)) as Hk by (by eapply NoDup_keys_stab).
    unfold compute_istability in H1. eapply fstab_sim in H1 as (d & E & Hd); [|done|].
    2: { intros [A B] v Hv. pose proof (proj1 (dget_is_Some _ _) (mk_is_Some _ _ Hv)) as Hx.
         destruct (H3 A B (H2 _ Hx)) as (n & Hn & Hv'). rewrite Hv in Hv'. injection Hv' as ->.
         apply qdiv_unit; [|lia]. specialize (Hle A B n Hn). lia. }
    exists d. split; [exact E|]. unfold float_index. rewrite (drel_keys _ _ Hd). split; [done|]. split_and!.
    - intros [A B]. split; [intros Hx; apply Hcs; by apply H2|]. intros Hx%Hcs. apply H3 in Hx as (n & _ & Hv).
      apply dget_is_Some. by eexists.
    - intros A B z z' (n & Hn & ->) (n' & Hn' & ->). by rewrite (is_card_unique _ _ _ Hn Hn').
    - by intros A B z z' -> ->.
    - intros A B Hx%Hcs. apply H3 in Hx as (n & Hn & Hv). destruct (drel_dget _ _ _ Hd _ Hv) as (y & Ey & Hy).
      exists (Z.of_nat n), (2 ^ Z.of_nat (size A))%Z, y. split; [by exists n|]. specialize (Hle A B n Hn).
      split_and!; try done; lia.
  Qed.
  Lemma estability_float pop : (∀ k W, W ≠ ∅ → pop k W ∈ W) →
    ∃ d, fcompute_estability pop (lconcepts l) = Ok d ∧
      float_index d (λ A B a, ∃ n, is_card (λ T, T ⊆ B ∧ down K T = A) n ∧ a = Z.of_nat n)
        (λ A B b, b = 2 ^ Z.of_nat (size B))%Z.
  Proof.
    intros Hpop. destruct (lattice_spec c Hg Ho Ha l Hl) as (_ & Hnd & Hcs & _).
    destruct (estability_spec c Ho Ha (lconcepts l) Hnd Hcs pop Hpop) as (st & H1 & H2 & H3).
    assert (∀ A B n, is_card (λ T, T ⊆ B ∧ down K T = A) n → (Z.of_nat n ≤ 2 ^ Z.of_nat (size B))%Z) as Hle.
    { intros A B n Hn. eapply card_le_pow; [exact Hn|]. by intros S [? _]. }
    assert (NoDup (map fst st)) as Hk by (by eapply NoDup_keys_stab).
    unfold compute_estability in H1. eapply fstab_sim in H1 as (d & E & Hd); [|done|].
    2: { intros [A B] v Hv. pose proof (proj1 (dget_is_Some _ _) (mk_is_Some _ _ Hv)) as Hx.
         destruct (H3 A B (H2 _ Hx)) as (n & Hn & Hv'). rewrite Hv in Hv'. injection Hv' as ->.
         apply qdiv_unit; [|lia]. specialize (Hle A B n Hn). lia. }
    exists d. split; [exact E|]. unfold float_index. rewrite (drel_keys _ _ Hd). split; [done|]. split_and!.
    - intros [A B]. split; [intros Hx; apply Hcs; by apply H2|]. intros Hx%Hcs. apply H3 in Hx as (n & _ & Hv).
      apply dget_is_Some. by eexists.
    - intros A B z z' (n & Hn & ->) (n' & Hn' & ->). by rewrite (is_card_unique _ _ _ Hn Hn').
    - by intros A B z z' -> ->.
    - intros A B Hx%Hcs. apply H3 in Hx as (n & Hn & Hv). destruct (drel_dget _ _ _ Hd _ Hv) as (y & Ey & Hy).
      exists (Z.of_nat n), (2 ^ Z.of_nat (size B))%Z, y. split; [by exists n|]. specialize (Hle A B n Hn).
      split_and!; try done; lia.
  Qed.

  (** A loop over the concepts. *)
  Lemma index_float f g (a b : gset name → gset name → Z) :
    (∀ A B, is_concept K A B → f (A, B) = Ok (qdiv (a A B) (b A B)) ∧ (0 <= a A B <= b A B)%Z ∧ (0 < b A B)%Z ∧
      ∃ y, g (A, B) = Ok y ∧ rounded (qdiv (a A B) (b A B)) y) →
    ∃ d, findex_of g (lconcepts l) = Ok d ∧ float_index d (λ A B z, z = a A B) (λ A B z, z = b A B).
  Proof.
    intros H. destruct (lattice_spec c Hg Ho Ha l Hl) as (_ & Hnd & Hcs & _).
    destruct (index_of_spec f (lconcepts l) (λ x, qdiv (a x.1 x.2) (b x.1 x.2))) as (d & H1 & H2 & H3).
    { intros [A B] Hx. exact (concept_hash c Ho Ha A B (proj1 (Hcs A B) Hx)). }
    { intros [A B] Hx%Hcs. by apply H. }
    assert (NoDup (map fst d)) as Hk by (by eapply NoDup_keys_index).
    destruct (findex_of_sim f g _ _ H1) as (e & E & He).
    { intros [A B] v Hx%Hcs Ev. destruct (H A B Hx) as (Ef & _ & _ & y & Ey & Hy). exists y. split; [done|].
      rewrite Ef in Ev. by injection Ev as <-. }
    exists e. split; [done|]. unfold float_index. rewrite (drel_keys _ _ He). split; [done|]. split_and!.
    - intros [A B]. rewrite H2. apply Hcs.
    - by intros A B z z' -> ->.
    - by intros A B z z' -> ->.
    - intros A B Hx. destruct (H A B Hx) as (_ & Hr & Hp & _). apply Hcs in Hx.
      destruct (drel_dget _ _ _ He _ (H3 _ Hx)) as (y & Ey & Hy). exists (a A B), (b A B), y.
      split; [done|]. split; [done|]. split; [exact Hr|]. split; [exact Hp|]. split; [exact Ey|exact Hy].
  Qed.
  Lemma separation_crossed_spec A B : objs c ≠ [] → is_concept K A B →
    separation_crossed c (A, B) = Ok (Z.of_nat (size (crosses K A B))).
  Proof.
    intros Hne Hc. pose proof Hc as (HA & HB & _). unfold separation_crossed. cbn [fst snd].
    assert (np c ≠ []) as Hnp.
    { intros E. apply Hne. pose proof (wf_rows c (good_wf c Hg)) as Hr. rewrite E in Hr. by destruct (objs c). }
    rewrite (mapM_Ok_map (λ m, e ← get_attribute_extent c m; Ok (Z.of_nat (size e))) (λ m, Z.of_nat (size (down K {[m]})))).
    2: { intros m Hm%elem_of_elements. rewrite (get_attribute_extent_spec c Hg); [done|done|].
         apply HB in Hm. by apply elem_of_list_to_set in Hm. }
    cbn [mbind res_bind]. rewrite (mapM_Ok_map _ (λ g, Z.of_nat (size (up K {[g]})))).
    2: { intros g Hgg%elem_of_elements. rewrite (get_object_intent_spec c Hg); [done|].
         apply HA in Hgg. by apply elem_of_list_to_set in Hgg. }
    cbn [mbind res_bind]. by rewrite <-(crosses_size c A B Hc).
  Qed.
  Lemma crosses_bounds A B : is_concept K A B → ¬ (A = ∅ ∨ B = ∅) → 0 < size A * size B ≤ size (crosses K A B).
  Proof.
    intros Hc HE.
    assert (size A ≠ 0 ∧ size B ≠ 0) as [HA0 HB0] by (split; intros E%size_empty_inv; apply HE; [left|right]; by fold_leibniz).
    split; [lia|]. rewrite Nat.mul_comm, <- (rect_size c A B Hc). apply subseteq_size. intros p. unfold crosses.
    rewrite !elem_of_filter. tauto.
  Qed.
  Lemma separation_float : objs c ≠ [] →
    ∃ d, fcompute_separation_index l = Ok d ∧
      float_index d (λ A B z, z = if decide (A = ∅ ∨ B = ∅) then 1 else Z.of_nat (size A * size B))%Z
        (λ A B z, z = if decide (A = ∅ ∨ B = ∅) then 1 else Z.of_nat (size (crosses K A B)))%Z.
  Proof.
    intros Hne. destruct (lattice_spec c Hg Ho Ha l Hl) as (Hc & _). unfold fcompute_separation_index. rewrite Hc.
    apply (index_float (separation_one c)). intros A B Hx. rewrite (separation_one_spec c Hg A B Hne Hx).
    unfold fseparation_one. rewrite (separation_crossed_spec A B Hne Hx). cbn [mbind res_bind fst snd].
    destruct (decide (A = ∅ ∨ B = ∅)) as [He|He].
    - split; [f_equal; by rewrite qdiv_self|]. split; [lia|]. split; [lia|].
      assert (size B * size A = 0) as E by (destruct He as [-> | ->]; rewrite size_empty; lia).
      rewrite decide_True by by rewrite E. exists fone. split; [done|]. rewrite qdiv_self by done. apply fone_rounded.
    - pose proof (crosses_bounds A B Hx He) as Hb. split; [done|]. split; [lia|]. split; [lia|].
      rewrite decide_False by lia. rewrite (Nat.mul_comm (size B)). apply fdiv_spec; lia.
  Qed.
  Lemma extent_size_float : objs c ≠ [] →
    ∃ d, fcompute_extent_size l = Ok d ∧
      float_index d (λ A B z, z = Z.of_nat (size A)) (λ A B z, z = Z.of_nat (length (objs c))).
  Proof.
    intros Hne. destruct (lattice_spec c Hg Ho Ha l Hl) as (Hc & _). unfold fcompute_extent_size. rewrite Hc.
    apply (index_float (λ x, size_ratio (length (objs c)) x.1)). intros A B (HA & _). unfold size_ratio, fsize_ratio. cbn [fst].
    rewrite decide_False by by destruct (objs c).
    assert (0 < length (objs c)) by (destruct (objs c); [done|simpl; lia]).
    assert (size A ≤ length (objs c)) as Hle.
    { apply subseteq_size in HA. rewrite HA. change (size (list_to_set (objs c) : gset name) ≤ length (objs c)). by rewrite size_list_to_set by apply Hg. }
    split; [done|]. split; [lia|]. split; [lia|]. apply fdiv_spec; lia.
  Qed.
  Lemma intent_size_float : atts c ≠ [] →
    ∃ d, fcompute_intent_size l = Ok d ∧
      float_index d (λ A B z, z = Z.of_nat (size B)) (λ A B z, z = Z.of_nat (length (atts c))).
  Proof.
    intros Hne. destruct (lattice_spec c Hg Ho Ha l Hl) as (Hc & _). unfold fcompute_intent_size. rewrite Hc.
    apply (index_float (λ x, size_ratio (length (atts c)) x.2)). intros A B (_ & HB & _). unfold size_ratio, fsize_ratio. cbn [snd].
    rewrite decide_False by by destruct (atts c).
    assert (0 < length (atts c)) by (destruct (atts c); [done|simpl; lia]).
    assert (size B ≤ length (atts c)) as Hle.
    { apply subseteq_size in HB. rewrite HB. change (size (list_to_set (atts c) : gset name) ≤ length (atts c)). by rewrite size_list_to_set by apply Hg. }
    split; [done|]. split; [lia|]. split; [lia|]. apply fdiv_spec; lia.
  Qed.
  Lemma sizes_float_err : (objs c = [] → fcompute_extent_size l = Err ZeroDivisionError) ∧
    (atts c = [] → fcompute_intent_size l = Err ZeroDivisionError).
  Proof.
    destruct (lattice_spec c Hg Ho Ha l Hl) as (Hc & _ & Hcs & _).
    pose proof (proj2 (Hcs _ _) (top_concept K)) as Hne. unfold fcompute_extent_size, fcompute_intent_size, findex_of. rewrite Hc.
    destruct (lconcepts l) as [|x cs]; [by apply elem_of_nil in Hne|].
    split; intros ->; reflexivity.
  Qed.

  (** ** Filtering *)
  Lemma dget_kept (d : list (fconcept * spec_float)) opt x : NoDup (map fst d) →
    x ∈ map fst (List.filter (λ p, fge p.2 opt) d) ↔ ∃ y, dget x d = Some y ∧ SFleb opt y = true.
  Proof.
    intros Hnd. split.
    - intros (p & -> & Hp)%elem_of_list_fmap. apply elem_of_list_In, List.filter_In in Hp as [Hp Hge].
      apply elem_of_list_In in Hp. exists p.2. split; [|done]. apply elem_of_dget; [done|]. by destruct p.
    - intros (y & Hy & Hle). apply elem_of_list_fmap. exists (x, y). split; [done|]. apply elem_of_list_In, List.filter_In.
      split; [apply elem_of_list_In; by apply dget_Some_elem|done].
  Qed.
  Lemma float_index_not_nil d num den : float_index d num den → d ≠ [].
  Proof.
    intros (_ & H & _) ->. clear -H. assert ((fG K, up K (fG K)) ∈ map fst ([] : list (fconcept * spec_float))) as Hx
      by apply H, top_concept. by apply elem_of_nil in Hx.
  Qed.
  Lemma filter_float d (num den : gset name → gset name → Z → Prop) p q opt : float_index d num den →
    (0 <= p <= q)%Z → (0 < q)%Z → fdiv p q = Ok opt →
    (∀ A B b, is_concept K A B → den A B b → (b * q < 2 ^ 53)%Z) →
    ∃ s, ffilter_concepts d "value" opt = Ok s ∧
      ∀ A B, (A, B) ∈ sconcepts s ↔ ∃ a b, is_concept K A B ∧ num A B a ∧ den A B b ∧ (qdiv p q <= qdiv a b)%Qc.
  Proof.
    intros Hd Hp Hq Ho' Hb. pose proof (float_index_not_nil _ _ _ Hd) as Hne. destruct Hd as (Hnd & Hk & Hf1 & Hf2 & Hv).
    pose proof (fdiv_rounded _ _ _ Hp Hq Ho') as Hopt. unfold ffilter_concepts, filter_concepts.
    destruct d as [|p0 d]; [done|]. eexists. split; [reflexivity|]. intros A B. cbn [sconcepts mk_system].
    rewrite (dget_kept (p0 :: d) opt (A, B) Hnd). split.
    - intros (y & Hy & Hle). assert (is_concept K A B) as Hc.
      { apply (Hk (A, B)). apply dget_is_Some. by exists y. }
      destruct (Hv A B Hc) as (a & b & y' & Hna & Hnb & Hab & Hb0 & Ey & Hr). rewrite Ey in Hy.
      injection Hy as ->. exists a, b. split; [done|]. split; [done|]. split; [done|].
      apply (rounded_leb p q a b opt y); try done. specialize (Hb A B b Hc Hnb). lia.
    - intros (a' & b' & Hc & Hna' & Hnb' & Hle). destruct (Hv A B Hc) as (a & b & y & Hna & Hnb & Hab & Hb0 & Ey & Hr).
      exists y. split; [done|]. rewrite (Hf1 _ _ _ _ Hna' Hna), (Hf2 _ _ _ _ Hnb' Hnb) in Hle. by eapply rounded_le.
  Qed.
  (** With any threshold, what is kept is closed under larger indices. *)
  Lemma filter_float_up d num den opt : float_index d num den → pyfloat opt →
    ∃ s, ffilter_concepts d "value" opt = Ok s ∧
      (∀ A B, (A, B) ∈ sconcepts s ↔ is_concept K A B ∧ ∃ y, dget (A, B) d = Some y ∧ SFleb opt y = true) ∧
      ∀ A B A' B' a b a' b', (A, B) ∈ sconcepts s → is_concept K A' B' →
        num A B a → den A B b → num A' B' a' → den A' B' b' → (qdiv a b <= qdiv a' b')%Qc → (A', B') ∈ sconcepts s.
  Proof.
    intros Hd Hopt. pose proof (float_index_not_nil _ _ _ Hd) as Hne. destruct Hd as (Hnd & Hk & Hf1 & Hf2 & Hv).
    unfold ffilter_concepts, filter_concepts.
    destruct d as [|p0 d]; [done|]. eexists. split; [reflexivity|]. cbn [sconcepts mk_system]. split.
    - intros A B. rewrite (dget_kept (p0 :: d) opt (A, B) Hnd). split; [|by intros [_ ?]].
      intros (y & Hy & Hle). split; [|by exists y]. apply (Hk (A, B)). apply dget_is_Some. by exists y.
    - intros A B A' B' a b a' b' H Hc' Ea Eb Ea' Eb' Hle. apply (dget_kept (p0 :: d) opt (A, B) Hnd) in H as (y & Hy & Hge).
      apply (dget_kept (p0 :: d) opt (A', B') Hnd).
      assert (is_concept K A B) as Hc. { apply (Hk (A, B)). apply dget_is_Some. by exists y. }
      destruct (Hv A B Hc) as (a1 & b1 & y1 & Hn1 & Hd1 & _ & _ & Ey1 & Hr1). rewrite Ey1 in Hy. injection Hy as ->.
      destruct (Hv A' B' Hc') as (a2 & b2 & y2 & Hn2 & Hd2 & _ & _ & Ey2 & Hr2). exists y2. split; [done|].
      rewrite (Hf1 _ _ _ _ Ea Hn1), (Hf2 _ _ _ _ Eb Hd1), (Hf1 _ _ _ _ Ea' Hn2), (Hf2 _ _ _ _ Eb' Hd2) in Hle.
      eapply SFleb_up; [exact Hopt|exact Hr1|exact Hr2|exact Hle|exact Hge].
  Qed.
End lat.
