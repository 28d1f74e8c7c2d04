From Coq Require Import QArith Qcanon.
From Verif Require Import Py PyFacts Spec SpecFacts ContextModel ContextSpec ContextFacts ContextInit ContextMisc LatticeModel FilterModel FactorSpec FactorModel FactorFacts FactorFacts2.

(** ** make_factor_cxts *)
Lemma prefix_lookup_Some (l k : list name) i x : l !! i = Some x → l `prefix_of` k → k !! i = Some x.
Proof. intros H [k' ->]. by apply lookup_app_l_Some. Qed.
Lemma el_ind_spec x ks i ks' : NoDup ks → el_ind x ks = (i, ks') →
  NoDup ks' ∧ ks `prefix_of` ks' ∧ ks' !! i = Some x ∧ ∀ y, y ∈ ks' ↔ y ∈ ks ∨ y = x.
Proof.
  intros Hk. unfold el_ind. destruct (py_index x ks) as [j|e] eqn:E; intros [= <- <-].
  - apply py_index_Ok in E. split; [done|]. split; [done|]. split; [done|].
    intros y. split; [by left|]. intros [?| ->]; [done|]. by eapply elem_of_list_lookup_2.
  - assert (x ∉ ks) as Hx. { intros H. destruct (py_index_Some x ks H) as [? ?]. congruence. }
    split; [|split; [|split]].
    + apply NoDup_app. split; [done|]. split; [set_solver|]. apply NoDup_singleton.
    + by exists [x].
    + rewrite lookup_app_r by lia. by rewrite Nat.sub_diag.
    + intros y. rewrite elem_of_app, elem_of_list_singleton. done.
Qed.
Lemma el_inds_spec l : ∀ ks s ks', NoDup ks → el_inds l ks = (s, ks') →
  NoDup ks' ∧ ks `prefix_of` ks' ∧ (∀ y, y ∈ ks' ↔ y ∈ ks ∨ y ∈ l) ∧
  ∀ i, i ∈ s ↔ ∃ x, x ∈ l ∧ ks' !! i = Some x.
Proof.
  induction l as [|x l IH]; intros ks s ks' Hk; cbn [el_inds].
  { intros [= <- <-]. set_solver. }
  destruct (el_ind x ks) as [i1 ks1] eqn:E1. destruct (el_inds l ks1) as [s2 ks2] eqn:E2. intros [= <- <-].
  destruct (el_ind_spec _ _ _ _ Hk E1) as (N1 & P1 & L1 & M1).
  destruct (IH _ _ _ N1 E2) as (N2 & P2 & M2 & S2).
  split; [done|]. split; [by etransitivity|]. split.
  { intros y. rewrite M2, M1, elem_of_cons. tauto. }
  intros i. rewrite elem_of_union, elem_of_singleton, S2. setoid_rewrite elem_of_cons.
  assert (ks2 !! i1 = Some x) as L2 by (by eapply prefix_lookup_Some). split.
  - intros [->|(y & ? & ?)]; [exists x; auto|exists y; auto].
  - intros (y & [->|?] & Hi); [left|right; eauto]. by eapply (NoDup_lookup ks2).
Qed.
Lemma factor_rows_spec ls : ∀ ks rows ks', NoDup ks → factor_rows ls ks = (rows, ks') →
  NoDup ks' ∧ ks `prefix_of` ks' ∧ (∀ y, y ∈ ks' ↔ y ∈ ks ∨ ∃ l, l ∈ ls ∧ y ∈ l) ∧ length rows = length ls ∧
  ∀ k l s i x, ls !! k = Some l → rows !! k = Some s → ks' !! i = Some x → (i ∈ s ↔ x ∈ l).
Proof.
  induction ls as [|l ls IH]; intros ks rows ks' Hk; cbn [factor_rows].
  { intros [= <- <-]. split; [done|]. split; [done|]. split; [set_solver|]. done. }
  destruct (el_inds l ks) as [s1 ks1] eqn:E1. destruct (factor_rows ls ks1) as [ss ks2] eqn:E2. intros [= <- <-].
  destruct (el_inds_spec _ _ _ _ Hk E1) as (N1 & P1 & M1 & S1).
  destruct (IH _ _ _ N1 E2) as (N2 & P2 & M2 & L2 & S2).
  split; [done|]. split; [by etransitivity|]. split.
  { intros y. rewrite M2, M1. setoid_rewrite elem_of_cons. split.
    - intros [[?|?]|(l' & ? & ?)]; [by left|right; exists l; auto|right; exists l'; auto].
    - intros [?|(l' & [->|?] & ?)]; [auto|auto|right; eauto]. }
  split; [simpl; by rewrite L2|].
  intros [|k] l' s i x Hl Hs Hi; simpl in Hl, Hs; [|by eapply S2].
  injection Hl as <-. injection Hs as <-. rewrite S1. split.
  - intros (y & Hy & Hyi). apply (prefix_lookup_Some _ _ _ _ Hyi) in P2. congruence.
  - intros Hx. exists x. split; [done|]. 
    pose proof (proj2 (M1 x) (or_intror Hx)) as [i' Hi']%elem_of_list_lookup.
      pose proof (prefix_lookup_Some _ _ _ _ Hi' P2). assert (i' = i) as -> by (by eapply (NoDup_lookup ks2)). done.
Qed.
Lemma member_table_length n rows : length (member_table n rows) = length rows.
Proof. apply map_length. Qed.
Lemma member_table_lookup n rows k s j : rows !! k = Some s → j < n →
  ∃ r, member_table n rows !! k = Some r ∧ r !! j = Some (bool_decide (j ∈ s)).
Proof.
  intros Hk Hj. exists (map (fun x => bool_decide (x ∈ s)) (seq 0 n)). split.
  - unfold member_table. by rewrite list_lookup_fmap, Hk.
  - rewrite list_lookup_fmap. by rewrite (proj2 (lookup_seq 0 n j j)).
Qed.
Lemma zip_star_length n t : t ≠ [] → length (zip_star n t) = n.
Proof. destruct t; [done|]. intros _. unfold zip_star. by rewrite map_length, seq_length. Qed.
Lemma zip_star_lookup n t j : j < n → t ≠ [] → zip_star n t !! j = Some (map (fun r => default false (r !! j)) t).
Proof.
  intros Hj Ht. unfold zip_star. destruct t as [|r t]; [done|]. rewrite list_lookup_fmap.
  by rewrite (proj2 (lookup_seq 0 n j j)).
Qed.
Lemma factor_names_NoDup n : NoDup (factor_names n).
Proof.
  unfold factor_names. apply NoDup_fmap_2; [|apply NoDup_seq].
  intros i j H. injection H as H. by apply (inj pretty) in H.
Qed.
Lemma factor_names_lookup n i : i < n → factor_names n !! i = Some (NStr ("f" ++ pretty i)).
Proof. intros H. unfold factor_names. rewrite list_lookup_fmap. by rewrite (proj2 (lookup_seq 0 n i i)). Qed.

Lemma make_factor_cxts_spec fs :
  ∃ l r, make_factor_cxts fs = Ok (l, r) ∧ good l ∧ good r ∧ atts l = objs r ∧ length (objs r) = length fs ∧
    (∀ x, x ∈ objs l ↔ ∃ f, f ∈ fs ∧ x ∈ f.1) ∧ (∀ x, x ∈ atts r ↔ ∃ f, f ∈ fs ∧ x ∈ f.2) ∧
    (∀ i f nm, fs !! i = Some f → atts l !! i = Some nm →
      nm = NStr ("f" ++ pretty i) ∧
      (∀ x, incident l x nm ↔ x ∈ f.1) ∧ (∀ x, incident r nm x ↔ x ∈ f.2)).
Proof.
  unfold make_factor_cxts.
  destruct (factor_rows (map fst fs) []) as [orows os] eqn:Eo.
  destruct (factor_rows (map snd fs) []) as [arows ats] eqn:Ea.
  destruct (factor_rows_spec _ _ _ _ (NoDup_nil_2) Eo) as (No & _ & Mo & Lo & So).
  destruct (factor_rows_spec _ _ _ _ (NoDup_nil_2) Ea) as (Na & _ & Ma & La & Sa).
  rewrite map_length in Lo, La.
  assert (∀ x, x ∈ os ↔ ∃ f, f ∈ fs ∧ x ∈ f.1) as Mo'.
  { intros x. rewrite Mo. split.
    - intros [?|(l & (f & -> & ?)%elem_of_list_fmap & ?)]; [set_solver|eauto].
    - intros (f & ? & ?). right. exists f.1. split; [|done]. apply elem_of_list_fmap. eauto. }
  assert (∀ x, x ∈ ats ↔ ∃ f, f ∈ fs ∧ x ∈ f.2) as Ma'.
  { intros x. rewrite Ma. split.
    - intros [?|(l & (f & -> & ?)%elem_of_list_fmap & ?)]; [set_solver|eauto].
    - intros (f & ? & ?). right. exists f.2. split; [|done]. apply elem_of_list_fmap. eauto. }
  set (names := factor_names (length fs)). assert (length names = length fs) as Ln.
  { unfold names, factor_names. by rewrite map_length, seq_length. }
  set (mo := member_table (length os) orows). set (ma := member_table (length ats) arows).
  assert (fs ≠ [] → mo ≠ []) as Hmo.
  { intros H E. apply (f_equal length) in E. unfold mo in E. rewrite member_table_length, Lo in E. destruct fs; done. }
  assert (fs = [] → os = []) as Hos.
  { intros ->. simpl in Eo. congruence. }
  assert (length (zip_star (length os) mo) = length os) as Lz.
  { destruct (decide (fs = [])) as [E|E]; [|by apply zip_star_length, Hmo].
    rewrite (Hos E). destruct mo; done. }
  destruct (mk_context_ok (zip_star (length os) mo) None os names) as [l Hl].
  { done. }
  { intros r [i Hi]%elem_of_list_lookup. pose proof (lookup_lt_Some _ _ _ Hi) as Hlt. rewrite Lz in Hlt.
    destruct (decide (fs = [])) as [E|E]; [rewrite (Hos E) in Hlt; simpl in Hlt; lia|].
    rewrite zip_star_lookup in Hi by auto. injection Hi as <-. unfold mo. rewrite map_length, member_table_length. lia. }
  destruct (mk_context_ok ma None names ats) as [r Hr].
  { unfold ma. rewrite member_table_length. lia. }
  { intros r [i Hi]%elem_of_list_lookup. unfold ma, member_table in Hi. rewrite list_lookup_fmap in Hi.
    destruct (arows !! i); [|done]. injection Hi as <-. by rewrite map_length, seq_length. }
  exists l, r. rewrite Hl. cbn [mbind res_bind]. rewrite Hr. split; [done|].
  destruct (mk_context_good _ _ _ _ _ Hl No (factor_names_NoDup _)) as (Gl & El1 & El2 & El3); [done|].
  destruct (mk_context_good _ _ _ _ _ Hr (factor_names_NoDup _) Na) as (Gr & Er1 & Er2 & Er3); [done|].
  split; [done|]. split; [done|]. split; [congruence|]. split; [by rewrite Er1|].
  split; [by rewrite El1|]. split; [by rewrite Er2|].
  intros k f nm Hf Hnm. pose proof (lookup_lt_Some _ _ _ Hf) as Hk.
  rewrite El2 in Hnm. unfold names in Hnm. rewrite factor_names_lookup in Hnm by done. injection Hnm as <-. split; [done|].
  assert (fs ≠ []) as Hne by (intros ->; done).
  destruct (lookup_lt_is_Some_2 orows k) as [so Hso]; [lia|].
  destruct (lookup_lt_is_Some_2 arows k) as [sa Hsa]; [lia|].
  assert (names !! k = Some (NStr ("f" ++ pretty k))) as Hnk by (by apply factor_names_lookup).
  split.
  - intros x. split.
    + intros (i & j & row & Hi & Hj & Hrow & Hb). rewrite El1 in Hi. rewrite El2 in Hj. rewrite El3 in Hrow.
      assert (j = k) as -> by (eapply (NoDup_lookup names); [apply factor_names_NoDup|done|done]).
      pose proof (lookup_lt_Some _ _ _ Hi) as Hilt.
      rewrite zip_star_lookup in Hrow by auto. injection Hrow as <-.
      destruct (member_table_lookup (length os) orows k so i Hso Hilt) as (r' & Hr' & Hb').
      fold mo in Hr'. rewrite list_lookup_fmap, Hr' in Hb. simpl in Hb. rewrite Hb' in Hb. injection Hb as Hb.
      apply bool_decide_eq_true in Hb.
      apply (So k f.1 so i x); [by rewrite list_lookup_fmap, Hf|done|done|done].
    + intros Hx. assert (x ∈ os) as [i Hi]%elem_of_list_lookup.
      { apply Mo'. exists f. split; [by eapply elem_of_list_lookup_2|done]. }
      pose proof (lookup_lt_Some _ _ _ Hi) as Hilt.
      destruct (member_table_lookup (length os) orows k so i Hso Hilt) as (r' & Hr' & Hb'). fold mo in Hr'.
      exists i, k, (map (fun r => default false (r !! i)) mo). rewrite El1, El2, El3.
      split; [done|]. split; [done|]. split; [by apply zip_star_lookup; auto|].
      rewrite list_lookup_fmap, Hr'. simpl. rewrite Hb'. simpl. f_equal. apply bool_decide_eq_true.
      apply (So k f.1 so i x); [by rewrite list_lookup_fmap, Hf|done|done|done].
  - intros x. split.
    + intros (i & j & row & Hi & Hj & Hrow & Hb). rewrite Er1 in Hi. rewrite Er2 in Hj. rewrite Er3 in Hrow.
      assert (i = k) as -> by (eapply (NoDup_lookup names); [apply factor_names_NoDup|done|done]).
      pose proof (lookup_lt_Some _ _ _ Hj) as Hjlt.
      destruct (member_table_lookup (length ats) arows k sa j Hsa Hjlt) as (r' & Hr' & Hb').
      fold ma in Hr'. assert (row = r') as -> by congruence. rewrite Hb' in Hb. injection Hb as Hb.
      apply bool_decide_eq_true in Hb. apply (Sa k f.2 sa j x); [by rewrite list_lookup_fmap, Hf|done|done|done].
    + intros Hx. assert (x ∈ ats) as [j Hj]%elem_of_list_lookup.
      { apply Ma'. exists f. split; [by eapply elem_of_list_lookup_2|done]. }
      pose proof (lookup_lt_Some _ _ _ Hj) as Hjlt.
      destruct (member_table_lookup (length ats) arows k sa j Hsa Hjlt) as (r' & Hr' & Hb'). fold ma in Hr'.
      exists k, j, r'. rewrite Er1, Er2, Er3. split; [done|]. split; [done|]. split; [done|].
      rewrite Hb'. f_equal. apply bool_decide_eq_true. apply (Sa k f.2 sa j x); [by rewrite list_lookup_fmap, Hf|done|done|done].
Qed.

Lemma factor_product fs l r : make_factor_cxts fs = Ok (l, r) → objs l ≠ [] →
  ∃ p, context_mul l r = Ok p ∧ good p ∧ objs p = objs l ∧ atts p = atts r ∧
    ∀ g m, incident p g m ↔ ∃ f, f ∈ fs ∧ g ∈ f.1 ∧ m ∈ f.2.
Proof.
  intros E Hne. destruct (make_factor_cxts_spec fs) as (l' & r' & E' & Gl & Gr & Eq & Len & Mo & Ma & Hf).
  assert (l' = l ∧ r' = r) as [-> ->] by (split; congruence).
  assert (objs r ≠ []) as Hnr.
  { intros E0. rewrite E0 in Len. destruct fs; [|done]. apply Hne. destruct (objs l) as [|x ?]; [done|].
    destruct (proj1 (Mo x)) as (f & ? & _); set_solver. }
  destruct (mul_spec l r) as (p & Hp & Gp & Ho & Ha & Hi); [apply Gl|apply Gl|apply Gr|apply Gr|done..|].
  exists p. split; [done|]. split; [done|]. split; [done|]. split; [done|].
  intros g m. rewrite Hi. split.
  - intros (nm & H1 & H2). pose proof H1 as (i & j & row & _ & Hj & _). 
    pose proof (lookup_lt_Some _ _ _ Hj) as Hlt. rewrite Eq, Len in Hlt. destruct (lookup_lt_is_Some_2 fs j Hlt) as [f Hfj].
    destruct (Hf j f nm Hfj Hj) as (_ & Hl & Hr). exists f. split; [by eapply elem_of_list_lookup_2|].
    split; [by apply Hl|by apply Hr].
  - intros (f & [j Hfj]%elem_of_list_lookup & Hgf & Hmf). pose proof (lookup_lt_Some _ _ _ Hfj) as Hlt.
    rewrite <-Len, <-Eq in Hlt. destruct (lookup_lt_is_Some_2 _ _ Hlt) as [nm Hnm].
    destruct (Hf j f nm Hfj Hnm) as (_ & Hl & Hr). exists nm. split; [by apply Hl|by apply Hr].
Qed.
Lemma factor_product_none fs l r : make_factor_cxts fs = Ok (l, r) → (∀ f, f ∈ fs → f.1 = []) →
  context_mul l r = Err ValueError.
Proof.
  intros E He. destruct (make_factor_cxts_spec fs) as (l' & r' & E' & Gl & Gr & Eq & _ & Mo & _).
  assert (l' = l ∧ r' = r) as [-> ->] by (split; congruence).
  unfold context_mul, mul_table. rewrite bool_decide_eq_true_2 by done. cbn [negb].
  assert (np l = []) as ->; [|done].
  apply nil_length_inv. rewrite (wf_rows l) by apply Gl. destruct (objs l) as [|x ?]; [done|].
  destruct (proj1 (Mo x)) as (f & Hf & Hx); [set_solver|]. rewrite (He f Hf) in Hx. set_solver.
Qed.

Lemma qdiv_lt_one a n : (a < n)%Z → (0 < n)%Z → (qdiv a n < Q2Qc 1)%Qc.
Proof.
  intros H Hn. unfold Qclt, qdiv. cbn [this Q2Qc]. rewrite !Qred_correct.
  apply Qlt_shift_div_r; unfold Qlt; simpl; lia.
Qed.
Lemma algorithm2_exact c ord : good c → (∀ k i X, ord k i X ≡ₚ elements X) → fI (abs c) ≠ ∅ →
  uncovered (abs c) (map fst (algorithm2 c ord (Q2Qc 1)).1) = ∅.
Proof.
  intros Hg Hord HI. destruct (algorithm2_spec c ord (Q2Qc 1) Hg Hord HI) as (ys & r & E & H1 & H2 & H3 & _).
  rewrite E. cbn [fst]. destruct H3 as [_ H3]; [apply Qcle_refl|].
  destruct (decide (uncovered (abs c) (map fst ys) = ∅)) as [|Hn]; [done|exfalso].
  assert (size (uncovered (abs c) (map fst ys)) ≠ 0) as Hs by (intros E0; apply size_empty_inv in E0; set_solver).
  assert (size (fI (abs c)) ≠ 0) as Hi by (intros E0; apply size_empty_inv in E0; set_solver).
  revert H3. apply Qclt_not_le. apply qdiv_lt_one; unfold ncovered; lia.
Qed.
(** Factors of algorithm2 at fidelity 1, composed. *)
Lemma algorithm2_product c ord ys r fs : good c → (∀ k i X, ord k i X ≡ₚ elements X) → fI (abs c) ≠ ∅ →
  algorithm2 c ord (Q2Qc 1) = (ys, r) →
  Forall2 (λ (f : list name * list name) (y : fconcept * Qc), f.1 ≡ₚ elements y.1.1 ∧ f.2 ≡ₚ elements y.1.2) fs ys →
  ∃ l r p, make_factor_cxts fs = Ok (l, r) ∧ context_mul l r = Ok p ∧ ∀ g m, incident p g m ↔ incident c g m.
Proof.
  intros Hg Hord HI E HF. destruct (algorithm2_spec c ord (Q2Qc 1) Hg Hord HI) as (ys' & r' & E' & H1 & H2 & H3 & _).
  rewrite E in E'. injection E' as <- <-. pose proof (algorithm2_exact c ord Hg Hord HI) as Hun. rewrite E in Hun. cbn [fst] in Hun.
  destruct (make_factor_cxts_spec fs) as (l & r0 & Em & _ & _ & _ & _ & Mo & _).
  assert (∀ g m, incident c g m ↔ ∃ f, f ∈ fs ∧ g ∈ f.1 ∧ m ∈ f.2) as Hc.
  { intros g m. rewrite <-elem_of_fI. split.
    - intros Hp. destruct (decide (Exists (λ f, in_rect f (g, m)) (map fst ys))) as [Hx|Hx].
      + apply Exists_exists in Hx as (f & (y & -> & Hy)%elem_of_list_fmap & Hr).
        apply elem_of_list_lookup in Hy as [i Hi]. destruct (Forall2_lookup_r _ _ _ _ _ HF Hi) as (x & Hx & P1 & P2).
        exists x. split; [by eapply elem_of_list_lookup_2|]. rewrite P1, P2, !elem_of_elements. exact Hr.
      + exfalso. assert ((g, m) ∈ uncovered (abs c) (map fst ys)); [|set_solver].
        apply elem_of_uncovered. split; [done|]. intros f Hf Hr. apply Hx. apply Exists_exists. eauto.
    - intros (f & [i Hi]%elem_of_list_lookup & Hgf & Hmf).
      destruct (Forall2_lookup_l _ _ _ _ _ HF Hi) as (y & Hy & P1 & P2).
      rewrite P1 in Hgf. rewrite P2 in Hmf. rewrite elem_of_elements in Hgf, Hmf.
      destruct (H1 i y Hy) as ((_ & _ & Hb & _) & _). rewrite <-Hb in Hmf. apply elem_of_up in Hmf as [_ Hmf]. by apply Hmf. }
  assert (objs l ≠ []) as Hne.
  { apply set_choose_L in HI as [[g m] Hgm]. apply elem_of_fI in Hgm. apply Hc in Hgm as (f & Hf & Hgf & _).
    intros E0. assert (g ∈ objs l) by (apply Mo; eauto). rewrite E0 in *. set_solver. }
  destruct (factor_product fs l r0 Em Hne) as (p & Hp & _ & _ & _ & Hi).
  exists l, r0, p. split; [done|]. split; [done|]. intros g m. by rewrite Hi, Hc.
Qed.

Lemma algorithm2_full c ord : good c → (∀ k i X, ord k i X ≡ₚ elements X) → fI (abs c) ≠ ∅ →
   ∃ ys, algorithm2 c ord (Q2Qc 1) = (ys, Ok tt) ∧
     (∀ y, y ∈ ys → is_concept (abs c) y.1.1 y.1.2) ∧
     (∀ g m, incident c g m ↔ ∃ y, y ∈ ys ∧ g ∈ y.1.1 ∧ m ∈ y.1.2) ∧
     (∀ i y, ys !! i = Some y → let before := map fst (take i ys) in
       gain (abs c) before y.1 ≠ ∅ ∧
       y.2 = qdiv (Z.of_nat (size (gain (abs c) before y.1))) (Z.of_nat (size (fI (abs c)))) ∧
       ∀ m, m ∈ atts c → m ∉ y.1.2 →
         (size (gain (abs c) before (down (abs c) (y.1.2 ∪ {[m]}), up (abs c) (down (abs c) (y.1.2 ∪ {[m]}))))
         ≤ size (gain (abs c) before y.1))%nat) ∧
     foldr Qcplus (Q2Qc 0) (map snd ys) = Q2Qc 1.
Proof.
  intros Hg Hord HI. pose proof (algorithm2_exact c ord Hg Hord HI) as Hun.
  destruct (algorithm2_spec c ord (Q2Qc 1) Hg Hord HI) as (ys & r & E & H1 & H2 & H3 & _).
  rewrite E in Hun. cbn [fst] in Hun. destruct H3 as [-> _]; [apply Qcle_refl|].
  exists ys. split; [exact E|].
  assert (∀ y, y ∈ ys → is_concept (abs c) y.1.1 y.1.2) as Hcs.
  { intros y [i Hi]%elem_of_list_lookup. apply (H1 i y Hi). }
  split; [exact Hcs|]. split; [|split].
  - intros g m. rewrite <-elem_of_fI. split.
    + intros Hp. destruct (decide (Exists (λ f, in_rect f (g, m)) (map fst ys))) as [Hx|Hx].
      * apply Exists_exists in Hx as (f & (y & -> & Hy)%elem_of_list_fmap & Hr). exists y. split; [done|]. exact Hr.
      * exfalso. assert ((g, m) ∈ uncovered (abs c) (map fst ys)); [|set_solver].
        apply elem_of_uncovered. split; [done|]. intros f Hf Hr. apply Hx. apply Exists_exists. eauto.
    + intros (y & Hy & Hgf & Hmf). destruct (Hcs y Hy) as (_ & _ & Hb & _). rewrite <-Hb in Hmf.
      apply elem_of_up in Hmf as [_ Hmf]. by apply Hmf.
  - intros i y Hi before. destruct (H1 i y Hi) as (_ & G1 & G2 & G3 & _). split; [exact G1|]. split; [exact G2|].
    intros m Hm. apply (G3 m). by apply in_atts.
  - rewrite H2. unfold ncovered. rewrite Hun, size_empty, Z.sub_0_r. apply qdiv_self.
    intros E0. assert (size (fI (abs c)) = 0%nat) as E1 by lia. apply size_empty_inv in E1. set_solver.
Qed.
Lemma make_factor_cxts_full fs :
  ∃ l r, make_factor_cxts fs = Ok (l, r) ∧ good l ∧ good r ∧
    atts l = objs r ∧ length (objs r) = length fs ∧
    (∀ x, x ∈ objs l ↔ ∃ f, f ∈ fs ∧ x ∈ f.1) ∧ (∀ x, x ∈ atts r ↔ ∃ f, f ∈ fs ∧ x ∈ f.2) ∧
    (∀ i f nm, fs !! i = Some f → atts l !! i = Some nm →
      nm = NStr ("f" ++ pretty i) ∧ (∀ x, incident l x nm ↔ x ∈ f.1) ∧ (∀ x, incident r nm x ↔ x ∈ f.2)) ∧
    ((∃ f x, f ∈ fs ∧ x ∈ f.1) →
      ∃ p, context_mul l r = Ok p ∧ objs p = objs l ∧ atts p = atts r ∧
        ∀ g m, incident p g m ↔ ∃ f, f ∈ fs ∧ g ∈ f.1 ∧ m ∈ f.2) ∧
    ((∀ f, f ∈ fs → f.1 = []) → context_mul l r = Err ValueError).
Proof.
  destruct (make_factor_cxts_spec fs) as (l & r & E & Gl & Gr & Eq & Len & Mo & Ma & Hf).
  exists l, r. repeat (split; [done|]). split; [|by apply factor_product_none].
  intros (f & x & Hfs & Hx). destruct (factor_product fs l r E) as (p & Hp & _ & Ho & Ha & Hi).
  { intros E0. assert (x ∈ objs l) by (apply Mo; eauto). rewrite E0 in *. set_solver. }
  exists p. done.
Qed.
Lemma good_factor_true mn ge C D : good_factor mn ge C D = true →
  (mn ≤ Z.of_nat (size C) ∧ mn ≤ Z.of_nat (size D))%Z ∧ (ge = true → (size D ≤ size C)%nat).
Proof.
  unfold good_factor. destruct ge; rewrite andb_true_iff, !Z.leb_le; intros [? ?]; (split; [lia|]); [intros _; lia|done].
Qed.
Lemma wcond_full c ord allow mn ge fid : good c → (∀ k i X, ord k i X ≡ₚ elements X) → fI (abs c) ≠ ∅ →
   ∃ ys r, algorithm2_w_condition c ord allow mn ge fid = (ys, r) ∧
    (r = Ok tt ∨ r = Err (UserException 239) ∧ ¬ (mn ≤ 1 ∧ ge = false)%Z) ∧
    uncovered (abs c) (map fst (map fst ys)) ≠ ∅ ∧
    ∀ i A B q1 q2, ys !! i = Some ((A, B), q1, q2) → let before := map fst (map fst (take i ys)) in
      is_concept (abs c) A B ∧
      (mn ≤ Z.of_nat (size A) ∧ mn ≤ Z.of_nat (size B))%Z ∧ (ge = true → (size B ≤ size A)%nat) ∧
      (qdiv (ncovered (abs c) (before ++ [(A, B)])) (Z.of_nat (size (fI (abs c)))) <= q2)%Qc ∧
      (allow = true → gain (abs c) before (A, B) ≠ ∅) ∧
      (allow = false → ∃ m, m ∈ B ∧ ∀ h, h ∈ before → m ∉ h.2) ∧
      (allow = true → (mn ≤ 1)%Z → ge = false →
        q1 = qdiv (Z.of_nat (size (gain (abs c) before (A, B)))) (Z.of_nat (size (fI (abs c)))) ∧
        q2 = qdiv (ncovered (abs c) (before ++ [(A, B)])) (Z.of_nat (size (fI (abs c))))).
Proof.
  intros Hg Hord HI. destruct (wcond_spec c ord allow mn ge fid Hg Hord HI) as (ys & r & E & H1 & H2 & H3).
  exists ys, r. split; [exact E|]. split; [exact H1|]. split; [exact H3|].
  intros i A B q1 q2 Hi before. destruct (H2 i _ Hi) as (G1 & G2 & G3 & G4 & G5 & G6).
  apply good_factor_true in G2 as [G2 G2']. split; [exact G1|]. split; [exact G2|]. split; [exact G2'|].
  split; [exact G3|]. split; [exact G4|]. split; [exact G5|]. intros Ha Hm Hge. by apply G6.
Qed.
