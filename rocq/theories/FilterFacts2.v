(** * Facts about the separation index, the size indices, filter_concepts and compute_index *)
From Coq Require Import QArith Qcanon.
From Verif Require Import Py Spec PyFacts SpecFacts ContextModel ContextSpec ContextFacts LatticeSpec LatticeModel NorrisFacts
  LatticeFacts FilterModel FilterFacts.
Local Open Scope nat_scope.

Lemma size_pairs {A} `{Countable A} (f : name → A) (Hf : ∀ x y, f x = f y → x = y) (X : gset name) :
  size (set_map f X : gset A) = size X.
Proof.
  induction X as [|x X Hx IH] using set_ind_L; [by rewrite set_map_empty|].
  rewrite set_map_union_L, set_map_singleton_L, !size_union.
  - by rewrite IH, !size_singleton.
  - set_solver.
  - apply disjoint_singleton_l. intros (y & E & Hy)%elem_of_map. apply Hf in E. by subst.
Qed.
Lemma size_fibres (pr : name * name → name) (I : gset (name * name)) (fib : name → nat) (l : list name) : NoDup l →
  (∀ m, m ∈ l → size (filter (λ p, pr p = m) I) = fib m) →
  Z.of_nat (size (filter (λ p, pr p ∈ l) I)) = foldr Z.add 0%Z (map (λ m, Z.of_nat (fib m)) l).
Proof.
  induction l as [|m l IH]; intros Hnd H; cbn [map foldr].
  - assert (filter (λ p, pr p ∈ []) I = ∅) as ->; [|done]. apply set_eq. intros p. rewrite elem_of_filter, elem_of_nil, elem_of_empty. tauto.
  - apply NoDup_cons in Hnd as [Hm Hnd].
    assert (filter (λ p, pr p ∈ m :: l) I = filter (λ p, pr p = m) I ∪ filter (λ p, pr p ∈ l) I) as ->.
    { apply set_eq. intros p. rewrite elem_of_union, !elem_of_filter, elem_of_cons. tauto. }
    rewrite size_union.
    + rewrite Nat2Z.inj_add, IH, (H m); [done|by left|done|]. intros x Hx. apply H. by right.
    + intros p [H1 _]%elem_of_filter [H2 _]%elem_of_filter. by rewrite H1 in H2.
Qed.
(** The crosses in the rows of [A] and the columns of [B]. *)
Definition crosses (K : fctx) (A B : gset name) : gset (name * name) := filter (λ p, p.1 ∈ A ∨ p.2 ∈ B) (fI K).
Section cxt.
  Context (c : context) (Hg : good c).
  Local Notation K := (abs c).
  Lemma col_size m : m ∈ fM K → size (filter (λ p : name * name, p.2 = m) (fI K)) = size (down K {[m]}).
  Proof.
    intros Hm. rewrite <-(size_pairs (λ g, (g, m))) by congruence. f_equal. apply set_eq. intros [g m'].
    rewrite elem_of_filter, elem_of_map. simpl. setoid_rewrite elem_of_down. split.
    - intros [-> H]. exists g. split; [done|]. split; [by apply (abs_fwf c) in H as [? _]|]. by intros ? ->%elem_of_singleton.
    - intros (g' & [= -> ->] & _ & H). split; [done|]. apply H. by apply elem_of_singleton.
  Qed.
  Lemma row_size g : g ∈ fG K → size (filter (λ p : name * name, p.1 = g) (fI K)) = size (up K {[g]}).
  Proof.
    intros Hm. rewrite <-(size_pairs (λ m, (g, m))) by congruence. f_equal. apply set_eq. intros [g' m].
    rewrite elem_of_filter, elem_of_map. simpl. setoid_rewrite elem_of_up. split.
    - intros [-> H]. exists m. split; [done|]. split; [by apply (abs_fwf c) in H as [_ ?]|]. by intros ? ->%elem_of_singleton.
    - intros (m' & [= -> ->] & _ & H). split; [done|]. apply H. by apply elem_of_singleton.
  Qed.
  Lemma rect_size A B : is_concept K A B → size (filter (λ p : name * name, p.1 ∈ A ∧ p.2 ∈ B) (fI K)) = size B * size A.
  Proof.
    intros (HA & HB & H1 & H2).
    assert (∀ g m, g ∈ A → m ∈ B → (g, m) ∈ fI K) as HAB.
    { intros g m Hga Hm. rewrite <-H2 in Hga. apply elem_of_down in Hga as [_ H]. by apply H. }
    assert (Z.of_nat (size (filter (λ p : name * name, p.2 ∈ elements B) (filter (λ p : name * name, p.1 ∈ A) (fI K))))
      = foldr Z.add 0%Z (map (λ m, Z.of_nat (size A)) (elements B))) as H.
    { apply (size_fibres snd _ (λ _, size A)); [apply NoDup_elements|]. intros m Hm%elem_of_elements.
      rewrite <-(size_pairs (λ g, (g, m)) ltac:(congruence) A). f_equal. apply set_eq. intros [g m'].
      rewrite !elem_of_filter, elem_of_map. simpl. split.
      - intros (-> & Hga & _). by exists g.
      - intros (g' & [= -> ->] & Hga). split; [done|]. split; [done|]. by apply HAB. }
    assert (filter (λ p : name * name, p.2 ∈ elements B) (filter (λ p : name * name, p.1 ∈ A) (fI K)) =
            filter (λ p : name * name, p.1 ∈ A ∧ p.2 ∈ B) (fI K)) as E.
    { apply set_eq. intros p. rewrite !elem_of_filter, elem_of_elements. tauto. }
    rewrite E in H. clear E. apply Nat2Z.inj. rewrite H. change (size B) with (length (elements B)).
    generalize (elements B). intros l. induction l as [|x l IH]; [done|]. cbn [map foldr length]. lia.
  Qed.
  Lemma crosses_size A B : is_concept K A B →
    (Z.of_nat (size (crosses K A B)) =
     foldr Z.add 0 (map (λ m, Z.of_nat (size (down K {[m]}))) (elements B)) +
     foldr Z.add 0 (map (λ g, Z.of_nat (size (up K {[g]}))) (elements A)) - Z.of_nat (size B * size A))%Z.
  Proof.
    intros Hc. pose proof Hc as (HA & HB & _). rewrite <-(rect_size A B Hc).
    rewrite <-(size_fibres snd (fI K) (λ m, size (down K {[m]})) (elements B)).
    2: apply NoDup_elements. 2: { intros m Hm%elem_of_elements. by apply col_size, HB. }
    rewrite <-(size_fibres fst (fI K) (λ g, size (up K {[g]})) (elements A)).
    2: apply NoDup_elements. 2: { intros m Hm%elem_of_elements. by apply row_size, HA. }
    assert (crosses K A B = filter (λ p : name * name, p.2 ∈ elements B) (fI K) ∪
       (filter (λ p : name * name, p.1 ∈ elements A) (fI K) ∖ filter (λ p : name * name, p.1 ∈ A ∧ p.2 ∈ B) (fI K))) as ->.
    { apply set_eq. intros p. unfold crosses. rewrite elem_of_union, elem_of_difference, !elem_of_filter, !elem_of_elements.
      destruct (decide (p.2 ∈ B)); tauto. }
    rewrite size_union.
    2: { intros p. rewrite elem_of_difference, !elem_of_filter, !elem_of_elements. tauto. }
    rewrite size_difference.
    2: { intros p. rewrite !elem_of_filter, elem_of_elements. tauto. }
    assert (size (filter (λ p : name * name, p.1 ∈ A ∧ p.2 ∈ B) (fI K)) ≤ size (filter (λ p : name * name, p.1 ∈ elements A) (fI K))).
    { apply subseteq_size. intros p. rewrite !elem_of_filter, elem_of_elements. tauto. }
    lia.
  Qed.
  Lemma separation_one_spec A B : objs c ≠ [] → is_concept K A B →
    separation_one c (A, B) = Ok (if decide (A = ∅ ∨ B = ∅) then Q2Qc 1
      else qdiv (Z.of_nat (size A * size B)) (Z.of_nat (size (crosses K A B)))).
  Proof.
    intros Hne Hc. pose proof Hc as (HA & HB & _). unfold separation_one, separation_crossed. cbn [fst snd].
    assert (np c ≠ []) as Hnp.
    { intros E. apply Hne. pose proof (wf_rows c (good_wf c Hg)) as Hr. rewrite E in Hr. by destruct (objs c). }
    rewrite (mapM_Ok_map (λ m, e ← get_attribute_extent c m; Ok (Z.of_nat (size e))) (λ m, Z.of_nat (size (down K {[m]})))).
    2: { intros m Hm%elem_of_elements. rewrite (get_attribute_extent_spec c Hg); [done|done|].
         apply HB in Hm. by apply elem_of_list_to_set in Hm. }
    cbn [mbind res_bind]. rewrite (mapM_Ok_map _ (λ g, Z.of_nat (size (up K {[g]})))).
    2: { intros g Hgg%elem_of_elements. rewrite (get_object_intent_spec c Hg); [done|].
         apply HA in Hgg. by apply elem_of_list_to_set in Hgg. }
    cbn [mbind res_bind]. rewrite <-(crosses_size A B Hc).
    destruct (decide (A = ∅ ∨ B = ∅)) as [HE|HE].
    - rewrite decide_True; [done|]. destruct HE as [->| ->]; rewrite size_empty; lia.
    - assert (size A ≠ 0 ∧ size B ≠ 0) as [HA0 HB0] by (split; intros E%size_empty_inv; apply HE; [left|right]; by fold_leibniz).
      rewrite decide_False by nia. rewrite decide_False; [by rewrite Nat.mul_comm|].
      intros E. assert (size (crosses K A B) = 0) as E' by lia. apply size_empty_inv in E'.
      assert (∃ p, p ∈ crosses K A B) as [p Hp]; [|by apply (E' p) in Hp; apply elem_of_empty in Hp].
      destruct (set_choose_L A) as [g HgA]; [by intros ->|]. destruct (set_choose_L B) as [m Hm]; [by intros ->|].
      exists (g, m). apply elem_of_filter. split; [by left|]. destruct Hc as (_ & _ & _ & H2). rewrite <-H2 in HgA.
      apply elem_of_down in HgA as [_ H]. by apply H.
  Qed.
End cxt.

Lemma index_of_spec f cs (v : fconcept → Qc) : (∀ x, x ∈ cs → chash x = true) → (∀ x, x ∈ cs → f x = Ok (v x)) →
  ∃ d, index_of f cs = Ok d ∧ (∀ x, x ∈ map fst d ↔ x ∈ cs) ∧ ∀ x, x ∈ cs → dget x d = Some (v x).
Proof.
  intros Hh Hf. unfold index_of. rewrite (mapM_Ok_map _ (λ x, (x, v x))).
  2: { intros x Hx. rewrite (Hf x Hx). simpl. by rewrite Hh. }
  cbn [mbind res_bind]. eexists. split; [done|]. split.
  - intros x. rewrite elem_of_keys_dict_of, map_map. simpl. by rewrite map_id.
  - intros x Hx. by apply dget_dict_of_map.
Qed.
Lemma index_of_err f cs e : cs ≠ [] → (∀ x, x ∈ cs → f x = Err e) → index_of f cs = Err e.
Proof. intros Hne Hf. destruct cs as [|x cs]; [done|]. unfold index_of. simpl. rewrite Hf by by left. done. Qed.

(** ** compute_index *)
Lemma dset_not_nil {K V} `{EqDecision K} (k : K) (v : V) d : dset k v d ≠ [].
Proof. destruct d as [|[k' v'] d]; simpl; [done|]. by destruct (decide _). Qed.
Lemma compute_index_meta {V} (metas : fconcept → list (string * V)) ix nm x : x ∈ map fst ix ∨ metas x ≠ [] →
  compute_index metas ix nm x ≠ [].
Proof.
  unfold compute_index. revert metas. induction ix as [|[y v] ix IH]; intros metas H; simpl.
  - destruct H as [H|H]; [by apply elem_of_nil in H|done].
  - apply IH. simpl in H. destruct (decide (x = y)) as [->|Hne]; [right; apply dset_not_nil|].
    destruct H as [[->|H]%elem_of_cons|H]; [done|by left|by right].
Qed.
Lemma append_neq s t : t ≠ "" → (s ++ t)%string ≠ s.
Proof.
  intros Ht. induction s as [|a s IH]; [done|]. change (String a (s ++ t) ≠ String a s). intros [= E]. by apply IH.
Qed.
Lemma cstr_meta {V} (base : fconcept → string) (fmt : list (string * V) → string) x m :
  m ≠ [] → cstr base fmt x m ≠ cstr base fmt x [].
Proof.
  intros Hm. unfold cstr. destruct m as [|p m]; [done|].
  assert (∀ s, (s ++ "")%string = s) as -> by (intros s; induction s as [|a s IH]; [done|]; change (String a (s ++ "") = String a s); by rewrite IH).
  apply append_neq. done.
Qed.
Lemma hget_spec {V A} (base : fconcept → string) (fmt : list (string * V) → string) hash (d : list (fconcept * A)) metas x :
  (hash (cstr base fmt x (metas x)) = hash (cstr base fmt x []) → hget base fmt hash d metas x = get_or KeyError (dget x d)) ∧
  (hash (cstr base fmt x (metas x)) ≠ hash (cstr base fmt x []) → hget base fmt hash d metas x = Err KeyError).
Proof.
  induction d as [|[y v] d [IH1 IH2]]; simpl; [done|]. split; intros H.
  - destruct (decide (y = x)) as [->|Hne].
    + rewrite H, Z.eqb_refl. by rewrite bool_decide_eq_true_2.
    + rewrite bool_decide_eq_false_2, andb_false_r by done. by apply IH1.
  - destruct (decide (y = x)) as [->|Hne].
    + assert ((hash (cstr base fmt x []) =? hash (cstr base fmt x (metas x)))%Z = false) as -> by (apply Z.eqb_neq; congruence).
      simpl. by apply IH2.
    + rewrite bool_decide_eq_false_2, andb_false_r by done. by apply IH2.
Qed.
