(** * Facts about the Python helpers *)
From Coq Require Import Ascii.
From Verif Require Import Py.

Lemma bind_Ok {A B} (f : A → res B) r b :
  (r ≫= f) = Ok b ↔ ∃ a, r = Ok a ∧ f a = Ok b.
Proof.
  destruct r as [a|e]; simpl; split.
  - eauto.
  - intros (a' & [= ->] & H). done.
  - done.
  - intros (a' & ? & _). done.
Qed.

Section mapM.
  Context {A B : Type} (f : A → res B).
  Lemma mapM_nil : mapM f [] = Ok [].
  Proof. done. Qed.
  Lemma mapM_cons x l : mapM f (x :: l) = (y ← f x; k ← mapM f l; Ok (y :: k)).
  Proof. done. Qed.
  Lemma mapM_Ok_Forall2 l k : mapM f l = Ok k ↔ Forall2 (λ x y, f x = Ok y) l k.
  Proof.
    split.
    - revert k; induction l as [|x l IH]; intros k; simpl.
      + intros [= <-]. constructor.
      + destruct (f x) as [y|e] eqn:E; simpl; [|done].
        destruct (mapM f l) as [k'|e] eqn:E'; simpl; [|done].
        intros [= <-]. constructor; auto.
    - induction 1 as [|x y l k Hxy _ IH]; simpl; [done|].
      rewrite Hxy; simpl. rewrite IH. done.
  Qed.
  Lemma mapM_Ok_map (g : A → B) l : (∀ x, x ∈ l → f x = Ok (g x)) → mapM f l = Ok (map g l).
  Proof.
    intros H. apply mapM_Ok_Forall2.
    induction l as [|x l IH]; constructor; [apply H; left|].
    apply IH. intros y Hy. apply H. by right.
  Qed.
  Lemma mapM_Err l e : mapM f l = Err e → ∃ x, x ∈ l ∧ f x = Err e.
  Proof.
    induction l as [|x l IH]; simpl; [done|].
    destruct (f x) as [y|e'] eqn:E; simpl.
    - destruct (mapM f l) as [k'|e'] eqn:E'; simpl; [done|].
      intros [= ->]. destruct IH as (z & ? & ?); [done|]. exists z. split; [by right|done].
    - intros [= ->]. exists x. split; [left|done].
  Qed.
  Lemma mapM_length l k : mapM f l = Ok k → length k = length l.
  Proof. intros H%mapM_Ok_Forall2. by apply Forall2_length in H. Qed.
  Lemma mapM_lookup l k i x :
    mapM f l = Ok k → l !! i = Some x → ∃ y, k !! i = Some y ∧ f x = Ok y.
  Proof. intros H%mapM_Ok_Forall2 Hx. by eapply Forall2_lookup_l in H. Qed.
  Lemma mapM_lookup_r l k i y :
    mapM f l = Ok k → k !! i = Some y → ∃ x, l !! i = Some x ∧ f x = Ok y.
  Proof. intros H%mapM_Ok_Forall2 Hx. by eapply Forall2_lookup_r in H. Qed.
  Lemma mapM_elem l k y :
    mapM f l = Ok k → y ∈ k ↔ ∃ x, x ∈ l ∧ f x = Ok y.
  Proof.
    intros H. split.
    - intros [i Hi]%elem_of_list_lookup.
      destruct (mapM_lookup_r _ _ _ _ H Hi) as (x & Hx & ?).
      exists x. split; [by eapply elem_of_list_lookup_2|done].
    - intros (x & [i Hi]%elem_of_list_lookup & Hf).
      destruct (mapM_lookup _ _ _ _ H Hi) as (y' & Hy & Hf').
      assert (y = y') as -> by congruence.
      by eapply elem_of_list_lookup_2.
  Qed.
  Lemma mapM_is_ok l : (∀ x, x ∈ l → ∃ y, f x = Ok y) → ∃ k, mapM f l = Ok k.
  Proof.
    intros H. destruct (mapM f l) as [k|e] eqn:E; [by eauto|].
    apply mapM_Err in E as (x & Hx & E). destruct (H x Hx); congruence.
  Qed.
  Lemma mapM_first_Err l x e :
    x ∈ l → f x = Err e → (∀ y e', y ∈ l → f y = Err e' → e' = e) → mapM f l = Err e.
  Proof.
    intros Hx Hf Hall. destruct (mapM f l) as [k|e'] eqn:E.
    - apply mapM_Ok_Forall2 in E. apply elem_of_list_lookup in Hx as [i Hi].
      eapply Forall2_lookup_l in E as (y & _ & Hy); [|done]. congruence.
    - apply mapM_Err in E as (y & Hy & E). f_equal. eauto.
  Qed.
End mapM.

Lemma mapM_ext {A B} (f g : A → res B) l :
  (∀ x, x ∈ l → f x = g x) → mapM f l = mapM g l.
Proof.
  induction l as [|x l IH]; intros H; [done|].
  rewrite !mapM_cons, (H x) by left. rewrite IH; [done|]. intros; apply H; by right.
Qed.

Lemma mapM_seq_lookup {B} (f : nat → res B) (k : list B) n :
  length k = n → (∀ i y, k !! i = Some y → f i = Ok y) → mapM f (seq 0 n) = Ok k.
Proof.
  intros <- H. apply mapM_Ok_Forall2, Forall2_same_length_lookup.
  split; [by rewrite seq_length|].
  intros i x y [-> ?]%lookup_seq Hy. simpl. eauto.
Qed.

(** [l.count(x)] *)
Lemma py_count_elem {A} `{EqDecision A} (x : A) l : 0 < py_count x l ↔ x ∈ l.
Proof.
  unfold py_count. split.
  - destruct (filter (λ y, y = x) l) as [|y k] eqn:E; simpl; [lia|]. intros _.
    assert (y ∈ filter (λ y, y = x) l) as Hy by (rewrite E; left).
    apply elem_of_list_filter in Hy as [-> ?]. done.
  - intros Hx. assert (x ∈ filter (λ y, y = x) l) as Hy by by apply elem_of_list_filter.
    destruct (filter _ l); simpl; [by apply elem_of_nil in Hy|lia].
Qed.
Lemma py_count_cons {A} `{EqDecision A} (x y : A) l :
  py_count x (y :: l) = (if decide (y = x) then 1 else 0) + py_count x l.
Proof. unfold py_count. rewrite filter_cons. destruct (decide (y = x)); done. Qed.
Lemma py_count_app {A} `{EqDecision A} (x : A) l k :
  py_count x (l ++ k) = py_count x l + py_count x k.
Proof. unfold py_count. by rewrite list.filter_app, app_length. Qed.
Lemma NoDup_py_count {A} `{EqDecision A} (l : list A) :
  NoDup l ↔ ∀ x, py_count x l ≤ 1.
Proof.
  induction l as [|y l IH].
  - split; [|constructor]. unfold py_count; simpl; lia.
  - rewrite NoDup_cons. split.
    + intros [Hy Hl] x. rewrite py_count_cons. destruct (decide (y = x)) as [->|].
      * assert (¬ 0 < py_count x l) by by rewrite py_count_elem. lia.
      * apply IH; done.
    + intros H. split.
      * intros Hy%py_count_elem. specialize (H y). rewrite py_count_cons, decide_True in H by done.
        lia.
      * apply IH. intros x. specialize (H x). rewrite py_count_cons in H. lia.
Qed.

(** [l.index(x)] *)
Lemma py_index_Ok {A} `{EqDecision A} (x : A) l i :
  py_index x l = Ok i → l !! i = Some x.
Proof.
  revert i; induction l as [|y l IH]; intros i; simpl; [done|].
  destruct (decide (y = x)) as [->|]; [by intros [= <-]|].
  destruct (py_index x l) as [j|]; simpl; [|done]. intros [= <-]. simpl. auto.
Qed.
Lemma py_index_Some {A} `{EqDecision A} (x : A) l :
  x ∈ l → ∃ i, py_index x l = Ok i.
Proof.
  induction l as [|y l IH]; [by intros ?%elem_of_nil|]. intros Hx. simpl.
  destruct (decide (y = x)) as [->|]; [eauto|].
  apply elem_of_cons in Hx as [->|Hx]; [done|]. destruct (IH Hx) as [i ->]. simpl. eauto.
Qed.
Lemma py_index_Err {A} `{EqDecision A} (x : A) l : x ∉ l → py_index x l = Err ValueError.
Proof.
  induction l as [|y l IH]; [done|]. rewrite not_elem_of_cons. intros [? ?]. simpl.
  rewrite decide_False by congruence. rewrite IH by done. done.
Qed.
Lemma py_index_NoDup {A} `{EqDecision A} (x : A) l i :
  NoDup l → py_index x l = Ok i ↔ l !! i = Some x.
Proof.
  intros Hl. split; [apply py_index_Ok|]. intros Hi.
  destruct (py_index_Some x l) as [j Hj]; [by eapply elem_of_list_lookup_2|].
  rewrite Hj. f_equal. apply py_index_Ok in Hj. by eapply NoDup_lookup.
Qed.

(** [{x: i for i, x in enumerate(l)}] *)
Lemma index_dict_snoc l x : index_dict (l ++ [x]) = <[x := length l]> (index_dict l).
Proof. unfold index_dict. rewrite imap_app. simpl. rewrite foldl_app. simpl. by rewrite Nat.add_0_r. Qed.
Lemma index_dict_lookup l x i : index_dict l !! x = Some i → l !! i = Some x.
Proof.
  revert i; induction l as [|y l IH] using rev_ind; intros i; [done|].
  rewrite index_dict_snoc. destruct (decide (y = x)) as [->|].
  - rewrite lookup_insert. intros [= <-]. by rewrite list_lookup_middle.
  - rewrite lookup_insert_ne by done. intros Hi%IH. by apply lookup_app_l_Some.
Qed.
Lemma index_dict_is_Some l x : is_Some (index_dict l !! x) ↔ x ∈ l.
Proof.
  split.
  - intros [i Hi]. apply index_dict_lookup in Hi. by eapply elem_of_list_lookup_2.
  - induction l as [|y l IH] using rev_ind; [by intros ?%elem_of_nil|].
    rewrite index_dict_snoc. intros Hx. destruct (decide (y = x)) as [->|].
    + rewrite lookup_insert. eauto.
    + rewrite lookup_insert_ne by done. apply IH. set_solver.
Qed.
Lemma index_dict_None l x : index_dict l !! x = None ↔ x ∉ l.
Proof. rewrite eq_None_not_Some, index_dict_is_Some. done. Qed.
Lemma index_dict_NoDup l x i : NoDup l → index_dict l !! x = Some i ↔ l !! i = Some x.
Proof.
  intros Hl. split; [apply index_dict_lookup|]. intros Hi.
  destruct (index_dict l !! x) as [j|] eqn:E.
  - apply index_dict_lookup in E. f_equal. by eapply NoDup_lookup.
  - apply index_dict_None in E. exfalso; apply E. by eapply elem_of_list_lookup_2.
Qed.

(** [nonzero] *)
Lemma elem_of_nonzero_from k v i : i ∈ nonzero_from k v ↔ k ≤ i ∧ v !! (i - k) = Some true.
Proof.
  revert k; induction v as [|b v IH]; intros k; simpl.
  - split; [by intros ?%elem_of_nil|intros [_ ?]; done].
  - assert (i ∈ nonzero_from (S k) v ↔ k < i ∧ (b :: v) !! (i - k) = Some true) as HS.
    { rewrite IH. split; intros [? H]; (split; [lia|]).
      - replace (i - k) with (S (i - S k)) by lia. done.
      - replace (i - k) with (S (i - S k)) in H by lia. done. }
    destruct b.
    + rewrite elem_of_cons, HS. split.
      * intros [->|[? ?]]; [|split; [lia|done]]. split; [lia|]. by rewrite Nat.sub_diag.
      * intros [? ?]. destruct (decide (i = k)); [by left|right; split; [lia|done]].
    + rewrite HS. split; intros [? H]; (split; [|done]); [lia|].
      destruct (decide (i = k)) as [->|]; [|lia]. rewrite Nat.sub_diag in H. done.
Qed.
Lemma elem_of_nonzero v i : i ∈ nonzero v ↔ v !! i = Some true.
Proof. unfold nonzero. rewrite elem_of_nonzero_from, Nat.sub_0_r. naive_solver lia. Qed.
Lemma NoDup_nonzero_from k v : NoDup (nonzero_from k v).
Proof.
  revert k; induction v as [|b v IH]; intros k; simpl; [constructor|].
  destruct b; [|done]. constructor; [|done]. rewrite elem_of_nonzero_from. lia.
Qed.
Lemma NoDup_nonzero v : NoDup (nonzero v).
Proof. apply NoDup_nonzero_from. Qed.

(** Association-list dictionaries. *)
Section dict.
  Context {K V : Type} `{EqDecision K}.
  Implicit Types d : list (K * V).
  Lemma dget_dset k v d k' :
    dget k' (dset k v d) = if decide (k = k') then Some v else dget k' d.
  Proof.
    induction d as [|[a b] d IH]; simpl.
    - destruct (decide (k = k')); done.
    - destruct (decide (a = k)) as [->|]; simpl.
      + destruct (decide (k = k')); done.
      + rewrite IH. destruct (decide (k = k')) as [->|]; [|done].
        by rewrite decide_False.
  Qed.
  Lemma dget_Some_elem k v d : dget k d = Some v → (k, v) ∈ d.
  Proof.
    induction d as [|[a b] d IH]; simpl; [done|].
    destruct (decide (a = k)) as [->|]; [intros [= ->]; left|]. intros; right; auto.
  Qed.
  Lemma dget_is_Some k d : is_Some (dget k d) ↔ k ∈ map fst d.
  Proof.
    induction d as [|[a b] d IH]; simpl.
    - split; [by intros [? ?]|by intros ?%elem_of_nil].
    - rewrite elem_of_cons. destruct (decide (a = k)) as [->|].
      + split; [by left|eauto].
      + rewrite IH. split; [by right|]. intros [->|?]; done.
  Qed.
  Lemma keys_dset k v d :
    map fst (dset k v d) = if decide (k ∈ map fst d) then map fst d else map fst d ++ [k].
  Proof.
    induction d as [|[a b] d IH]; simpl.
    - done.
    - destruct (decide (a = k)) as [->|]; simpl.
      + rewrite decide_True by left. done.
      + rewrite IH. destruct (decide (k ∈ map fst d)).
        * rewrite decide_True by by right. done.
        * rewrite decide_False by (rewrite elem_of_cons; naive_solver). done.
  Qed.
  Lemma NoDup_keys_dset k v d : NoDup (map fst d) → NoDup (map fst (dset k v d)).
  Proof.
    intros Hd. rewrite keys_dset. destruct (decide _); [done|].
    apply NoDup_app. repeat split; [done| |apply NoDup_singleton].
    intros x Hx ->%elem_of_list_singleton. done.
  Qed.
  Lemma elem_of_dget k v d : NoDup (map fst d) → (k, v) ∈ d → dget k d = Some v.
  Proof.
    induction d as [|[a b] d IH]; simpl; [by intros _ ?%elem_of_nil|].
    intros [Ha Hd]%NoDup_cons [[= -> ->]|Hkv]%elem_of_cons.
    - by rewrite decide_True.
    - rewrite decide_False; [auto|]. intros ->. apply Ha.
      apply elem_of_list_fmap. by exists (k, v).
  Qed.
  Lemma NoDup_keys_dict_of (l : list (K * V)) : NoDup (map fst (dict_of l)).
  Proof.
    unfold dict_of. assert (NoDup (map fst (@nil (K * V)))) as H by constructor.
    revert H. generalize (@nil (K * V)) as d.
    induction l as [|p l IH]; intros d Hd; simpl; [done|].
    apply IH. by apply NoDup_keys_dset.
  Qed.
  Lemma dict_of_snoc (l : list (K * V)) p : dict_of (l ++ [p]) = dset p.1 p.2 (dict_of l).
  Proof. unfold dict_of. by rewrite foldl_app. Qed.
  Lemma elem_of_keys_dict_of (l : list (K * V)) k : k ∈ map fst (dict_of l) ↔ k ∈ map fst l.
  Proof.
    induction l as [|p l IH] using rev_ind; [done|].
    rewrite dict_of_snoc, keys_dset, map_app. simpl.
    destruct (decide (p.1 ∈ map fst (dict_of l))) as [Hp|Hp];
      rewrite ?elem_of_app, IH, ?elem_of_list_singleton; [|done].
    split; [by left|]. intros [?| ->]; [done|]. by apply IH.
  Qed.
  Lemma dget_dict_of_elem (l : list (K * V)) k v : dget k (dict_of l) = Some v → (k, v) ∈ l.
  Proof.
    induction l as [|p l IH] using rev_ind; [done|].
    rewrite dict_of_snoc, dget_dset. rewrite elem_of_app, elem_of_list_singleton.
    destruct (decide (p.1 = k)) as [<-|].
    - intros [= <-]. right. by destruct p.
    - intros. left. auto.
  Qed.
  Lemma elem_of_dict_of (l : list (K * V)) k v : (k, v) ∈ dict_of l → (k, v) ∈ l.
  Proof.
    intros H. apply dget_dict_of_elem, elem_of_dget; [apply NoDup_keys_dict_of|done].
  Qed.
  Lemma dict_of_NoDup (l : list (K * V)) : NoDup (map fst l) → dict_of l = l.
  Proof.
    induction l as [|p l IH] using rev_ind; [done|].
    rewrite map_app, NoDup_app. simpl. intros (Hl & Hp & _).
    rewrite dict_of_snoc, IH by done.
    assert (p.1 ∉ map fst l) as Hp' by (intros Hx; apply (Hp _ Hx); left).
    clear -Hp'. induction l as [|[a b] l IH]; simpl in *.
    - by destruct p.
    - apply not_elem_of_cons in Hp' as [? ?]. rewrite decide_False by congruence.
      f_equal. auto.
  Qed.
End dict.

(** Insertion sort. *)
Lemma insert_sorted_Permutation {A} (leb : A → A → bool) x l :
  insert_sorted leb x l ≡ₚ x :: l.
Proof.
  induction l as [|y l IH]; simpl; [done|].
  destruct (leb x y); [done|]. rewrite IH. constructor.
Qed.
Lemma isort_Permutation {A} (leb : A → A → bool) l : isort leb l ≡ₚ l.
Proof.
  unfold isort. induction l as [|x l IH]; simpl; [done|].
  by rewrite insert_sorted_Permutation, IH.
Qed.
Lemma elem_of_isort {A} (leb : A → A → bool) l x : x ∈ isort leb l ↔ x ∈ l.
Proof. by rewrite isort_Permutation. Qed.
Lemma isort_Sorted {A} (leb : A → A → bool) l :
  (∀ x y, leb x y = false → leb y x = true) →
  Sorted (λ x y, leb x y = true) (isort leb l).
Proof.
  intros Htot. unfold isort. induction l as [|x l IH]; simpl; [constructor|].
  revert IH. generalize (foldr (insert_sorted leb) [] l). clear l.
  induction 1 as [|y l Hl IH Hy]; simpl; [repeat constructor|].
  destruct (leb x y) eqn:E.
  - constructor; [by constructor|by constructor].
  - constructor; [done|]. destruct l as [|z l]; simpl in *.
    + constructor. auto.
    + destruct (leb x z); constructor; auto. by inversion Hy.
Qed.
Lemma py_sorted_Ok l k : py_sorted l = Ok k → k ≡ₚ l.
Proof. unfold py_sorted. destruct (comparable l); [|done]. intros [= <-]. apply isort_Permutation. Qed.

(** The order used by [sorted] is a total order, so the result of sorting does
    not depend on the order of the argument. *)
Lemma ascii_compare_trans a b c :
  Ascii.compare a b ≠ Gt → Ascii.compare b c ≠ Gt → Ascii.compare a c ≠ Gt.
Proof. unfold Ascii.compare. rewrite !N.compare_le_iff. lia. Qed.
Lemma ascii_compare_eq a b : Ascii.compare a b = Eq ↔ a = b.
Proof.
  unfold Ascii.compare. rewrite N.compare_eq_iff. split; [|by intros ->].
  intros H. rewrite <-(ascii_N_embedding a), <-(ascii_N_embedding b). by rewrite H.
Qed.
Lemma string_compare_trans s t u :
  String.compare s t ≠ Gt → String.compare t u ≠ Gt → String.compare s u ≠ Gt.
Proof.
  revert t u. induction s as [|a s IH]; intros [|b t] [|c u]; simpl; try done.
  pose proof (ascii_compare_trans a b c) as Ht.
  pose proof (ascii_compare_eq a b) as E1. pose proof (ascii_compare_eq b c) as E2.
  pose proof (ascii_compare_eq a c) as E3.
  destruct (Ascii.compare a b) eqn:Eab; [|..|done].
  - destruct E1 as [E1 _]. specialize (E1 eq_refl). subst b.
    destruct (Ascii.compare a c) eqn:Eac; [apply IH|done|done].
  - destruct (Ascii.compare b c) eqn:Ebc; [|..|done].
    + destruct E2 as [E2 _]. specialize (E2 eq_refl). subst c. by rewrite Eab.
    + destruct (Ascii.compare a c) eqn:Eac; [|done|by destruct Ht].
      destruct E3 as [E3 _]. specialize (E3 eq_refl). subst c.
      intros _ _. unfold Ascii.compare in *. rewrite N.compare_lt_iff in *. lia.
Qed.
Lemma string_leb_compare s t : String.leb s t = true ↔ String.compare s t ≠ Gt.
Proof. unfold String.leb. by destruct (String.compare s t). Qed.
Lemma name_leb_total x y : name_leb x y = true ∨ name_leb y x = true.
Proof.
  destruct x, y; simpl; auto; [apply String.leb_total|]. rewrite !Z.leb_le. lia.
Qed.
Lemma name_leb_total' x y : name_leb x y = false → name_leb y x = true.
Proof. destruct (name_leb_total x y); congruence. Qed.
Lemma name_leb_antisym x y : name_leb x y = true → name_leb y x = true → x = y.
Proof.
  destruct x, y; simpl; try done; intros H1 H2.
  - f_equal. by apply String.leb_antisym.
  - f_equal. apply Z.leb_le in H1, H2. lia.
Qed.
Lemma name_leb_trans x y z : name_leb x y = true → name_leb y z = true → name_leb x z = true.
Proof.
  destruct x, y, z; simpl; try done.
  - rewrite !string_leb_compare. apply string_compare_trans.
  - rewrite !Z.leb_le. lia.
Qed.
Definition name_le (x y : name) : Prop := name_leb x y = true.
Global Instance name_le_trans : Transitive name_le.
Proof. intros x y z. apply name_leb_trans. Qed.
Global Instance name_le_antisymm : AntiSymm (=) name_le.
Proof. intros x y. apply name_leb_antisym. Qed.
Lemma isort_name_perm l k : l ≡ₚ k → isort name_leb l = isort name_leb k.
Proof.
  intros H. apply (Sorted_unique name_le).
  - apply isort_Sorted, name_leb_total'.
  - apply isort_Sorted, name_leb_total'.
  - by rewrite !isort_Permutation.
Qed.
Lemma forallb_perm {A} (p : A → bool) l k : l ≡ₚ k → forallb p l = forallb p k.
Proof.
  intros H. apply eq_true_iff_eq. rewrite !forallb_forall. setoid_rewrite <-elem_of_list_In.
  by setoid_rewrite H.
Qed.
Lemma py_sorted_perm l k : l ≡ₚ k → py_sorted l = py_sorted k.
Proof.
  intros H. unfold py_sorted, comparable. rewrite (forallb_perm _ _ _ H), (forallb_perm _ _ _ H).
  by rewrite (isort_name_perm _ _ H).
Qed.
Lemma py_sorted_spec l k : py_sorted l = Ok k → k ≡ₚ l ∧ StronglySorted name_le k.
Proof.
  intros H. split; [by apply py_sorted_Ok|]. unfold py_sorted in H.
  destruct (comparable l); [|done]. injection H as <-. apply Sorted_StronglySorted; [apply _|].
  apply isort_Sorted, name_leb_total'.
Qed.
