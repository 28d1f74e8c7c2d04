(** * Facts about closure operators and implications *)
From Verif Require Import Py Spec PyFacts SpecFacts ContextModel ContextSpec ContextOps ContextFacts ContextReduce ClosureModel.

(** ** Module functions oprime, aprime, oclosure, aclosure *)
Section functions.
  Context (c : context) (Hg : good c).
  Local Notation K := (abs c).

  Lemma fold_err {A B} (f : A → res B) (g : B → B → B) e l :
    foldl (fun acc o => s ← acc; i ← f o; Ok (g s i)) (Err e) l = Err e.
  Proof. by induction l. Qed.

  Lemma fn_oprime_fold l s : (∀ x, x ∈ l → x ∈ objs c) → s ⊆ fM K →
    foldl (fun acc o => s ← acc; i ← get_object_intent c o; Ok (s ∩ i)) (Ok s) l
      = Ok (s ∩ up K (list_to_set l)).
  Proof.
    revert s. induction l as [|o l IH]; intros s Hl Hs; cbn [foldl list_to_set].
    - f_equal. rewrite up_empty. set_solver.
    - change (mbind ?f (Ok s)) with (f s). cbn beta.
      rewrite get_object_intent_spec; [|apply Hg..|set_solver]. simpl.
      rewrite IH; [|set_solver|]. 
      2: { intros x. set_solver. }
      f_equal. change (list_to_set (o :: l)) with ({[o]} ∪ list_to_set l : gset name).
      rewrite up_union. set_solver.
  Qed.
  Lemma fn_oprime_spec l : (∀ x, x ∈ l → x ∈ objs c) →
    fn_oprime c l = Ok (up K (list_to_set l)).
  Proof.
    intros Hl. unfold fn_oprime. rewrite fn_oprime_fold; [|done|done]. f_equal.
    pose proof (up_sub K (list_to_set l)). change (fM K) with (list_to_set (atts c) : gset name) in *. set_solver.
  Qed.
  Lemma fn_oprime_KeyError l : (∃ x, x ∈ l ∧ x ∉ objs c) → fn_oprime c l = Err KeyError.
  Proof.
    intros (x & Hx & Hn). unfold fn_oprime. generalize (list_to_set (atts c) : gset name).
    induction l as [|o l IH]; intros s; [by apply elem_of_nil in Hx|].
    cbn [foldl]. change (mbind ?f (Ok s)) with (f s). cbn beta.
    destruct (decide (o ∈ objs c)) as [Ho|Ho].
    - rewrite get_object_intent_spec; [|apply Hg..|done]. simpl. apply IH. set_solver.
    - unfold get_object_intent. destruct (oind c o) eqn:E.
      + apply oind_lt, elem_of_list_lookup_2 in E; [done|apply Hg].
      + apply oind_Err in E as [-> _]; [|apply Hg]. simpl. apply fold_err.
  Qed.

  Lemma np_nonempty : objs c ≠ [] → np c ≠ [].
  Proof.
    intros Hne E. apply Hne, length_zero_iff_nil. destruct Hg as [[Hw _ _ _ _ _ _] _].
    by rewrite E in Hw.
  Qed.
  Lemma fn_aprime_fold l s : objs c ≠ [] → (∀ x, x ∈ l → x ∈ atts c) → s ⊆ fG K →
    foldl (fun acc o => s ← acc; i ← get_attribute_extent c o; Ok (s ∩ i)) (Ok s) l
      = Ok (s ∩ down K (list_to_set l)).
  Proof.
    intros Hne. pose proof (np_nonempty Hne) as Hnp.
    revert s. induction l as [|o l IH]; intros s Hl Hs; cbn [foldl list_to_set].
    - f_equal. rewrite down_empty. set_solver.
    - change (mbind ?f (Ok s)) with (f s). cbn beta.
      rewrite get_attribute_extent_spec; [|apply Hg..|done|set_solver]. simpl.
      rewrite IH; [|set_solver|]. 
      2: { intros x. set_solver. }
      f_equal. change (list_to_set (o :: l)) with ({[o]} ∪ list_to_set l : gset name).
      rewrite down_union. set_solver.
  Qed.
  Lemma fn_aprime_spec l : objs c ≠ [] → (∀ x, x ∈ l → x ∈ atts c) →
    fn_aprime c l = Ok (down K (list_to_set l)).
  Proof.
    intros Hne Hl. unfold fn_aprime. rewrite fn_aprime_fold; [|done|done|done]. f_equal.
    pose proof (down_sub K (list_to_set l)). change (fG K) with (list_to_set (objs c) : gset name) in *. set_solver.
  Qed.
  Lemma fn_aprime_nil : fn_aprime c [] = Ok (list_to_set (objs c)).
  Proof. done. Qed.
  Lemma fn_aprime_KeyError l : objs c ≠ [] → (∃ x, x ∈ l ∧ x ∉ atts c) → fn_aprime c l = Err KeyError.
  Proof.
    intros Hne (x & Hx & Hn). pose proof (np_nonempty Hne) as Hnp.
    unfold fn_aprime. generalize (list_to_set (objs c) : gset name).
    induction l as [|o l IH]; intros s; [by apply elem_of_nil in Hx|].
    cbn [foldl]. change (mbind ?f (Ok s)) with (f s). cbn beta.
    destruct (decide (o ∈ atts c)) as [Ho|Ho].
    - rewrite get_attribute_extent_spec; [|apply Hg..|done|done]. simpl. apply IH. set_solver.
    - unfold get_attribute_extent. destruct (aind c o) eqn:E.
      + apply aind_lt, elem_of_list_lookup_2 in E; [done|apply Hg].
      + apply aind_Err in E as [-> _]; [|apply Hg]. simpl. apply fold_err.
  Qed.
End functions.

(** ** Implications *)
Lemma imp_eqb_spec i j : imp_eqb i j = true ↔ i.1 = j.1 ∧ i.2 ∖ i.1 = j.2 ∖ j.1.
Proof. unfold imp_eqb. rewrite andb_true_iff, !bool_decide_eq_true. done. Qed.
Lemma imp_eqb_refl i : imp_eqb i i = true.
Proof. by rewrite imp_eqb_spec. Qed.
Lemma imp_eqb_ikey i j : imp_eqb i j = true ↔ ikey i = ikey j.
Proof. rewrite imp_eqb_spec. unfold ikey, conclusion. split; [intros [-> ->]; done|]. by intros [= -> ->]. Qed.
Lemma respects_conclusion X i : respects X i ↔ (i.1 ⊆ X → conclusion i ⊆ X).
Proof.
  unfold respects, conclusion. split; intros H Hp; [set_solver|].
  intros x Hx. destruct (decide (x ∈ i.1)); [set_solver|]. apply H; set_solver.
Qed.
Lemma is_respected_spec i X : is_respected i X = true ↔ respects X i.
Proof.
  rewrite respects_conclusion. unfold is_respected.
  rewrite orb_true_iff, negb_true_iff, bool_decide_eq_true, bool_decide_eq_false.
  destruct (decide (i.1 ⊆ X)); naive_solver.
Qed.

(** ** simple_closure *)
Lemma model_of_cons i l Y : model_of (i :: l) Y ↔ respects Y i ∧ model_of l Y.
Proof.
  unfold model_of. setoid_rewrite elem_of_cons. split.
  - intros H. split; [apply H; by left|]. intros j Hj. apply H. by right.
  - intros [H1 H2] j [->|Hj]; auto.
Qed.
Lemma simple_pass_spec l C R C' R' : foldl simple_pass (C, R) l = (C', R') →
  C ⊆ C' ∧ (∀ i, i ∈ R → i ∈ R') ∧ (∀ i, i ∈ R' → i ∈ R ∨ (i ∈ l ∧ i.1 ⊆ C' ∧ i.2 ⊆ C')) ∧
  (R' = R → C' = C ∧ ∀ i, i ∈ l → ¬ i.1 ⊆ C) ∧
  (∀ Y, C ⊆ Y → model_of l Y → C' ⊆ Y) ∧ length R ≤ length R'.
Proof.
  revert C R. induction l as [|i l IH]; intros C R; cbn [foldl].
  { intros [= <- <-]. split; [done|]. split; [done|]. split; [auto|]. split; [|done].
    split; [done|]. by intros i ?%elem_of_nil. }
  unfold simple_pass at 2. cbn [fst snd]. case_bool_decide as Hi.
  - intros H. destruct (IH _ _ H) as (H1 & H2 & H3 & H4 & H5 & H6). clear IH H.
    assert (C ⊆ C') as HC by (clear -H1; set_solver). split; [done|].
    split. { intros j Hj. apply H2. by right. } split.
    { intros j Hj. destruct (H3 j Hj) as [[->|Hj']%elem_of_cons|(? & ? & ?)]; [|by left|].
      - right. split; [by left|]. clear -H1 Hi. set_solver.
      - right. split; [by right|]. done. }
    split. { intros ->. simpl in H6. lia. }
    split; [|simpl in H6; lia].
    intros Y HY [Hr Hm]%model_of_cons. apply H5; [|done].
    specialize (Hr (transitivity Hi HY)). clear -Hr HY. set_solver.
  - intros H. destruct (IH _ _ H) as (H1 & H2 & H3 & H4 & H5 & H6). split; [done|].
    split; [done|]. split. { intros j Hj. destruct (H3 j Hj) as [?|(? & ? & ?)]; [by left|]. right. split; [by right|]. done. }
    split. { intros E. destruct (H4 E) as [-> H7]. split; [done|]. intros j [->|Hj]%elem_of_cons; auto. }
    split; [|done]. intros Y HY [_ Hm]%model_of_cons. auto.
Qed.

Lemma existsb_imp_eqb i R : existsb (imp_eqb i) R = true ↔ ∃ j, j ∈ R ∧ imp_eqb i j = true.
Proof. rewrite existsb_exists. by setoid_rewrite elem_of_list_In. Qed.

Lemma Lfilter_length_le {A} (p : A → bool) l : length (List.filter p l) ≤ length l.
Proof. induction l as [|y l IH]; simpl; [done|]. destruct (p y); simpl; lia. Qed.
Lemma filter_length_lt {A} (p : A → bool) l x : x ∈ l → p x = false → length (List.filter p l) < length l.
Proof.
  induction l as [|y l IH]; intros Hx Hp; [by apply elem_of_nil in Hx|]. simpl.
  pose proof (Lfilter_length_le p l) as Hle.
  apply elem_of_cons in Hx as [->|Hx].
  - rewrite Hp. lia.
  - destruct (p y); simpl; specialize (IH Hx Hp); lia.
Qed.
Lemma elem_of_Lfilter {A} (p : A → bool) l x : x ∈ List.filter p l ↔ x ∈ l ∧ p x = true.
Proof. rewrite !elem_of_list_In. apply filter_In. Qed.

Lemma simple_loop_spec s imps fuel unused C :
  s ⊆ C → (∀ Y, s ⊆ Y → model_of imps Y → C ⊆ Y) →
  (∀ i, i ∈ imps → i ∈ unused ∨ i.2 ⊆ C) → (∀ i, i ∈ unused → i ∈ imps) →
  length unused < fuel →
  ∃ C', simple_loop fuel unused C = Ok C' ∧ is_closure imps s C'.
Proof.
  revert unused C. induction fuel as [|fuel IH]; intros unused C Hs Hl Hu Hi Hf; [lia|].
  cbn [simple_loop]. destruct (foldl simple_pass (C, []) unused) as [C' R'] eqn:E.
  apply simple_pass_spec in E as (H1 & H2 & H3 & H4 & H5 & H6).
  destruct R' as [|r R'].
  - destruct H4 as [-> H7]; [done|]. exists C. split; [done|]. split; [done|]. split; [|done].
    intros i Hi'. destruct (Hu i Hi') as [Hu'|Hu']; [|by intros _]. intros Hp. by destruct (H7 i Hu').
  - apply IH.
    + by transitivity C.
    + intros Y HsY HmY. apply H5; [auto|]. intros j Hj. apply HmY. auto.
    + intros i Hi'. destruct (Hu i Hi') as [Hu'|Hu']; [|right; by transitivity C].
      destruct (existsb (imp_eqb i) (r :: R')) eqn:E.
      * right. apply existsb_imp_eqb in E as (j & Hj & Hij). apply imp_eqb_spec in Hij as [E1 E2].
        destruct (H3 j Hj) as [?%elem_of_nil|(_ & Hj1 & Hj2)]; [done|].
        intros x Hx. destruct (decide (x ∈ i.1)) as [Hx1|Hx1]; [rewrite E1 in Hx1; auto|].
        assert (x ∈ i.2 ∖ i.1) as Hx' by (by apply elem_of_difference).
        rewrite E2 in Hx'. clear -Hx' Hj2. set_solver.
      * left. apply elem_of_Lfilter. split; [done|]. by rewrite E.
    + intros i [Hi' _]%elem_of_Lfilter. auto.
    + assert (r ∈ unused) as Hr. { destruct (H3 r) as [?%elem_of_nil|[? _]]; [left|done|done]. }
      pose proof (filter_length_lt (fun i => negb (existsb (imp_eqb i) (r :: R'))) unused r Hr).
      cbn [existsb] in *. rewrite imp_eqb_refl in *. simpl in *. specialize (H eq_refl). lia.
Qed.
Lemma simple_closure_spec s imps : (∀ i, i ∈ imps → hashable i = true) →
  ∃ C, simple_closure s imps = Ok C ∧ is_closure imps s C.
Proof.
  intros Hh. unfold simple_closure. rewrite (proj2 (forallb_forall _ _)).
  - apply simple_loop_spec; [done|done|auto|auto|lia].
  - intros i Hi. apply Hh. by apply elem_of_list_In.
Qed.
Lemma simple_closure_TypeError s imps : (∃ i, i ∈ imps ∧ hashable i = false) →
  simple_closure s imps = Err TypeError.
Proof.
  intros (i & Hi & Hh). unfold simple_closure. destruct (forallb hashable imps) eqn:E; [|done].
  rewrite forallb_forall in E. rewrite E in Hh; [done|]. by apply elem_of_list_In.
Qed.

(** ** lin_closure *)
Lemma decrease_count_spec count i n count' a : dget (ikey i) count = Some (S n) →
  decrease_count count i = (count', a) →
  count' = dset (ikey i) n count ∧ a = if decide (n = 0) then i.2 else ∅.
Proof. intros H. unfold decrease_count. rewrite H. by intros [= <- <-]. Qed.

Lemma decrease_all_spec is count count' a :
  NoDup (map ikey is) → (∀ i, i ∈ is → ∃ n, dget (ikey i) count = Some (S n)) →
  decrease_all count is = (count', a) →
  (∀ k, (∀ i, i ∈ is → ikey i ≠ k) → dget k count' = dget k count) ∧
  (∀ i n, i ∈ is → dget (ikey i) count = Some (S n) → dget (ikey i) count' = Some n ∧ (n = 0 → i.2 ⊆ a)) ∧
  (∀ x, x ∈ a → ∃ i, i ∈ is ∧ dget (ikey i) count = Some 1 ∧ x ∈ i.2).
Proof.
  revert count count' a. induction is as [|i is IH]; intros count count' a Hnd Hc; cbn [decrease_all].
  { intros [= <- <-]. split; [done|]. split; [by intros ?? ?%elem_of_nil|]. by intros x ?%elem_of_empty. }
  simpl in Hnd. apply NoDup_cons in Hnd as [Hni Hnd].
  assert (∀ j, j ∈ is → ikey i ≠ ikey j) as Hne.
  { intros j Hj E. apply Hni. rewrite E. by apply elem_of_list_fmap_1. }
  destruct (Hc i) as [n Hn]; [by left|].
  destruct (decrease_count count i) as [c1 a1] eqn:E1.
  destruct (decrease_count_spec _ _ _ _ _ Hn E1) as [-> ->].
  destruct (decrease_all _ is) as [c2 a2] eqn:E2.
  assert (∀ j, j ∈ is → dget (ikey j) (dset (ikey i) n count) = dget (ikey j) count) as Hsame.
  { intros j Hj. rewrite dget_dset, decide_False; [done|]. by apply Hne. }
  apply IH in E2 as (H1 & H2 & H3); [|done|].
  2: { intros j Hj. rewrite Hsame by done. apply Hc. by right. }
  intros [= <- <-]. split; [|split].
  - intros k Hk. rewrite H1; [|intros j Hj; apply Hk; by right].
    rewrite dget_dset, decide_False; [done|]. apply Hk. by left.
  - intros j n' [->|Hj]%elem_of_cons Hn'.
    + rewrite Hn in Hn'. injection Hn' as <-. rewrite H1; [|intros j Hj E; by eapply Hne].
      rewrite dget_dset, decide_True by done. split; [done|]. intros ->. simpl. clear. set_solver.
    + destruct (H2 j n' Hj) as [H4 H5]; [by rewrite Hsame|]. split; [done|]. intros ->.
      specialize (H5 eq_refl). clear -H5. set_solver.
  - intros x [Hx|Hx]%elem_of_union.
    + exists i. split; [by left|]. case_decide as En; [subst n; done|]. by apply elem_of_empty in Hx.
    + destruct (H3 x Hx) as (j & Hj & Hd & Hxj). exists j. split; [by right|].
      rewrite Hsame in Hd by done. done.
Qed.

Lemma NoDup_map_filter {A B} (f : A → B) (p : A → bool) l : NoDup (map f l) → NoDup (map f (List.filter p l)).
Proof.
  induction l as [|x l IH]; simpl; [done|]. intros [Hx Hl]%NoDup_cons.
  destruct (p x); simpl; [|auto]. apply NoDup_cons. split; [|auto].
  intros (y & E & Hy)%elem_of_list_fmap. apply Hx. rewrite E. apply elem_of_list_fmap_1.
  by apply elem_of_Lfilter in Hy as [??].
Qed.

Lemma size_difference_S (X D : gset name) m : m ∈ X → m ∉ D → size (X ∖ D) = S (size (X ∖ (D ∪ {[m]}))).
Proof.
  intros H1 H2. assert (X ∖ D = {[m]} ∪ X ∖ (D ∪ {[m]})) as ->.
  { apply set_eq. intros x. destruct (decide (x = m)) as [->|]; set_solver. }
  rewrite size_union, size_singleton; [lia|]. set_solver.
Qed.

Definition good_ord (ord : nat → gset name → list name) : Prop := ∀ k X, ord k X ≡ₚ elements X.
Lemma elem_of_ord ord k X x : good_ord ord → x ∈ ord k X ↔ x ∈ X.
Proof. intros H. rewrite (H k X). apply elem_of_elements. Qed.
Lemma NoDup_ord ord k X : good_ord ord → NoDup (ord k X).
Proof. intros H. rewrite (H k X). apply NoDup_elements. Qed.

Section lin.
  Context (ord : nat → gset name → list name) (Hord : good_ord ord).
  Context (imps : list fimp) (Hnd : NoDup (map ikey imps)).
  Context (s U : gset name) (HU : ∀ i, i ∈ imps → i.2 ⊆ U).

  Lemma lin_loop_spec fuel k update C D count :
    NoDup update → (∀ x, x ∈ C ↔ x ∈ D ∨ x ∈ update) → (∀ x, x ∈ update → x ∉ D) →
    (∀ i, i ∈ imps → dget (ikey i) count = Some (size (i.1 ∖ D))) →
    (∀ i, i ∈ imps → i.1 ⊆ D → i.2 ⊆ C) →
    s ⊆ C → (∀ Y, s ⊆ Y → model_of imps Y → C ⊆ Y) → C ⊆ U → size (U ∖ D) ≤ fuel →
    ∃ C', lin_loop ord imps fuel k update C count = Ok C' ∧ is_closure imps s C'.
  Proof.
    revert k update C D count. induction fuel as [|fuel IH]; intros k update C D count H1 H2 H3 H4 H5 H6 H7 H8 H9.
    all: destruct update as [|m update].
    1,3: exists C; split; [done|]; split; [done|]; split; [|done]; intros i Hi Hp; apply H5; [done|];
         intros x Hx; apply Hp, H2 in Hx as [?|?%elem_of_nil]; done.
    - exfalso. assert (m ∈ U ∖ D) as Hm.
      { apply elem_of_difference. split; [apply H8, H2; right; by left|]. apply H3. by left. }
      apply Nat.le_0_r, size_empty_iff in H9. by apply H9, elem_of_empty in Hm.
    - cbn [lin_loop]. set (is := List.filter (λ i : gset name * gset name, bool_decide (m ∈ i.1)) imps).
      destruct (decrease_all count is) as [count' a] eqn:E.
      assert (m ∉ D) as HmD by (apply H3; by left).
      assert (m ∈ C) as HmC by (apply H2; right; by left).
      assert (∀ i, i ∈ is ↔ i ∈ imps ∧ m ∈ i.1) as His.
      { intros i. unfold is. rewrite elem_of_Lfilter, bool_decide_eq_true. done. }
      apply decrease_all_spec in E as (E1 & E2 & E3).
      2: by apply NoDup_map_filter.
      2: { intros i [Hi Hm]%His. rewrite H4, (size_difference_S _ _ m) by done. by eexists. }
      apply NoDup_cons in H1 as [Hmu H1].
      apply (IH _ _ _ (D ∪ {[m]})).
      + apply NoDup_app. split; [rewrite reverse_Permutation; by apply NoDup_ord|]. split; [|done].
        intros x Hx Hu. rewrite elem_of_reverse, elem_of_ord, elem_of_difference in Hx by done.
        destruct Hx as [_ Hx]. apply Hx, H2. right. by right.
      + intros x. rewrite elem_of_app, elem_of_reverse, elem_of_ord by done.
        rewrite !elem_of_union, elem_of_singleton, H2, elem_of_cons. tauto.
      + intros x [Hx|Hx]%elem_of_app.
        * rewrite elem_of_reverse, elem_of_ord, elem_of_difference in Hx by done. destruct Hx as [_ Hx].
          rewrite H2, elem_of_cons in Hx. rewrite elem_of_union, elem_of_singleton. tauto.
        * rewrite not_elem_of_union, not_elem_of_singleton. split; [apply H3; by right|]. by intros ->.
      + intros i Hi. destruct (decide (m ∈ i.1)) as [Hm|Hm].
        * apply E2; [by apply His|]. by rewrite H4, (size_difference_S _ _ m).
        * rewrite E1; [rewrite H4 by done; do 2 f_equal; clear -Hm; set_solver|].
          intros j [Hj1 Hj2]%His Ej. injection Ej as Ej _. by rewrite Ej in Hj2.
      + intros i Hi Hp. destruct (decide (m ∈ i.1)) as [Hm|Hm].
        * destruct (E2 i 0) as [_ Ha]; [by apply His| |].
          { rewrite H4, (size_difference_S _ _ m) by done. f_equal. f_equal. apply size_empty_iff.
            clear -Hp. set_solver. }
          specialize (Ha eq_refl). intros x Hx. specialize (Ha x Hx). clear -Ha.
          destruct (decide (x ∈ C)); set_solver.
        * assert (i.2 ⊆ C) as HC by (apply H5; [done|]; clear -Hm Hp; set_solver). clear -HC. set_solver.
      + clear -H6. set_solver.
      + intros Y HsY HmY. specialize (H7 Y HsY HmY). intros x [Hx|Hx]%elem_of_union; [by apply H7|].
        apply elem_of_difference in Hx as [Hx _]. destruct (E3 x Hx) as (i & Hi & Hd & Hxi).
        apply His in Hi as [Hi Hm]. rewrite H4, (size_difference_S _ _ m) in Hd by done.
        injection Hd as Hd. apply size_empty_iff in Hd. apply (HmY i Hi); [|done].
        intros y Hy. apply H7, H2. destruct (decide (y ∈ D)); [by left|].
        destruct (decide (y = m)) as [->|]; [right; by left|]. exfalso.
        assert (y ∈ i.1 ∖ (D ∪ {[m]})) as Hy' by (clear -Hy n n0; set_solver).
        by apply Hd, elem_of_empty in Hy'.
      + intros x [Hx|Hx]%elem_of_union; [by apply H8|]. apply elem_of_difference in Hx as [Hx _].
        destruct (E3 x Hx) as (i & Hi & _ & Hxi). apply His in Hi as [Hi _]. by apply (HU i).
      + rewrite (size_difference_S U D m) in H9; [lia|by apply H8|done].
  Qed.
End lin.

Lemma lin_init imps C :
  let C' := foldl (fun C (i : fimp) => if bool_decide (i.1 = ∅) then C ∪ i.2 else C) C imps in
  C ⊆ C' ∧ (∀ i, i ∈ imps → i.1 = ∅ → i.2 ⊆ C') ∧
  (∀ x, x ∈ C' → x ∈ C ∨ ∃ i, i ∈ imps ∧ i.1 = ∅ ∧ x ∈ i.2).
Proof.
  revert C. induction imps as [|i imps IH]; intros C; cbn [foldl].
  { split; [done|]. split; [by intros ? ?%elem_of_nil|]. auto. }
  case_bool_decide as Hi.
  - destruct (IH (C ∪ i.2)) as (H1 & H2 & H3). split; [clear -H1; set_solver|]. split.
    + intros j [->|Hj]%elem_of_cons Ej; [clear -H1; set_solver|]. by apply H2.
    + intros x Hx. destruct (H3 x Hx) as [[?|?]%elem_of_union|(j & ? & ? & ?)].
      * by left.
      * right. exists i. split; [by left|]. done.
      * right. exists j. split; [by right|]. done.
  - destruct (IH C) as (H1 & H2 & H3). split; [done|]. split.
    + intros j [->|Hj]%elem_of_cons Ej; [done|]. by apply H2.
    + intros x Hx. destruct (H3 x Hx) as [?|(j & ? & ? & ?)]; [by left|].
      right. exists j. split; [by right|]. done.
Qed.

Lemma lin_closure_spec ord s imps : good_ord ord → NoDup (map ikey imps) →
  (∀ i, i ∈ imps → hashable i = true) →
  ∃ C, lin_closure ord s imps = Ok C ∧ is_closure imps s C.
Proof.
  intros Hord Hnd Hh. unfold lin_closure. destruct imps as [|i0 imps0].
  { exists s. split; [done|]. split; [done|]. split; [|done]. by intros ? ?%elem_of_nil. }
  set (imps := i0 :: imps0) in *. rewrite (proj2 (forallb_forall _ _)).
  2: { intros i Hi. apply Hh. by apply elem_of_list_In. }
  pose proof (lin_init imps s) as Hinit. cbv zeta in Hinit.
  set (C := foldl _ s imps) in *. destruct Hinit as (H1 & H2 & H3).
  assert (∀ i, i ∈ imps → i.2 ⊆ s ∪ ⋃ map snd imps) as HU.
  { intros i Hi x Hx. apply elem_of_union. right. apply elem_of_union_list. exists i.2. split; [|done].
    by apply elem_of_list_fmap_1. }
  apply (lin_loop_spec ord Hord imps Hnd s (s ∪ ⋃ map snd imps) HU _ _ _ _ ∅).
  - rewrite reverse_Permutation; by apply NoDup_ord.
  - intros x. rewrite elem_of_reverse, elem_of_ord by done. clear. set_solver.
  - intros x _. apply not_elem_of_empty.
  - intros i Hi. rewrite difference_empty_L. apply elem_of_dget; [apply NoDup_keys_dict_of|].
    rewrite dict_of_NoDup.
    + by apply (elem_of_list_fmap_1 (fun i => (ikey i, size i.1))).
    + rewrite map_map. done.
  - intros i Hi Hp. apply H2; [done|]. clear -Hp. set_solver.
  - done.
  - intros Y HsY HmY x Hx. destruct (H3 x Hx) as [?|(i & Hi & Ei & Hxi)]; [auto|].
    apply (HmY i Hi); [|done]. rewrite Ei. clear. set_solver.
  - intros x Hx. destruct (H3 x Hx) as [?|(i & Hi & Ei & Hxi)]; [clear -H; set_solver|]. by apply (HU i).
  - by rewrite difference_empty_L.
Qed.

(** ** closure with prefix check *)
Lemma agrees_spec pref C cur : agrees pref C cur = true ↔ ∀ x, x ∈ pref → (x ∈ C ↔ x ∈ cur).
Proof.
  unfold agrees. rewrite forallb_forall. setoid_rewrite <-elem_of_list_In.
  split; intros H x Hx; specialize (H x Hx).
  - apply Bool.eqb_prop in H. rewrite <-(bool_decide_eq_true (x ∈ C)), <-(bool_decide_eq_true (x ∈ cur)). by rewrite H.
  - apply Bool.eqb_true_iff. apply bool_decide_ext. done.
Qed.
Lemma agrees_mono pref C C' cur : cur ⊆ C → C ⊆ C' → agrees pref C' cur = true → agrees pref C cur = true.
Proof. rewrite !agrees_spec. intros H1 H2 H x Hx. specialize (H x Hx). set_solver. Qed.

Lemma closure_pass_spec pref cur l C del : cur ⊆ C →
  match closure_pass pref cur l C del with
  | Some (C', del') => C ⊆ C' ∧ (agrees pref C cur = true → agrees pref C' cur = true) ∧
      (∀ Y, C ⊆ Y → model_of l Y → C' ⊆ Y) ∧
      (∀ i, i ∈ l → i.1 ⊆ C → i.2 ⊆ C') ∧
      ∃ fired, del' = del ++ fired ∧ sublist fired l ∧ (∀ i, i ∈ fired → i.1 ⊆ C' ∧ i.2 ⊆ C') ∧
        (fired = [] → C' = C)
  | None => ∃ C', C ⊆ C' ∧ agrees pref C' cur = false ∧ (∀ Y, C ⊆ Y → model_of l Y → C' ⊆ Y)
  end.
Proof.
  revert C del. induction l as [|i l IH]; intros C del Hc; cbn [closure_pass].
  { split; [done|]. split; [done|]. split; [done|]. split; [by intros ? ?%elem_of_nil|].
    exists []. rewrite app_nil_r. split; [done|]. split; [done|]. split; [by intros ? ?%elem_of_nil|]. done. }
  case_bool_decide as Hi.
  - destruct (agrees pref (C ∪ i.2) cur) eqn:Ea.
    + specialize (IH (C ∪ i.2) (del ++ [i])). destruct (closure_pass _ _ _ _ _) as [[C' del']|].
      * destruct IH as (H1 & H2 & H3 & H4 & fired & -> & H5 & H6 & H7); [clear -Hc; set_solver|].
        assert (C ⊆ C') as HC by (clear -H1; set_solver).
        assert (i.2 ⊆ C') as HC2 by (clear -H1; set_solver). split; [done|]. split; [auto|].
        split. { intros Y HY [Hr Hm]%model_of_cons. apply H3; [|done].
          specialize (Hr (transitivity Hi HY)). clear -Hr HY. set_solver. }
        split. { intros j [->|Hj]%elem_of_cons Hp; [done|]. apply H4; [done|]. clear -Hp; set_solver. }
        exists (i :: fired). split; [by rewrite <-app_assoc|]. split; [by apply sublist_skip|].
        split; [|done]. intros j [->|Hj]%elem_of_cons; [|by apply H6]. split; [by transitivity C|done].
      * destruct IH as (C' & H1 & H2 & H3); [clear -Hc; set_solver|]. exists C'. split; [clear -H1; set_solver|].
        split; [done|]. intros Y HY [Hr Hm]%model_of_cons. apply H3; [|done].
        specialize (Hr (transitivity Hi HY)). clear -Hr HY. set_solver.
    + exists (C ∪ i.2). split; [clear; set_solver|]. split; [done|].
      intros Y HY [Hr Hm]%model_of_cons. specialize (Hr (transitivity Hi HY)). clear -Hr HY. set_solver.
  - specialize (IH C del). destruct (closure_pass _ _ _ _ _) as [[C' del']|].
    + destruct IH as (H1 & H2 & H3 & H4 & fired & -> & H5 & H6 & H7); [done|].
      split; [done|]. split; [done|]. split; [by intros Y HY [_ Hm]%model_of_cons; auto|].
      split; [by intros j [->|Hj]%elem_of_cons Hp; auto|].
      exists fired. split; [done|]. split; [by apply sublist_cons|]. done.
    + destruct IH as (C' & H1 & H2 & H3); [done|]. exists C'. split; [done|]. split; [done|].
      by intros Y HY [_ Hm]%model_of_cons; auto.
Qed.

Lemma remove_imp_spec i l : ikey i ∈ map ikey l → ∃ l', remove_imp i l = Ok l' ∧
  map ikey l ≡ₚ ikey i :: map ikey l' ∧ (∀ j, j ∈ l' → j ∈ l) ∧ (∀ j, j ∈ l → j ∈ l' ∨ ikey j = ikey i).
Proof.
  induction l as [|j l IH]; intros Hi; [by apply elem_of_nil in Hi|]. cbn [remove_imp].
  destruct (imp_eqb j i) eqn:E.
  - apply imp_eqb_ikey in E. exists l. split; [done|]. split; [simpl; by rewrite E|]. split; [by right|].
    intros k [->|Hk]%elem_of_cons; [by right|by left].
  - assert (ikey j ≠ ikey i) as Hne. { intros E'%imp_eqb_ikey. congruence. }
    simpl in Hi. apply elem_of_cons in Hi as [Hi|Hi]; [by rewrite Hi in Hne|].
    destruct (IH Hi) as (l' & -> & H1 & H2 & H3). exists (j :: l'). split; [done|].
    split; [simpl; rewrite H1; apply Permutation_swap|]. split.
    + intros k [->|Hk]%elem_of_cons; [by left|]. right. by apply H2.
    + intros k [->|Hk]%elem_of_cons; [left; by left|]. destruct (H3 k Hk); [left; by right|by right].
Qed.
Lemma remove_all_spec del l : map ikey del ⊆+ map ikey l → ∃ l', remove_all del l = Ok l' ∧
  length l' + length del = length l ∧ (∀ j, j ∈ l' → j ∈ l) ∧
  (∀ j, j ∈ l → j ∈ l' ∨ ∃ i, i ∈ del ∧ ikey j = ikey i).
Proof.
  revert l. induction del as [|i del IH]; intros l Hs; cbn [remove_all].
  { exists l. split; [done|]. split; [simpl; lia|]. split; [done|]. by left. }
  destruct (remove_imp_spec i l) as (l' & E & H1 & H2 & H3).
  { eapply elem_of_submseteq; [|apply Hs]. simpl. by left. }
  rewrite E. cbn. destruct (IH l') as (l'' & E' & H4 & H5 & H6).
  { simpl in Hs. rewrite H1 in Hs. apply (submseteq_app_inv_l _ _ [ikey i]). done. }
  exists l''. split; [done|]. split.
  { apply Permutation_length in H1. simpl in *. rewrite !map_length in H1. lia. }
  split; [auto|]. intros j Hj. destruct (H3 j Hj) as [Hj'|Hj']; [|right; exists i; split; [by left|done]].
  destruct (H6 j Hj') as [?|(k & ? & ?)]; [by left|]. right. exists k. split; [by right|done].
Qed.

Section closure.
  Context (pref : list name) (cur : gset name) (imps : list fimp).
  Definition closure_result (r : res (bool * gset name)) : Prop :=
    ∃ C, is_closure imps cur C ∧
      r = if agrees pref C cur then Ok (true, C) else Ok (false, ∅).

  Lemma closure_exists L X : ∃ C, is_closure L X C.
  Proof.
    destruct (simple_loop_spec X L (S (length L)) L X) as (C & _ & HC); eauto.
  Qed.

  Lemma closure_loop_spec fuel first unused old new :
    (∀ i, i ∈ unused → i ∈ imps) → (∀ i, i ∈ imps → i ∈ unused ∨ i.2 ⊆ new) →
    cur ⊆ new → agrees pref new cur = true → (∀ Y, cur ⊆ Y → model_of imps Y → new ⊆ Y) →
    (first = false → old ⊆ new ∧ ∀ i, i ∈ unused → i.1 ⊆ old → i.2 ⊆ new) →
    (first = true ∨ old ≠ new → length unused < fuel) →
    closure_result (closure_loop pref cur fuel first unused old new).
  Proof.
    revert first unused old new. induction fuel as [|fuel IH]; intros first unused old new H1 H2 H3 H4 H5 H6 H7.
    all: cbn [closure_loop]; destruct (first || bool_decide (old ≠ new)) eqn:E.
    1: { apply orb_true_iff in E. rewrite bool_decide_eq_true in E. specialize (H7 E). lia. }
    1,3: apply orb_false_iff in E as [-> E%bool_decide_eq_false%dec_stable]; subst old;
         destruct (H6 eq_refl) as [_ H6']; exists new; rewrite H4; split; [|done];
         split; [done|]; split; [|done]; intros i Hi Hp; destruct (H2 i Hi); auto.
    apply orb_true_iff in E. rewrite bool_decide_eq_true in E. specialize (H7 E). clear E H6.
    pose proof (closure_pass_spec pref cur unused new [] H3) as Hp.
    destruct (closure_pass pref cur unused new []) as [[C del]|].
    - destruct Hp as (P1 & P2 & P3 & P4 & fired & Ed & P5 & P6 & P7). simpl in Ed. subst del.
      destruct (remove_all_spec fired unused) as (l & -> & L1 & L2 & L3).
      { apply sublist_submseteq. clear -P5. induction P5; simpl; by constructor. }
      cbn. apply IH.
      + auto.
      + intros i Hi. destruct (H2 i Hi) as [Hu|Hu]; [|right; by transitivity new].
        destruct (L3 i Hu) as [?|(j & Hj & Ej)]; [by left|]. right.
        apply imp_eqb_ikey, imp_eqb_spec in Ej as [E1 E2]. destruct (P6 j Hj) as [Hj1 Hj2].
        intros x Hx. destruct (decide (x ∈ i.1)) as [Hx1|Hx1]; [rewrite E1 in Hx1; auto|].
        assert (x ∈ i.2 ∖ i.1) as Hx' by (by apply elem_of_difference).
        rewrite E2 in Hx'. clear -Hx' Hj2. set_solver.
      + by transitivity new.
      + auto.
      + intros Y HY Hm. apply P3; [auto|]. intros j Hj. apply Hm. auto.
      + intros _. split; [done|]. intros i Hi. apply P4. auto.
      + intros [?|Hne]; [done|]. destruct fired as [|f fired]; [by rewrite P7 in Hne|]. simpl in L1. lia.
    - destruct Hp as (C' & P1 & P2 & P3). destruct (closure_exists imps cur) as [C HC].
      exists C. split; [done|]. destruct HC as (C1 & C2 & C3). destruct (agrees pref C cur) eqn:E; [|done].
      rewrite (agrees_mono pref C' C cur) in P2; [done|by transitivity new| |done].
      apply P3; [|intros j Hj; apply C2; auto]. apply H5; done.
  Qed.
End closure.

Lemma closure_spec cur base imps k : ∃ C, is_closure imps cur C ∧
  ((∀ x, x ∈ take k base → (x ∈ C ↔ x ∈ cur)) → closure cur base imps k = Ok (true, C)) ∧
  (¬ (∀ x, x ∈ take k base → (x ∈ C ↔ x ∈ cur)) → closure cur base imps k = Ok (false, ∅)).
Proof.
  destruct (closure_loop_spec (take k base) cur imps (length imps + 2) true imps ∅ cur) as (C & HC & E).
  - done.
  - auto.
  - done.
  - by apply agrees_spec.
  - auto.
  - done.
  - lia.
  - exists C. split; [done|]. unfold closure. rewrite E. rewrite <-agrees_spec. destruct (agrees _ _ _); split; congruence.
Qed.

(** ** Combined statements *)
Lemma fn_oprime_oprime c l : good c → fn_oprime c l = oprime c l.
Proof.
  intros Hg. destruct (decide (Forall (fun x => x ∈ objs c) l)) as [H|H].
  - rewrite Forall_forall in H. rewrite fn_oprime_spec, oprime_spec by (done || apply Hg). done.
  - apply not_Forall_Exists, Exists_exists in H; [|apply _].
    rewrite fn_oprime_KeyError, oprime_KeyError by (done || apply Hg). done.
Qed.
Lemma fn_aprime_aprime c l : good c → objs c ≠ [] → fn_aprime c l = aprime c l.
Proof.
  intros Hg Hne. destruct (decide (Forall (fun x => x ∈ atts c) l)) as [H|H].
  - rewrite Forall_forall in H. rewrite fn_aprime_spec, aprime_spec by (done || apply Hg). done.
  - apply not_Forall_Exists, Exists_exists in H; [|apply _].
    rewrite fn_aprime_KeyError, aprime_KeyError by (done || apply Hg). done.
Qed.
Lemma fn_aprime_no_objects c m l : wf c → np c = [] → npz c = None → m ∈ atts c →
  fn_aprime c (m :: l) = Err IndexError.
Proof.
  intros Hw Hn Hz Hm. unfold fn_aprime. cbn [foldl]. change (mbind ?f (Ok ?s)) with (f s). cbn beta.
  assert (get_attribute_extent c m = Err IndexError) as ->; [|apply fold_err].
  unfold get_attribute_extent. destruct (aind_Ok c Hw m Hm) as [j ->]. cbn.
  unfold get_attribute_extent_by_index, np_col. by rewrite Hn, Hz.
Qed.
Lemma fn_aclosure_sorted c B : good c → objs c ≠ [] → (∀ m, m ∈ B → m ∈ atts c) →
  ∃ X, aclosure c B = Ok X ∧ fn_aclosure c B = py_sorted (elements X).
Proof.
  intros Hg Hne HB. eexists. split; [by apply aclosure_spec|]. unfold fn_aclosure.
  rewrite fn_aprime_spec by done. cbn. rewrite fn_oprime_spec; [|done|].
  - cbn. unfold acl. by rewrite list_to_set_elements_L.
  - intros x. rewrite elem_of_elements, elem_of_down, elem_of_fG. tauto.
Qed.
Lemma fn_oclosure_sorted c A : good c → objs c ≠ [] → (∀ g, g ∈ A → g ∈ objs c) →
  ∃ X, oclosure c A = Ok X ∧ fn_oclosure c A = py_sorted (elements X).
Proof.
  intros Hg Hne HB. eexists. split; [by apply oclosure_spec|]. unfold fn_oclosure.
  rewrite fn_oprime_spec by done. cbn. rewrite fn_aprime_spec; [|done|done|].
  - cbn. unfold ocl. by rewrite list_to_set_elements_L.
  - intros x. rewrite elem_of_elements, elem_of_up, elem_of_fM. tauto.
Qed.
Lemma py_sorted_final l :
  (comparable l = true → ∃ k, py_sorted l = Ok k ∧ k ≡ₚ l ∧ StronglySorted (λ x y, name_leb x y = true) k) ∧
  (comparable l = false → py_sorted l = Err TypeError).
Proof.
  split; intros H; [|by unfold py_sorted; rewrite H]. 
  destruct (py_sorted l) as [k|] eqn:E; [|unfold py_sorted in E; by rewrite H in E].
  exists k. split; [done|]. by apply py_sorted_spec.
Qed.
Lemma fn_closures_final c : good c → objs c ≠ [] →
  (∀ B, (∀ m, m ∈ B → m ∈ atts c) → ∃ X, aclosure c B = Ok X ∧
     (comparable (elements X) = true →
        ∃ k, fn_aclosure c B = Ok k ∧ k ≡ₚ elements X ∧ StronglySorted (λ x y, name_leb x y = true) k) ∧
     (comparable (elements X) = false → fn_aclosure c B = Err TypeError)) ∧
  (∀ A, (∀ g, g ∈ A → g ∈ objs c) → ∃ X, oclosure c A = Ok X ∧
     (comparable (elements X) = true →
        ∃ k, fn_oclosure c A = Ok k ∧ k ≡ₚ elements X ∧ StronglySorted (λ x y, name_leb x y = true) k) ∧
     (comparable (elements X) = false → fn_oclosure c A = Err TypeError)).
Proof.
  intros Hg Hne. split; intros B HB.
  - destruct (fn_aclosure_sorted c B Hg Hne HB) as (X & HX & ->). exists X. split; [done|]. apply py_sorted_final.
  - destruct (fn_oclosure_sorted c B Hg Hne HB) as (X & HX & ->). exists X. split; [done|]. apply py_sorted_final.
Qed.
Lemma NoDup_pairwise {A B} (f : A → B) l :
  (∀ p q i j, l !! p = Some i → l !! q = Some j → p ≠ q → f i ≠ f j) → NoDup (map f l).
Proof.
  intros H. apply NoDup_alt. intros p q x. rewrite !list_lookup_fmap.
  intros (i & Hi & ->)%fmap_Some (j & Hj & E)%fmap_Some.
  destruct (decide (p = q)); [done|]. by destruct (H p q i j Hi Hj n).
Qed.
Lemma lin_closure_final ord s imps :
  (∀ k X, ord k X ≡ₚ elements X) →
  (∀ p q i j, imps !! p = Some i → imps !! q = Some j → p ≠ q → imp_eqb i j = false) →
  (∀ i, i ∈ imps → is_ok (imp_repr i) = true) →
  ∃ C, lin_closure ord s imps = Ok C ∧ simple_closure s imps = Ok C ∧ is_closure imps s C.
Proof.
  intros Hord Hnd Hh. destruct (simple_closure_spec s imps Hh) as (C & HC & H1).
  destruct (lin_closure_spec ord s imps Hord) as (C' & HC' & H2); [|done|].
  - apply NoDup_pairwise. intros p q i j Hi Hj Hpq E%imp_eqb_ikey. rewrite (Hnd p q i j) in E; done.
  - exists C. rewrite (is_closure_unique _ _ _ _ H1 H2) in *. done.
Qed.
Lemma closure_final cur base imps k :
  ∃ C, cur ⊆ C ∧ (∀ i, i ∈ imps → i.1 ⊆ C → i.2 ⊆ C) ∧
    (∀ Y, cur ⊆ Y → (∀ i, i ∈ imps → i.1 ⊆ Y → i.2 ⊆ Y) → C ⊆ Y) ∧
    ((∀ x, x ∈ take k base → (x ∈ C ↔ x ∈ cur)) → closure cur base imps k = Ok (true, C)) ∧
    (¬ (∀ x, x ∈ take k base → (x ∈ C ↔ x ∈ cur)) → closure cur base imps k = Ok (false, ∅)).
Proof. destruct (closure_spec cur base imps k) as (C & (H1 & H2 & H3) & H4 & H5). by exists C. Qed.
Lemma implication_final i j X :
  (is_respected i X = true ↔ (i.1 ⊆ X → i.2 ⊆ X)) ∧
  (imp_eqb i j = true ↔ i.1 = j.1 ∧ i.2 ∖ i.1 = j.2 ∖ j.1) ∧
  (imp_eqb i j = true → is_respected i X = is_respected j X ∧ imp_repr i = imp_repr j).
Proof.
  split; [apply is_respected_spec|]. split; [apply imp_eqb_spec|]. intros [E1 E2]%imp_eqb_spec.
  unfold is_respected, imp_repr, conclusion. rewrite !E2, !E1. done.
Qed.
Lemma comparable_spec l : comparable l = true ↔
  (∀ x, x ∈ l → is_str x = true) ∨ (∀ x, x ∈ l → is_str x = false).
Proof.
  unfold comparable. rewrite orb_true_iff, !forallb_forall. setoid_rewrite <-elem_of_list_In.
  by setoid_rewrite negb_true_iff.
Qed.
Lemma hashable_final i : is_ok (imp_repr i) = true ↔
  ((∀ x, x ∈ i.1 → is_str x = true) ∨ (∀ x, x ∈ i.1 → is_str x = false)) ∧
  ((∀ x, x ∈ i.2 → x ∉ i.1 → is_str x = true) ∨ (∀ x, x ∈ i.2 → x ∉ i.1 → is_str x = false)).
Proof.
  trans (comparable (elements i.1) = true ∧ comparable (elements (conclusion i)) = true).
  - unfold imp_repr, py_sorted. destruct (comparable (elements i.1)); simpl; [|naive_solver].
    destruct (comparable (elements (conclusion i))); simpl; naive_solver.
  - rewrite !comparable_spec. setoid_rewrite elem_of_elements. unfold conclusion.
    setoid_rewrite elem_of_difference. naive_solver.
Qed.

(** ** lin_closure always terminates, with repeated implications too *)
Lemma decrease_all_sub is count count' a : decrease_all count is = (count', a) →
  ∀ x, x ∈ a → ∃ i, i ∈ is ∧ x ∈ i.2.
Proof.
  revert count count' a. induction is as [|i is IH]; intros count count' a; cbn [decrease_all].
  { intros [= <- <-] x ?%elem_of_empty. done. }
  destruct (decrease_count count i) as [c1 a1] eqn:E1. destruct (decrease_all c1 is) as [c2 a2] eqn:E2.
  intros [= <- <-] x [Hx|Hx]%elem_of_union.
  - exists i. split; [by left|]. unfold decrease_count in E1. destruct (dget (ikey i) count) as [[|k]|].
    + injection E1 as <- <-. by apply elem_of_empty in Hx.
    + injection E1 as <- <-. case_decide; [done|]. by apply elem_of_empty in Hx.
    + injection E1 as <- <-. by apply elem_of_empty in Hx.
  - destruct (IH _ _ _ E2 x Hx) as (j & Hj & Hxj). exists j. split; [by right|done].
Qed.
Lemma lin_loop_total ord imps U fuel k update C D count : good_ord ord → (∀ i, i ∈ imps → i.2 ⊆ U) →
  NoDup update → (∀ x, x ∈ C ↔ x ∈ D ∨ x ∈ update) → (∀ x, x ∈ update → x ∉ D) →
  C ⊆ U → size (U ∖ D) ≤ fuel →
  ∃ C', lin_loop ord imps fuel k update C count = Ok C' ∧ C ⊆ C' ∧ C' ⊆ U.
Proof.
  intros Hord HU. revert k update C D count. induction fuel as [|fuel IH]; intros k update C D count H1 H2 H3 H8 H9.
  all: destruct update as [|m update].
  1,3: exists C; done.
  - exfalso. assert (m ∈ U ∖ D) as Hm.
    { apply elem_of_difference. split; [apply H8, H2; right; by left|]. apply H3. by left. }
    apply Nat.le_0_r, size_empty_iff in H9. by apply H9, elem_of_empty in Hm.
  - cbn [lin_loop]. set (is := List.filter (λ i : gset name * gset name, bool_decide (m ∈ i.1)) imps).
    destruct (decrease_all count is) as [count' a] eqn:E.
    pose proof (decrease_all_sub _ _ _ _ E) as Ha.
    assert (m ∉ D) as HmD by (apply H3; by left).
    assert (m ∈ C) as HmC by (apply H2; right; by left).
    apply NoDup_cons in H1 as [Hmu H1].
    destruct (IH (S k) (reverse (ord k (a ∖ C)) ++ update) (C ∪ a ∖ C) (D ∪ {[m]}) count') as (C' & HC' & HC1 & HC2).
    + apply NoDup_app. split; [rewrite reverse_Permutation; by apply NoDup_ord|]. split; [|done].
      intros x Hx Hu. rewrite elem_of_reverse, elem_of_ord, elem_of_difference in Hx by done.
      destruct Hx as [_ Hx]. apply Hx, H2. right. by right.
    + intros x. rewrite elem_of_app, elem_of_reverse, elem_of_ord by done.
      rewrite !elem_of_union, elem_of_singleton, H2, elem_of_cons. tauto.
    + intros x [Hx|Hx]%elem_of_app.
      * rewrite elem_of_reverse, elem_of_ord, elem_of_difference in Hx by done. destruct Hx as [_ Hx].
        rewrite H2, elem_of_cons in Hx. rewrite elem_of_union, elem_of_singleton. tauto.
      * rewrite not_elem_of_union, not_elem_of_singleton. split; [apply H3; by right|]. by intros ->.
    + intros x [Hx|Hx]%elem_of_union; [by apply H8|]. apply elem_of_difference in Hx as [Hx _].
      destruct (Ha x Hx) as (i & Hi & Hxi). apply elem_of_Lfilter in Hi as [Hi _]. by apply (HU i).
    + rewrite (size_difference_S U D m) in H9; [lia|by apply H8|done].
    + exists C'. split; [done|]. split; [|done]. clear -HC1. set_solver.
Qed.
Lemma lin_closure_total ord s imps : good_ord ord → (∀ i, i ∈ imps → hashable i = true) →
  ∃ C, lin_closure ord s imps = Ok C ∧ s ⊆ C ∧ C ⊆ s ∪ ⋃ map snd imps.
Proof.
  intros Hord Hh. unfold lin_closure. destruct imps as [|i0 imps0].
  { exists s. split; [done|]. split; [done|]. clear. set_solver. }
  set (imps := i0 :: imps0) in *. rewrite (proj2 (forallb_forall _ _)).
  2: { intros i Hi. apply Hh. by apply elem_of_list_In. }
  pose proof (lin_init imps s) as Hinit. cbv zeta in Hinit.
  set (C := foldl _ s imps) in *. destruct Hinit as (H1 & H2 & H3).
  assert (∀ i, i ∈ imps → i.2 ⊆ s ∪ ⋃ map snd imps) as HU.
  { intros i Hi x Hx. apply elem_of_union. right. apply elem_of_union_list. exists i.2. split; [|done].
    by apply elem_of_list_fmap_1. }
  cbv zeta. destruct (lin_loop_total ord imps (s ∪ ⋃ map snd imps) (size (s ∪ ⋃ map snd imps)) 1 (reverse (ord 0 C)) C ∅
    (dict_of (map (λ i : fimp, (ikey i, size i.1)) imps))) as (C' & HC' & HC1 & HC2).
  - done.
  - done.
  - rewrite reverse_Permutation. by apply NoDup_ord.
  - intros x. rewrite elem_of_reverse, elem_of_ord by done. clear. set_solver.
  - intros x _. apply not_elem_of_empty.
  - intros x Hx. destruct (H3 x Hx) as [?|(i & Hi & Ei & Hxi)]; [clear -H; set_solver|]. by apply (HU i).
  - by rewrite difference_empty_L.
  - exists C'. split; [done|]. split; [|done]. by transitivity C.
Qed.
Lemma lin_closure_TypeError ord s imps : (∃ i, i ∈ imps ∧ hashable i = false) →
  lin_closure ord s imps = Err TypeError.
Proof.
  intros (i & Hi & Hh). unfold lin_closure. destruct imps as [|i0 imps0]; [by apply elem_of_nil in Hi|].
  destruct (forallb hashable (i0 :: imps0)) eqn:E; [|done].
  rewrite forallb_forall in E. rewrite E in Hh; [done|]. by apply elem_of_list_In.
Qed.
