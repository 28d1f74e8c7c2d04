(** * Bi-unary algebras: proofs *)
From Verif Require Import Py PyFacts BiUnarModel BiUnarSpec.

Lemma tuple_get_image t x : (1 ≤ x ≤ Z.of_nat (length t))%Z → tuple_get t (x - 1) = Ok (image t x).
Proof.
  intros H. unfold tuple_get, image. rewrite (proj2 (Z.leb_le _ _)) by lia.
  destruct (lookup_lt_is_Some_2 t (Z.to_nat (x - 1))) as [y ->]; [lia|done].
Qed.
Lemma mapM_Ok {A B} (f : A → res B) (g : A → B) l : (∀ x, x ∈ l → f x = Ok (g x)) → mapM f l = Ok (map g l).
Proof.
  induction l as [|x l IH]; intros H; [done|]. cbn. rewrite (H x) by left. cbn. rewrite IH; [done|]. intros y Hy. apply H. by right.
Qed.
Lemma compose_Ok f g : (∀ x, x ∈ g → (1 ≤ x ≤ Z.of_nat (length f))%Z) → compose f g = Ok (map (image f) g).
Proof. intros H. apply mapM_Ok. intros x Hx. by apply tuple_get_image, H. Qed.
Lemma as_image t n : length t = n → t = map (image t) (seqZ 1 (Z.of_nat n)).
Proof.
  intros Hl. apply list_eq. intros k. rewrite list_lookup_fmap. destruct (decide (k < n)) as [Hk|Hk].
  - rewrite lookup_seqZ_lt by lia. cbn. unfold image. replace (Z.to_nat (1 + Z.of_nat k - 1)) with k by lia.
    destruct (lookup_lt_is_Some_2 t k) as [y ->]; [lia|done].
  - rewrite lookup_seqZ_ge by lia. cbn. apply lookup_ge_None_2. lia.
Qed.
Section algebra.
  Context (n : nat) (b : biunar) (Hb : algebra n b).
  Lemma term_value_act t : t < 7 → term_value t b = Ok (map (act b (word t)) (seqZ 1 (Z.of_nat n))).
  Proof.
    destruct Hb as (Hf & Hg & Rf & Rg). intros Ht.
    assert (∀ x, x ∈ seqZ 1 (Z.of_nat n) → (1 ≤ x ≤ Z.of_nat n)%Z) as Hx by (intros x; rewrite elem_of_seqZ; lia).
    assert (∀ f g, length f = n → length g = n → (∀ x, x ∈ g → (1 ≤ x ≤ Z.of_nat n)%Z) →
      compose f g = Ok (map (λ x, image f (image g x)) (seqZ 1 (Z.of_nat n)))) as Hc.
    { intros f g E1 E2 R. rewrite compose_Ok by by rewrite E1. rewrite (as_image g n E2) at 1. by rewrite map_map. }
    destruct t as [|[|[|[|[|[|[|t]]]]]]]; [..|lia]; cbn [term_value word act foldr].
    - rewrite Hf. f_equal. symmetry. apply map_id.
    - f_equal. by apply as_image.
    - f_equal. by apply as_image.
    - by apply Hc.
    - by apply Hc.
    - by apply Hc.
    - by apply Hc.
  Qed.
  Lemma eqn_holds_spec e : e.1 < 7 → e.2 < 7 → ∃ v, eqn_holds e b = Ok v ∧ (v = true ↔ satisfies n b e).
  Proof.
    intros H1 H2. unfold eqn_holds. rewrite !term_value_act by done. cbn [mbind res_bind]. eexists. split; [done|].
    rewrite bool_decide_eq_true. split.
    - intros E x Hx. apply (f_equal (λ l, l !! Z.to_nat (x - 1))) in E. rewrite !list_lookup_fmap, lookup_seqZ_lt in E by lia. cbn in E.
      replace (1 + Z.of_nat (Z.to_nat (x - 1)))%Z with x in E by lia. congruence.
    - intros E. apply map_ext_in. intros x Hx%elem_of_list_In. apply elem_of_seqZ in Hx. apply E. lia.
  Qed.
  Lemma filter_holds_spec l : (∀ e, e ∈ l → e.1 < 7 ∧ e.2 < 7) →
    ∃ r, filter_holds b l = Ok r ∧ ∀ e, e ∈ r ↔ e ∈ l ∧ satisfies n b e.
  Proof.
    induction l as [|a l IH]; intros Hl; cbn [filter_holds].
    { exists []. split; [done|]. intros e. rewrite elem_of_nil. tauto. }
    destruct (eqn_holds_spec a) as (v & -> & Hv); [apply Hl; left|apply Hl; left|].
    destruct IH as (r & -> & Hr); [intros e He; apply Hl; by right|]. cbn [mbind res_bind]. eexists. split; [done|].
    intros e. rewrite elem_of_cons. destruct v.
    - rewrite elem_of_cons, Hr. assert (satisfies n b a) by by apply Hv. naive_solver.
    - rewrite Hr. assert (¬ satisfies n b a) by (intros H%Hv; done). naive_solver.
  Qed.
End algebra.
Lemma attributes_forall (P : eqn → Prop) `{∀ e, Decision (P e)} : bool_decide (Forall P attributes) = true → ∀ e, e ∈ attributes → P e.
Proof. intros Hd%bool_decide_eq_true. by rewrite Forall_forall in Hd. Qed.
Lemma attributes_bound e : e ∈ attributes → e.1 < e.2 < 7.
Proof. revert e. apply (attributes_forall (λ e, e.1 < e.2 < 7)). by vm_compute. Qed.
Local Opaque attributes.
Lemma in_attributes (S : gset eqn) e : S ⊆ list_to_set attributes → e ∈ S → e ∈ attributes.
Proof. intros H He. apply H in He. by apply elem_of_list_to_set in He. Qed.
Lemma attributes_all i j : i < j < 7 → (i, j) ∈ attributes.
Proof.
  intros H. Transparent attributes. unfold attributes. Opaque attributes. apply elem_of_list_In, in_flat_map. exists i. split; [apply in_seq; cbn; lia|]. apply in_map, in_seq. cbn. lia.
Qed.
Lemma bu_intent_spec n b : algebra n b → ∃ S, bu_intent b = Ok S ∧ ∀ e, e ∈ S ↔ e ∈ attributes ∧ satisfies n b e.
Proof.
  intros Hb. unfold bu_intent. destruct (filter_holds_spec n b Hb attributes) as (r & -> & Hr).
  { intros e He%attributes_bound. lia. }
  eexists. split; [done|]. intros e. by rewrite elem_of_list_to_set.
Qed.

(** ** Symmetry *)
Definition sig (t : nat) : nat := match t with 0 => 0 | 1 => 2 | 2 => 1 | 3 => 6 | 4 => 5 | 5 => 4 | _ => 3 end.
Definition sw (e : eqn) : eqn := if (sig e.2 <? sig e.1) then (sig e.2, sig e.1) else (sig e.1, sig e.2).
Lemma symmetric_eqn_sw e : e ∈ attributes → symmetric_eqn e = Ok (Some (sw e)).
Proof. revert e. apply (attributes_forall (λ e, symmetric_eqn e = Ok (Some (sw e)))). by vm_compute. Qed.
Lemma sw_attributes e : e ∈ attributes → sw e ∈ attributes.
Proof. revert e. apply (attributes_forall (λ e, sw e ∈ attributes)). by vm_compute. Qed.
Lemma sw_sw e : e ∈ attributes → sw (sw e) = e.
Proof. revert e. apply (attributes_forall (λ e, sw (sw e) = e)). by vm_compute. Qed.
Global Instance letter_dec : EqDecision letter.
Proof. solve_decision. Defined.
Lemma sw_mirror e : e ∈ attributes → mirror e (sw e).
Proof. revert e. apply (attributes_forall (λ e, mirror e (sw e))). unfold mirror, is_flip. by vm_compute. Qed.
Lemma word_inj t t' : t < 7 → t' < 7 → word t = word t' → t = t'.
Proof.
  intros H H' E. destruct t as [|[|[|[|[|[|[|t]]]]]]], t' as [|[|[|[|[|[|[|t']]]]]]]; try done; lia.
Qed.
Lemma mirror_sw e e' : e ∈ attributes → e' ∈ attributes → mirror e e' → e' = sw e.
Proof.
  intros He He' Hm. pose proof (sw_mirror e He) as Hs. pose proof (attributes_bound _ He') as H1.
  pose proof (attributes_bound _ (sw_attributes _ He)) as H2. destruct e' as [i j], (sw e) as [i' j'] eqn:E. cbn in *.
  assert (∀ t u u', is_flip t u → is_flip t u' → u = u') as Hu.
  { intros t u u' (_ & ? & E1) (_ & ? & E2). apply word_inj; [done|done|congruence]. }
  destruct Hm as [[m1 m2]|[m1 m2]], Hs as [[s1 s2]|[s1 s2]]; cbn [fst snd] in *;
    rewrite ?(Hu _ _ _ m1 s1), ?(Hu _ _ _ m2 s2) in *; try done;
    pose proof (Hu _ _ _ m1 s1); pose proof (Hu _ _ _ m2 s2); lia.
Qed.
Lemma symmetric_set_list l : (∀ e, e ∈ l → e ∈ attributes) → get_symmetric_attribute_set l = Ok (list_to_set (map sw l)).
Proof.
  induction l as [|e l IH]; intros H; [done|]. cbn [get_symmetric_attribute_set]. rewrite symmetric_eqn_sw by (apply H; left).
  cbn [mbind res_bind]. rewrite IH by (intros x Hx; apply H; by right). done.
Qed.
Definition swset (S : gset eqn) : gset eqn := list_to_set (map sw (elements S)).
Lemma elem_of_swset S e : S ⊆ list_to_set attributes → e ∈ swset S ↔ e ∈ attributes ∧ sw e ∈ S.
Proof.
  intros HS. unfold swset. rewrite elem_of_list_to_set, elem_of_list_fmap. split.
  - intros (x & -> & Hx). apply elem_of_elements in Hx. assert (x ∈ attributes) by by apply (in_attributes S).
    split; [by apply sw_attributes|by rewrite sw_sw].
  - intros [H1 H2]. exists (sw e). split; [by rewrite sw_sw|by apply elem_of_elements].
Qed.
Lemma swset_sub S : S ⊆ list_to_set attributes → swset S ⊆ list_to_set attributes.
Proof. intros HS e He. apply elem_of_swset in He as [He _]; [by apply elem_of_list_to_set|done]. Qed.
Lemma swset_swset S : S ⊆ list_to_set attributes → swset (swset S) = S.
Proof.
  intros HS. apply set_eq. intros e. rewrite elem_of_swset by by apply swset_sub. split.
  - intros [He Hs]. apply elem_of_swset in Hs as [_ Hs]; [|done]. by rewrite sw_sw in Hs.
  - intros He. assert (e ∈ attributes) as Ha by by apply (in_attributes S). split; [done|]. apply elem_of_swset; [done|].
    split; [by apply sw_attributes|by rewrite sw_sw].
Qed.
Lemma symmetric_set_spec l S : S ⊆ list_to_set attributes → l ≡ₚ elements S → get_symmetric_attribute_set l = Ok (swset S).
Proof.
  intros HS Hl. rewrite symmetric_set_list.
  - f_equal. unfold swset. apply set_eq. intros e. rewrite !elem_of_list_to_set, !elem_of_list_fmap. by setoid_rewrite Hl.
  - intros e. rewrite Hl, elem_of_elements. intros He. by apply (in_attributes S).
Qed.
Lemma act_copy b w x : act (automorphic_copy b) w x = act b (map flip w) x.
Proof. unfold act. induction w as [|l w IH]; [done|]. cbn [map foldr]. rewrite IH. by destruct l. Qed.
Lemma algebra_copy n b : algebra n b → algebra n (automorphic_copy b).
Proof. unfold algebra, automorphic_copy. cbn. tauto. Qed.
Lemma satisfies_copy n b e e' : mirror e e' → satisfies n (automorphic_copy b) e ↔ satisfies n b e'.
Proof.
  intros Hm. unfold satisfies. setoid_rewrite act_copy.
  destruct Hm as [[(_ & _ & <-) (_ & _ & <-)]|[(_ & _ & <-) (_ & _ & <-)]]; [done|].
  split; intros H x Hx; symmetry; by apply H.
Qed.
Lemma intent_copy n b S : algebra n b → bu_intent b = Ok S → bu_intent (automorphic_copy b) = Ok (swset S).
Proof.
  intros Hb E. destruct (bu_intent_spec n b Hb) as (S' & E' & HS). rewrite E in E'. injection E' as <-.
  destruct (bu_intent_spec n _ (algebra_copy n b Hb)) as (T & -> & HT). f_equal. apply set_eq. intros e.
  rewrite elem_of_swset by (intros x [Hx _]%HS; by apply elem_of_list_to_set). rewrite HT, HS. split.
  - intros [He Hs]. split; [done|]. split; [by apply sw_attributes|]. by apply (satisfies_copy n b e (sw e) (sw_mirror e He)).
  - intros (He & _ & Hs). split; [done|]. by apply (satisfies_copy n b e (sw e) (sw_mirror e He)).
Qed.

(** ** Orbits *)
Lemma orbit_or S T l : orbit_scan S T l = true ∨ orbit_scan T S l = true.
Proof. induction l as [|a l IH]; [by left|]. cbn. destruct (bool_decide (a ∈ S)), (bool_decide (a ∈ T)); auto. Qed.
Lemma orbit_both S T l : orbit_scan S T l = true ∧ orbit_scan T S l = true ↔ ∀ a, a ∈ l → a ∈ S ↔ a ∈ T.
Proof.
  induction l as [|a l IH]; cbn; [split; [by intros _ a ?%elem_of_nil|done]|]. setoid_rewrite elem_of_cons.
  destruct (bool_decide (a ∈ S)) eqn:ES, (bool_decide (a ∈ T)) eqn:ET;
    try apply bool_decide_eq_true in ES; try apply bool_decide_eq_true in ET; try apply bool_decide_eq_false in ES; try apply bool_decide_eq_false in ET.
  - rewrite IH. naive_solver.
  - naive_solver.
  - naive_solver.
  - rewrite IH. naive_solver.
Qed.
Lemma orbit_spec ord S : (∀ S, ord S ≡ₚ elements S) → S ⊆ list_to_set attributes →
  ∃ v v', is_orbit_maximal ord S = Ok v ∧ is_orbit_maximal ord (swset S) = Ok v' ∧ (v || v' = true) ∧ (v && v' = true ↔ swset S = S).
Proof.
  intros Ho HS. unfold is_orbit_maximal. rewrite (symmetric_set_spec _ S HS (Ho S)), (symmetric_set_spec _ _ (swset_sub S HS) (Ho _)).
  cbn [mbind res_bind]. rewrite (swset_swset S HS). eexists _, _. split; [done|]. split; [done|]. split.
  - apply orb_true_iff. apply orbit_or.
  - rewrite andb_true_iff, orbit_both. split.
    + intros H. apply set_eq. intros e. split; intros He.
      * apply H; [|done]. by apply (in_attributes (swset S)); [apply swset_sub|].
      * apply H; [|done]. by apply (in_attributes S).
    + intros E a _. by rewrite E.
Qed.
Lemma conclusion_over i : over_attributes i → econclusion i ⊆ list_to_set attributes.
Proof. intros [_ H] e [He _]%elem_of_difference. by apply H. Qed.
Lemma symmetric_imp ord i : (∀ S, ord S ≡ₚ elements S) → over_attributes i →
  get_symmetric_implication ord i = Ok (swset i.1, swset (econclusion i)).
Proof.
  intros Ho Hi. unfold get_symmetric_implication. rewrite (symmetric_set_spec _ i.1 (proj1 Hi) (Ho _)).
  rewrite (symmetric_set_spec _ (econclusion i)); [done|by apply conclusion_over|apply Ho].
Qed.
Lemma erespects_conclusion X i : erespects X i ↔ (i.1 ⊆ X → econclusion i ⊆ X).
Proof.
  unfold erespects, econclusion. split; intros H Hp; specialize (H Hp); [set_solver|]. intros x Hx. destruct (decide (x ∈ i.1)); set_solver.
Qed.
Lemma erespected_spec i X : erespected i X = true ↔ erespects X i.
Proof.
  rewrite erespects_conclusion. unfold erespected. destruct (bool_decide (i.1 ⊆ X)) eqn:E; cbn.
  - apply bool_decide_eq_true in E. rewrite bool_decide_eq_true. tauto.
  - apply bool_decide_eq_false in E. tauto.
Qed.
Lemma swset_mono S T : S ⊆ list_to_set attributes → T ⊆ list_to_set attributes → swset S ⊆ swset T ↔ S ⊆ T.
Proof.
  assert (∀ S T, S ⊆ T → swset S ⊆ swset T) as H.
  { intros S' T' H e. unfold swset. rewrite !elem_of_list_to_set, !elem_of_list_fmap. setoid_rewrite elem_of_elements. set_solver. }
  intros HS HT. split; [|apply H]. intros Hs%H. by rewrite !swset_swset in Hs.
Qed.
Lemma symmetric_imp_valid i X : over_attributes i → X ⊆ list_to_set attributes →
  erespects (swset X) (swset i.1, swset (econclusion i)) ↔ erespects X i.
Proof.
  intros Hi HX. rewrite (erespects_conclusion X). unfold erespects. cbn [fst snd].
  rewrite (swset_mono i.1 X (proj1 Hi) HX), (swset_mono (econclusion i) X (conclusion_over i Hi) HX). done.
Qed.

(** ** Background *)
Lemma elem_of_background l x y z : x ∈ l → y ∈ l → z ∈ l →
  (x.1 = z.1 ∧ x.2 = y.1 ∧ y.2 = z.2) ∨ (x.1 = z.1 ∧ x.2 = y.2 ∧ y.1 = z.2) ∨ (x.1 = y.1 ∧ x.2 = z.1 ∧ y.2 = z.2) →
  ({[x; y]}, {[z]}) ∈ generate_background_implications l.
Proof.
  intros Hx Hy Hz Hc. unfold generate_background_implications. apply elem_of_list_In, in_flat_map. exists x. split; [by apply elem_of_list_In|].
  apply in_flat_map. exists y. split; [by apply elem_of_list_In|]. apply elem_of_list_In, elem_of_list_omap. exists z. split; [done|].
  by rewrite bool_decide_true.
Qed.
Lemma background_elem l i : i ∈ generate_background_implications l → ∃ x y z, x ∈ l ∧ y ∈ l ∧ z ∈ l ∧ i = ({[x; y]}, {[z]}) ∧
  ((x.1 = z.1 ∧ x.2 = y.1 ∧ y.2 = z.2) ∨ (x.1 = z.1 ∧ x.2 = y.2 ∧ y.1 = z.2) ∨ (x.1 = y.1 ∧ x.2 = z.1 ∧ y.2 = z.2)).
Proof.
  unfold generate_background_implications. intros (x & Hx & Hi)%elem_of_list_In%in_flat_map. apply in_flat_map in Hi as (y & Hy & Hi).
  apply elem_of_list_In, elem_of_list_omap in Hi as (z & Hz & Hi). destruct (bool_decide _) eqn:E; [|done]. apply bool_decide_eq_true in E.
  exists x, y, z. rewrite !elem_of_list_In. split; [done|]. split; [done|]. split; [by apply elem_of_list_In|]. split; [congruence|done].
Qed.
Lemma background_sound (E : nat → nat → Prop) S : (∀ i j k, E i j → E j k → E i k) → (∀ i j, E i j → E j i) →
  (∀ e, e ∈ attributes → e ∈ S ↔ E e.1 e.2) → ∀ i, i ∈ generate_background_implications attributes → erespects S i.
Proof.
  intros Ht Hs HS i (x & y & z & Hx & Hy & Hz & -> & Hc)%background_elem Hp. cbn [fst snd] in Hp. cbn [snd].
  assert (E x.1 x.2) by (apply HS; [done|set_solver]). assert (E y.1 y.2) by (apply HS; [done|set_solver]).
  assert (E z.1 z.2); [|intros e ->%elem_of_singleton; by apply HS].
  destruct Hc as [(<- & e2 & <-)|[(<- & e2 & <-)|(e1 & <- & <-)]].
  - rewrite <-e2 in *. eauto.
  - rewrite <-e2 in *. eauto.
  - rewrite e1 in *. eauto.
Qed.
Lemma background_complete_gen (l : list eqn) S : (∀ e, e ∈ l → e.1 < e.2 < 7) → (∀ i j, i < j < 7 → (i, j) ∈ l) → (∀ e, e ∈ S → e ∈ l) → (∀ i, i ∈ generate_background_implications l → erespects S i) →
  ∃ E : nat → nat → Prop, (∀ i, E i i) ∧ (∀ i j, E i j → E j i) ∧ (∀ i j k, E i j → E j k → E i k) ∧ ∀ e, e ∈ l → e ∈ S ↔ E e.1 e.2.
Proof.
  intros Hbd Hall HS Hm. exists (λ i j, i = j ∨ (i, j) ∈ S ∨ (j, i) ∈ S). split; [auto|]. split; [naive_solver|].
  assert (∀ x y z, x ∈ S → y ∈ S → z ∈ l →
    (x.1 = z.1 ∧ x.2 = y.1 ∧ y.2 = z.2) ∨ (x.1 = z.1 ∧ x.2 = y.2 ∧ y.1 = z.2) ∨ (x.1 = y.1 ∧ x.2 = z.1 ∧ y.2 = z.2) → z ∈ S) as Hstep.
  { intros x y z Hx Hy Hz Hc. assert (({[z]} : gset eqn) ⊆ S) as Hsub; [|by apply Hsub, elem_of_singleton].
    assert (erespects S ({[x; y]}, {[z]})) as Hr by (apply Hm, elem_of_background; try done; by apply HS).
    apply Hr. cbn [fst]. intros e [->%elem_of_singleton| ->%elem_of_singleton]%elem_of_union; done. }
  assert (∀ i j, (i, j) ∈ S → i < j < 7) as Hb by (intros i j H; by apply (Hbd (i, j)), HS).
  split.
  - intros i j k Hij Hjk. destruct Hij as [<-|Hij]; [done|]. destruct Hjk as [<-|Hjk]; [by right|].
    destruct (decide (i = k)) as [|Hne]; [by left|]. right. destruct (decide (i < k)) as [Hlt|Hge].
    + left. assert (i < 7 ∧ k < 7) as [Hi Hk] by (destruct Hij as [H|H], Hjk as [H'|H']; apply Hb in H, H'; lia).
      assert ((i, k) ∈ l) as Hz by (apply Hall; lia).
      destruct Hij as [H|H], Hjk as [H'|H'].
      * apply (Hstep (i, j) (j, k) (i, k)); cbn; auto.
      * apply (Hstep (i, j) (k, j) (i, k)); cbn; auto.
      * apply (Hstep (j, i) (j, k) (i, k)); cbn; auto.
      * apply Hb in H, H'. lia.
    + right. assert (i < 7 ∧ k < 7) as [Hi Hk] by (destruct Hij as [H|H], Hjk as [H'|H']; apply Hb in H, H'; lia).
      assert ((k, i) ∈ l) as Hz by (apply Hall; lia).
      destruct Hij as [H|H], Hjk as [H'|H'].
      * apply Hb in H, H'. lia.
      * apply (Hstep (k, j) (i, j) (k, i)); cbn; auto.
      * apply (Hstep (j, k) (j, i) (k, i)); cbn; auto.
      * apply (Hstep (k, j) (j, i) (k, i)); cbn; auto.
  - intros [i j] He. cbn. apply Hbd in He. cbn in He. split; [auto|]. intros [->|[H|H]]; [lia|done|]. apply Hb in H. lia.
Qed.
Lemma background_complete S : S ⊆ list_to_set attributes → (∀ i, i ∈ generate_background_implications attributes → erespects S i) →
  ∃ E : nat → nat → Prop, (∀ i, E i i) ∧ (∀ i j, E i j → E j i) ∧ (∀ i j k, E i j → E j k → E i k) ∧ ∀ e, e ∈ attributes → e ∈ S ↔ E e.1 e.2.
Proof. intros HS. apply background_complete_gen; [exact attributes_bound|exact attributes_all|]. intros e. by apply in_attributes. Qed.
Lemma background_intents n b S i : algebra n b → bu_intent b = Ok S → i ∈ generate_background_implications attributes → erespects S i.
Proof.
  intros Hb E. destruct (bu_intent_spec n b Hb) as (S' & E' & HS). rewrite E in E'. injection E' as <-.
  apply (background_sound (λ i j, ∀ x, (1 ≤ x ≤ Z.of_nat n)%Z → act b (word i) x = act b (word j) x)).
  - intros i1 i2 i3 H1 H2 x Hx. rewrite H1 by done. by apply H2.
  - intros i1 i2 H x Hx. symmetry. by apply H.
  - intros e He. rewrite HS. unfold satisfies. tauto.
Qed.

(** ** Enumeration *)
Lemma elem_of_tuples {A} (l : list A) n t : t ∈ tuples l n ↔ length t = n ∧ ∀ x, x ∈ t → x ∈ l.
Proof.
  revert t. induction n as [|n IH]; intros t; cbn [tuples].
  - rewrite elem_of_list_singleton. split; [intros ->; split; [done|by intros x ?%elem_of_nil]|]. intros [H _]. by destruct t.
  - rewrite elem_of_list_In, in_flat_map. setoid_rewrite in_map_iff. setoid_rewrite <-elem_of_list_In. setoid_rewrite IH. split.
    + intros (x & Hx & t' & <- & Hl & Ht). cbn. split; [lia|]. intros y [->|Hy]%elem_of_cons; auto.
    + intros [Hl Ht]. destruct t as [|x t]; [done|]. exists x. split; [apply Ht; left|]. exists t. split; [done|]. cbn in Hl. split; [lia|].
      intros y Hy. apply Ht. by right.
Qed.
Lemma NoDup_flat_map {A B} (f : A → list B) l : NoDup l → (∀ x, x ∈ l → NoDup (f x)) →
  (∀ x y b, x ∈ l → y ∈ l → b ∈ f x → b ∈ f y → x = y) → NoDup (flat_map f l).
Proof.
  induction l as [|x l IH]; intros Hn Hf Hd; cbn; [constructor|]. apply NoDup_cons in Hn as [Hx Hn]. apply NoDup_app. split; [apply Hf; left|].
  split.
  - intros b Hb Hb'. apply elem_of_list_In, in_flat_map in Hb' as (y & Hy & Hb'). apply elem_of_list_In in Hy, Hb'.
    assert (x = y) as -> by (eapply (Hd x y b); [left|by right|done|done]). done.
  - apply IH; [done| |]; [intros y Hy; apply Hf; by right|]. intros y z b Hy Hz. apply Hd; by right.
Qed.
Lemma NoDup_tuples {A} (l : list A) n : NoDup l → NoDup (tuples l n).
Proof.
  intros Hl. induction n as [|n IH]; cbn [tuples]; [apply NoDup_singleton|]. apply NoDup_flat_map; [done| |].
  - intros x _. apply (NoDup_fmap_2 (cons x)). done.
  - intros x y b _ _ (t & -> & _)%elem_of_list_fmap (t' & [= -> _] & _)%elem_of_list_fmap. done.
Qed.
Lemma length_flat_map_const {A B} (f : A → list B) l k : (∀ x, x ∈ l → length (f x) = k) → length (flat_map f l) = length l * k.
Proof.
  induction l as [|x l IH]; intros H; [done|]. cbn. rewrite app_length, (H x) by left. rewrite IH by (intros y Hy; apply H; by right). lia.
Qed.
Lemma length_tuples {A} (l : list A) n : length (tuples l n) = length l ^ n.
Proof.
  induction n as [|n IH]; [done|]. cbn [tuples]. rewrite (length_flat_map_const _ _ (length l ^ n)); [cbn; lia|]. intros x _. by rewrite map_length.
Qed.
Lemma elem_of_examples n b : b ∈ generate_examples n ↔ algebra n b.
Proof.
  unfold generate_examples. rewrite elem_of_list_In, in_flat_map. setoid_rewrite in_map_iff. setoid_rewrite <-elem_of_list_In.
  setoid_rewrite elem_of_tuples. setoid_rewrite elem_of_seqZ. unfold algebra. split.
  - intros (f & [Hf Rf] & g & <- & Hg & Rg). cbn. split; [done|]. split; [done|]. split; intros x Hx; [specialize (Rf x Hx)|specialize (Rg x Hx)]; lia.
  - intros (Hf & Hg & Rf & Rg). destruct b as [f g]; cbn in *. exists f. split; [split; [done|]; intros x Hx; specialize (Rf x Hx); lia|].
    exists g. split; [done|]. split; [done|]. intros x Hx. specialize (Rg x Hx). lia.
Qed.
Lemma NoDup_examples n : NoDup (generate_examples n).
Proof.
  unfold generate_examples. assert (NoDup (tuples (seqZ 1 (Z.of_nat n)) n)) by apply NoDup_tuples, NoDup_seqZ. apply NoDup_flat_map; [done| |].
  - intros f _. apply NoDup_fmap_2_strong; [|done]. by intros ? ? _ _ [= ->].
  - intros f f' b _ _ (g & -> & _)%elem_of_list_fmap (g' & [= -> _] & _)%elem_of_list_fmap. done.
Qed.
Lemma length_examples n : length (generate_examples n) = (n ^ n) * (n ^ n).
Proof.
  unfold generate_examples. rewrite (length_flat_map_const _ _ (n ^ n)).
  - rewrite length_tuples, seqZ_length, Nat2Z.id. done.
  - intros f _. by rewrite map_length, length_tuples, seqZ_length, Nat2Z.id.
Qed.
Lemma intent_respects n b S i : algebra n b → bu_intent b = Ok S → over_attributes i → erespects S i ↔ holds_in n b i.
Proof.
  intros Hb E [H1 H2]. destruct (bu_intent_spec n b Hb) as (S' & E' & HS). rewrite E in E'. injection E' as <-.
  assert (∀ T : gset eqn, T ⊆ list_to_set attributes → T ⊆ S ↔ ∀ e, e ∈ T → satisfies n b e) as HT.
  { intros T HT. split; [intros H e He; by apply HS, H|]. intros H e He. apply HS. split; [by apply (in_attributes T)|by apply H]. }
  unfold erespects, holds_in. by rewrite !HT.
Qed.
Lemma find_spec n i : over_attributes i → ∃ o, find_counter_example n i = Ok o ∧
  match o with Some b => algebra n b ∧ ¬ holds_in n b i | None => ∀ b, algebra n b → holds_in n b i end.
Proof.
  intros Hi. unfold find_counter_example.
  assert (∀ l, (∀ b, b ∈ l → algebra n b) → ∃ o, find_loop i l = Ok o ∧
    match o with Some b => algebra n b ∧ ¬ holds_in n b i | None => ∀ b, b ∈ l → holds_in n b i end) as H.
  { induction l as [|b l IH]; intros Hl; cbn [find_loop]; [exists None; split; [done|by intros b ?%elem_of_nil]|].
    assert (algebra n b) as Hb by (apply Hl; left). destruct (bu_intent_spec n b Hb) as (S & E & _). rewrite E. cbn [mbind res_bind].
    destruct (erespected i S) eqn:Er; cbn [negb].
    - apply erespected_spec in Er. apply (intent_respects n b S i Hb E Hi) in Er.
      destruct IH as (o & -> & Ho); [intros b' Hb'; apply Hl; by right|]. exists o. split; [done|]. destruct o; [done|].
      intros b' [->|Hb']%elem_of_cons; [done|by apply Ho].
    - exists (Some b). split; [done|]. split; [done|]. intros Hh. apply (intent_respects n b S i Hb E Hi), erespected_spec in Hh. congruence. }
  destruct (H (generate_examples n)) as (o & -> & Ho); [intros b; by apply elem_of_examples|]. exists o. split; [done|].
  destruct o; [done|]. intros b Hb. by apply Ho, elem_of_examples.
Qed.
(** ** Partial counterexamples *)
Lemma partial_spec ord n i b S : (∀ S, ord S ≡ₚ elements S) → over_attributes i → algebra n b → bu_intent b = Ok S →
  ∃ x q, generate_partial_counterexample ord i b = Ok (x, q) ∧ x ⊆ S ∧ S ⊆ q ∧ q ⊆ list_to_set attributes ∧
    ∀ Y, x ⊆ Y → Y ⊆ q → erespects Y i ↔ holds_in n b i.
Proof.
  intros Ho Hi Hb E. pose proof (intent_respects n b S i Hb E Hi) as Hr. pose proof (conclusion_over i Hi) as Hco. destruct Hi as [H1 H2].
  destruct (bu_intent_spec n b Hb) as (S' & E' & HS). rewrite E in E'. injection E' as <-.
  unfold generate_partial_counterexample. set (r := i.1 ∪ econclusion i).
  assert (r ⊆ list_to_set attributes) as Hsub by (unfold r; by apply union_least).
  assert (∀ e, e ∈ i.2 → e ∈ r) as Hr2. { intros e He. unfold r, econclusion. destruct (decide (e ∈ i.1)); set_solver. }
  destruct (filter_holds_spec n b Hb (ord r)) as (l & -> & Hl).
  { intros e. rewrite Ho, elem_of_elements. intros He%Hsub%elem_of_list_to_set%attributes_bound. lia. }
  cbn [mbind res_bind]. eexists _, _. split; [done|]. assert (∀ e, e ∈ l ↔ e ∈ r ∧ e ∈ S) as Hl'.
  { intros e. rewrite Hl, Ho, elem_of_elements, HS. split; [|tauto]. intros [He Hs]. split; [done|]. split; [by apply (in_attributes r)|done]. }
  assert (∀ e, e ∈ S → e ∈ (list_to_set attributes : gset eqn)) as HSa by (intros e [He _]%HS; by apply elem_of_list_to_set).
  split; [intros e; rewrite elem_of_list_to_set, Hl'; tauto|]. split.
  { intros e He. rewrite elem_of_union, elem_of_difference, (elem_of_list_to_set e l), Hl'.
    destruct (decide (e ∈ r)); [by right|left]. split; [by apply HSa|done]. }
  split.
  { intros e. rewrite elem_of_union, elem_of_difference, (elem_of_list_to_set e l), Hl'. intros [[? _]|[He _]]; [done|by apply Hsub]. }
  intros Y HxY HYq. rewrite <-Hr. assert (∀ e, e ∈ r → e ∈ Y ↔ e ∈ S) as HY.
  { intros e He. split; intros H.
    - apply HYq in H. rewrite elem_of_union, elem_of_difference, (elem_of_list_to_set e l), Hl' in H. tauto.
    - apply HxY. rewrite elem_of_list_to_set, Hl'. done. }
  unfold erespects. assert (i.1 ⊆ Y ↔ i.1 ⊆ S) as ->.
  { split; intros H e He; (apply HY; [unfold r; set_solver|by apply H]). }
  assert (i.2 ⊆ Y ↔ i.2 ⊆ S) as ->; [|done]. split; intros H e He; (apply HY; [by apply Hr2|by apply H]).
Qed.

(** ** Final forms *)
Lemma symmetric_set_final ord S : (∀ X, ord X ≡ₚ elements X) → S ⊆ list_to_set attributes →
  ∃ T, get_symmetric_attribute_set (ord S) = Ok T ∧ T ⊆ list_to_set attributes ∧
    (∀ e', e' ∈ T ↔ e' ∈ attributes ∧ ∃ e, e ∈ S ∧ mirror e e') ∧ get_symmetric_attribute_set (ord T) = Ok S ∧ size T = size S.
Proof.
  intros Ho HS. exists (swset S). pose proof (swset_sub S HS) as HT. split; [by apply symmetric_set_spec|]. split; [done|]. split.
  - intros e'. rewrite elem_of_swset by done. split.
    + intros [He Hs]. split; [done|]. exists (sw e'). split; [done|]. pose proof (sw_mirror (sw e') (sw_attributes _ He)) as H. by rewrite (sw_sw _ He) in H.
    + intros [He (e & Hs & Hm)]. split; [done|]. assert (e ∈ attributes) as Ha by by apply (in_attributes S).
      by rewrite (mirror_sw e e' Ha He Hm), sw_sw.
  - split; [rewrite (symmetric_set_spec _ (swset S) HT (Ho _)); by rewrite swset_swset|].
    unfold swset. rewrite size_list_to_set; [by rewrite map_length|]. apply NoDup_fmap_2_strong; [|apply NoDup_elements].
    intros x y Hx%elem_of_elements Hy%elem_of_elements E. apply (f_equal sw) in E. rewrite !sw_sw in E; [done|by apply (in_attributes S)..].
Qed.
Lemma orbit_scan_first S T l : orbit_scan S T l = true ↔ (∀ a, a ∈ l → a ∈ S ↔ a ∈ T) ∨
  ∃ k e, l !! k = Some e ∧ e ∈ S ∧ e ∉ T ∧ ∀ k' e', k' < k → l !! k' = Some e' → e' ∈ S ↔ e' ∈ T.
Proof.
  induction l as [|a l IH]; cbn [orbit_scan].
  { split; [intros _; left; by intros a ?%elem_of_nil|done]. }
  assert ((a ∈ S ↔ a ∈ T) → orbit_scan S T l = true ↔ (∀ b, b ∈ a :: l → b ∈ S ↔ b ∈ T) ∨
    ∃ k e, (a :: l) !! k = Some e ∧ e ∈ S ∧ e ∉ T ∧ ∀ k' e', k' < k → (a :: l) !! k' = Some e' → e' ∈ S ↔ e' ∈ T) as Hsame.
  { intros Ha. rewrite IH. clear IH. split; (intros [H|(k & e & H1 & H2 & H3 & H4)]; [left|right]).
    - intros b [->|Hb]%elem_of_cons; [done|by apply H].
    - exists (Datatypes.S k), e. split; [done|]. split; [done|]. split; [done|]. intros [|k'] e' Hk' He'; [cbn in He'; by injection He' as <-|]. apply (H4 k'); [lia|done].
    - intros b Hb. apply H. by right.
    - destruct k as [|k]; [cbn in H1; injection H1 as <-; tauto|]. exists k, e. split; [done|]. split; [done|]. split; [done|].
      intros k' e' Hk' He'. apply (H4 (Datatypes.S k')); [lia|done]. }
  destruct (bool_decide (a ∈ S)) eqn:ES, (bool_decide (a ∈ T)) eqn:ET;
    try apply bool_decide_eq_true in ES; try apply bool_decide_eq_true in ET; try apply bool_decide_eq_false in ES; try apply bool_decide_eq_false in ET.
  - apply Hsame. tauto.
  - split; [|done]. intros _. right. exists 0, a. split; [done|]. split; [done|]. split; [done|]. intros k' e' Hk'. lia.
  - split; [done|]. intros [H|(k & e & H1 & H2 & H3 & H4)].
    + exfalso. apply ES, H; [left|done].
    + exfalso. destruct k as [|k]; [cbn in H1; injection H1 as <-; done|]. apply ES, (H4 0 a); [lia|done|done].
  - apply Hsame. tauto.
Qed.
Lemma orbit_maximal_final ord S T : (∀ X, ord X ≡ₚ elements X) → S ⊆ list_to_set attributes → get_symmetric_attribute_set (ord S) = Ok T →
  is_orbit_maximal ord S = Ok true ↔ T = S ∨ ∃ k e, attributes !! k = Some e ∧ e ∈ S ∧ e ∉ T ∧ ∀ k' e', k' < k → attributes !! k' = Some e' → e' ∈ S ↔ e' ∈ T.
Proof.
  intros Ho HS E. unfold is_orbit_maximal. rewrite E. cbn [mbind res_bind].
  rewrite (symmetric_set_spec _ S HS (Ho S)) in E. injection E as <-. pose proof (swset_sub S HS) as HT.
  transitivity (orbit_scan S (swset S) attributes = true); [split; [by intros [= ->]|by intros ->]|]. rewrite orbit_scan_first.
  split; (intros [H|H]; [left|by right]).
  - apply set_eq. intros e. split; intros He; [apply H; [by apply (in_attributes (swset S))|done]|apply H; [by apply (in_attributes S)|done]].
  - intros a _. by rewrite H.
Qed.
Lemma symmetric_imp_final ord n b i : (∀ X, ord X ≡ₚ elements X) → over_attributes i → algebra n b →
  ∃ i', get_symmetric_implication ord i = Ok i' ∧ over_attributes i' ∧ (holds_in n (automorphic_copy b) i' ↔ holds_in n b i).
Proof.
  intros Ho Hi Hb. eexists. split; [by apply symmetric_imp|]. pose proof Hi as [H1 H2].
  assert (over_attributes (swset i.1, swset (econclusion i))) as Hi'.
  { split; cbn [fst snd]; apply swset_sub; [done|by apply conclusion_over]. }
  split; [done|]. destruct (bu_intent_spec n b Hb) as (S & E & HS).
  rewrite <-(intent_respects n b S i Hb E Hi).
  rewrite <-(intent_respects n _ (swset S) _ (algebra_copy n b Hb) (intent_copy n b S Hb E) Hi').
  apply symmetric_imp_valid; [done|]. intros e [He _]%HS. by apply elem_of_list_to_set.
Qed.
Lemma symmetric_equality_final e e' : e ∈ attributes → get_symmetric_equality e = Some e' → e' ∈ attributes ∧ mirror e e'.
Proof.
  intros He E. assert (e' ∈ attributes) as He'.
  { unfold get_symmetric_equality in E. apply fmap_Some in E as ([k x] & (Hx & _)%list_find_Some & ->). by eapply elem_of_list_lookup_2. }
  split; [done|]. assert (get_symmetric_equality e = Some e' → e' = sw e) as Hs; [|rewrite (Hs E); by apply sw_mirror].
  revert e He E He'. assert (∀ e, e ∈ attributes → get_symmetric_equality e = None ∨ get_symmetric_equality e = Some (sw e)) as H.
  { apply (attributes_forall (λ e, get_symmetric_equality e = None ∨ get_symmetric_equality e = Some (sw e))). by vm_compute. }
  intros e He E _ _. destruct (H e He); congruence.
Qed.
Lemma background_holds n b i : algebra n b → i ∈ generate_background_implications attributes → over_attributes i ∧ holds_in n b i.
Proof.
  intros Hb Hi. assert (over_attributes i) as Ho.
  { destruct (background_elem _ _ Hi) as (x & y & z & Hx & Hy & Hz & -> & _). split; cbn [fst snd]; intros e He; apply elem_of_list_to_set.
    - apply elem_of_union in He as [->%elem_of_singleton| ->%elem_of_singleton]; done.
    - by apply elem_of_singleton in He as ->. }
  split; [done|]. destruct (bu_intent_spec n b Hb) as (S & E & _). apply (intent_respects n b S i Hb E Ho). by apply (background_intents n b S i Hb E).
Qed.
Lemma context_table_spec n : ∃ t, context_table n = Ok t ∧ length t = length (generate_examples n) ∧
  ∀ k b r, generate_examples n !! k = Some b → t !! k = Some r →
    length r = length attributes ∧ ∀ j e v, attributes !! j = Some e → r !! j = Some v → v = true ↔ satisfies n b e.
Proof.
  unfold context_table. assert (∀ b, algebra n b → ∃ r, mapM (λ a, eqn_holds a b) attributes = Ok r ∧
    length r = length attributes ∧ ∀ j e v, attributes !! j = Some e → r !! j = Some v → v = true ↔ satisfies n b e) as Hrow.
  { intros b Hb. destruct (mapM_is_ok (λ a, eqn_holds a b) attributes) as [r Hr].
    { intros e He. apply attributes_bound in He. destruct (eqn_holds_spec n b Hb e) as (v & E & _); [lia|lia|]. by exists v. }
    exists r. split; [done|]. split; [by apply mapM_length in Hr|]. intros j e v He Hv.
    destruct (mapM_lookup _ _ _ _ _ Hr He) as (v' & Hv' & E). assert (v' = v) as -> by congruence.
    apply elem_of_list_lookup_2, attributes_bound in He. destruct (eqn_holds_spec n b Hb e) as (w & E' & Hw); [lia|lia|]. rewrite E in E'. injection E' as <-. done. }
  destruct (mapM_is_ok (λ b, mapM (λ a, eqn_holds a b) attributes) (generate_examples n)) as [t Ht].
  { intros b Hb%elem_of_examples. destruct (Hrow b Hb) as (r & E & _). by exists r. }
  exists t. split; [done|]. split; [by apply mapM_length in Ht|]. intros k b r Hk Hr.
  destruct (mapM_lookup _ _ _ _ _ Ht Hk) as (r' & Hr' & E). assert (r' = r) as -> by congruence.
  destruct (Hrow b) as (r'' & E' & H); [by apply elem_of_examples; eapply elem_of_list_lookup_2|]. rewrite E in E'. injection E' as <-. done.
Qed.
