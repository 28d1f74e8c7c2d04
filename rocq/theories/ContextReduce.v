(** * Clarification, reduction and equality of contexts *)
From Verif Require Import Py Spec ContextModel ContextSpec ContextOps PyFacts SpecFacts ContextFacts ContextInit ContextMut ContextEffects ContextMisc.

(** ** When removing objects preserves closures *)
Lemma acl_sub_objects (K K' : fctx) :
  fM K' = fM K → fG K' ⊆ fG K →
  (∀ g m, g ∈ fG K' → (g, m) ∈ fI K' ↔ (g, m) ∈ fI K) →
  (∀ g m, g ∈ fG K → m ∈ fM K → (g, m) ∉ fI K →
     ∃ h, h ∈ fG K' ∧ (h, m) ∉ fI K ∧ ∀ x, x ∈ fM K → (g, x) ∈ fI K → (h, x) ∈ fI K) →
  ∀ B, B ⊆ fM K → acl K' B = acl K B.
Proof.
  intros HM HG HI H B HB. apply set_eq. intros m. unfold acl. rewrite !elem_of_up, HM. split.
  - intros [Hm Hall]. split; [done|]. intros g [Hg Hgb]%elem_of_down.
    destruct (decide ((g, m) ∈ fI K)) as [|Hn]; [done|].
    destruct (H g m Hg Hm Hn) as (h & Hh & Hhm & Hhx). destruct Hhm.
    apply HI; [done|]. apply Hall. apply elem_of_down. split; [done|].
    intros x Hx. apply HI; [done|]. apply Hhx; auto.
  - intros [Hm Hall]. split; [done|]. intros g [Hg Hgb]%elem_of_down.
    apply HI; [done|]. apply Hall. apply elem_of_down. split; [auto|].
    intros x Hx. apply HI; auto.
Qed.

Lemma elem_of_fG c g : g ∈ fG (abs c) ↔ g ∈ objs c.
Proof. unfold abs. simpl. by rewrite elem_of_list_to_set. Qed.
Lemma elem_of_fM c g : g ∈ fM (abs c) ↔ g ∈ atts c.
Proof. unfold abs. simpl. by rewrite elem_of_list_to_set. Qed.

Lemma lookup_map_Some {A B} (f : A → B) l i y : map f l !! i = Some y ↔ ∃ x, l !! i = Some x ∧ y = f x.
Proof. change (map f l) with (f <$> l). rewrite list_lookup_fmap. destruct (l !! i); simpl; naive_solver. Qed.

(** ** clarify_objects *)
Lemma clarify_spec c :
  wf c → distinct c →
  ∃ c', clarify_objects c = Ok c' ∧ good c' ∧ atts c' = atts c ∧
    (∀ g, g ∈ objs c' → g ∈ objs c) ∧
    (∀ g m, g ∈ objs c' → incident c' g m ↔ incident c g m) ∧
    (∀ g, g ∈ objs c → ∃ h, h ∈ objs c' ∧ ∀ m, incident c h m ↔ incident c g m) ∧
    (∀ g h, g ∈ objs c' → h ∈ objs c' → (∀ m, incident c' g m ↔ incident c' h m) → g = h).
Proof.
  intros Hwf Hd. pose proof Hd as [Hdo Hda]. unfold clarify_objects.
  set (d := dict_of (zip (np c) (objs c))).
  assert (∀ r g, (r, g) ∈ d → ∃ i, np c !! i = Some r ∧ objs c !! i = Some g) as Hdi.
  { intros r g H%elem_of_dict_of. apply elem_of_lookup_zip_with in H as (i & x & y & [= -> ->] & ? & ?). eauto. }
  assert (NoDup (map fst d)) as Hk by apply NoDup_keys_dict_of.
  assert (∀ a b, a ∈ d → b ∈ d → a.2 = b.2 → a = b) as Hinj.
  { intros [r g] [r' g'] (i & Hr & Hi)%Hdi (j & Hr' & Hj)%Hdi. simpl. intros ->.
    assert (i = j) as <- by (eapply (NoDup_lookup (objs c)); done). congruence. }
  assert (NoDup d) as Hnd.
  { eapply NoDup_fmap_1, Hk. }
  assert (NoDup (map snd d)) as Hv by (by apply NoDup_fmap_2_strong).
  destruct (mk_context_ok (map fst d) None (map snd d) (atts c)) as [c' Hc'].
  { by rewrite !map_length. }
  { intros r ([r' g] & -> & H)%elem_of_list_fmap. simpl. apply Hdi in H as (i & Hr & _). by eapply wf_cols. }
  exists c'. split; [done|].
  pose proof Hc' as (Hg & Ho' & Ha' & Hn')%mk_context_good; [|done..].
  assert (∀ g m, g ∈ objs c' → incident c' g m ↔ incident c g m) as Hinc.
  { intros g m Hgo. rewrite !incident_zip, Ho', Ha', Hn'.
    rewrite Ho' in Hgo. apply elem_of_list_fmap in Hgo as ([r0 g0] & -> & Hin). simpl.
    split.
    - intros (r & Hgr & Hm). exists r. split; [|done].
      apply elem_of_lookup_zip_with in Hgr as (k & x & y & [= -> ->] & Hx & Hy).
      apply lookup_map_Some in Hx as ([r1 g1] & E & ->). apply lookup_map_Some in Hy as ([r2 g2] & E' & ->).
      rewrite E in E'. injection E' as -> ->. simpl in *.
      apply elem_of_list_lookup_2, Hdi in E as (i & ? & ?).
      apply elem_of_lookup_zip_with. eexists i, _, _. done.
    - intros (r & Hgr & Hm). exists r. split; [|done].
      apply elem_of_lookup_zip_with in Hgr as (i & x & y & [= -> ->] & Hx & Hy).
      pose proof (Hdi _ _ Hin) as (i' & Hr' & Hi').
      assert (i = i') as <- by (eapply (NoDup_lookup (objs c)); done).
      assert (y = r0) as -> by congruence.
      apply elem_of_list_lookup in Hin as [k Hk'].
      apply elem_of_lookup_zip_with. exists k, x, r0. split; [done|]. split; apply lookup_map_Some; eauto. }
  split; [done|]. split; [done|]. split; [|split; [done|split]].
  - intros g. rewrite Ho'. intros ([r g'] & -> & (i & _ & Hi)%Hdi)%elem_of_list_fmap.
    by eapply elem_of_list_lookup_2.
  - intros g [i Hi]%elem_of_list_lookup.
    destruct (row_exists c Hwf i) as (r & Hr & _); [by eapply lookup_lt_Some|].
    assert (r ∈ map fst d) as Hrd.
    { apply elem_of_keys_dict_of. apply elem_of_list_fmap. exists (r, g). split; [done|].
      apply elem_of_lookup_zip_with. exists i, r, g. done. }
    apply elem_of_list_fmap in Hrd as ([r' h] & -> & Hin). exists h.
    split; [rewrite Ho'; apply elem_of_list_fmap; by exists (r', h)|].
    apply Hdi in Hin as (k & Hrk & Hk'). simpl in *. intros m.
    assert (∀ i g, objs c !! i = Some g → np c !! i = Some r' → incident c g m ↔ ∃ j, atts c !! j = Some m ∧ r' !! j = Some true) as HH.
    { clear -Hdo. intros i g Hi Hr. split.
      - intros (i' & j & r & Hi' & Hj & Hr' & Hb).
        assert (i = i') as <- by (eapply (NoDup_lookup (objs c)); done). exists j. split; [done|]. congruence.
      - intros (j & Hj & Hb). exists i, j, r'. done. }
    rewrite (HH k h), (HH i g); done.
  - intros g h. rewrite Ho'. intros ([r g'] & -> & H1)%elem_of_list_fmap ([r' h'] & -> & H2)%elem_of_list_fmap Heq.
    simpl in *. assert (r = r') as <-.
    { pose proof (Hdi _ _ H1) as (i & Hr & Hi). pose proof (Hdi _ _ H2) as (i' & Hr' & Hi').
      pose proof (wf_cols c Hwf _ _ Hr) as L1. pose proof (wf_cols c Hwf _ _ Hr') as L2.
      assert (∀ j m, atts c !! j = Some m → r !! j = Some true ↔ r' !! j = Some true) as Hb.
      { intros j m Hj. specialize (Heq m).
        rewrite !Hinc in Heq by (rewrite Ho'; apply elem_of_list_fmap; by eexists (_, _)).
        rewrite <-!elem_of_fI, (incident_cell c i j g' m), (incident_cell c i' j h' m) in Heq by done.
        unfold cellb in Heq. by rewrite Hr, Hr' in Heq. }
      apply list_eq. intros j. destruct (decide (j < length (atts c))) as [Hj|Hj].
      - destruct (lookup_lt_is_Some_2 _ _ Hj) as [m Hm]. specialize (Hb j m Hm).
        destruct (lookup_lt_is_Some_2 r j) as [b Hbr]; [lia|].
        destruct (lookup_lt_is_Some_2 r' j) as [b' Hbr']; [lia|].
        rewrite Hbr, Hbr' in Hb |- *. destruct b, b'; naive_solver.
      - rewrite !lookup_ge_None_2; [done|lia|lia]. }
    assert ((r, g') = (r, h')) as [= ->]; [|done].
    pose proof (elem_of_dget r g' d Hk H1). pose proof (elem_of_dget r h' d Hk H2). congruence.
Qed.
Lemma clarify_closures c c' : wf c → distinct c → clarify_objects c = Ok c' →
  ∀ B, B ⊆ fM (abs c) → acl (abs c') B = acl (abs c) B.
Proof.
  intros Hwf Hd Hc'. destruct (clarify_spec c Hwf Hd) as (c'' & E & Hg & Ha & Hsub & Hinc & Hcov & _).
  rewrite E in Hc'. injection Hc' as ->. apply acl_sub_objects.
  - unfold abs. simpl. by rewrite Ha.
  - intros g. rewrite !elem_of_fG. apply Hsub.
  - intros g m. rewrite elem_of_fG, !elem_of_fI. apply Hinc.
  - intros g m. rewrite elem_of_fG, elem_of_fM, elem_of_fI. intros Hg' Hm Hn.
    destruct (Hcov g Hg') as (h & Hh & Heq). exists h. rewrite elem_of_fG, elem_of_fI. split; [done|].
    rewrite Heq. split; [done|]. intros x _. rewrite !elem_of_fI, Heq. done.
Qed.

(** ** Bit patterns *)
Lemma list2int_cons b r : list2int (b :: r) = wrap64 (wrap64 (list2int r * 2) + (if b then 1 else 0))%Z.
Proof. unfold list2int. rewrite reverse_cons, foldl_app. done. Qed.
Lemma wrap64_small x : (0 <= x < 2 ^ 63)%Z → wrap64 x = x.
Proof. intros H. unfold wrap64. rewrite Z.mod_small by lia. lia. Qed.
Lemma list2int_bits r : length r ≤ 63 →
  (0 <= list2int r < 2 ^ Z.of_nat (length r))%Z ∧
  ∀ j, Z.testbit (list2int r) (Z.of_nat j) = default false (r !! j).
Proof.
  induction r as [|b r IH]; intros Hl.
  - split; [done|]. intros j. rewrite lookup_nil. simpl. apply Z.bits_0.
  - simpl in Hl. destruct IH as [Hr Hbits]; [lia|].
    assert (list2int (b :: r) = list2int r * 2 + Z.b2z b)%Z as ->.
    { rewrite list2int_cons.
      assert (2 ^ Z.of_nat (length r) <= 2 ^ 62)%Z by (apply Z.pow_le_mono_r; lia).
      assert (2 ^ 63 = 2 * 2 ^ 62)%Z as Hp by done.
      rewrite (wrap64_small (list2int r * 2)) by lia. rewrite wrap64_small; [by destruct b|]. destruct b; lia. }
    split.
    + cbn [length]. rewrite Nat2Z.inj_succ, Z.pow_succ_r by lia. destruct b; simpl Z.b2z; lia.
    + intros [|j]; cbn [lookup list_lookup default].
      * rewrite Z.mul_comm. apply Z.testbit_0_r.
      * rewrite Nat2Z.inj_succ, Z.mul_comm, Z.testbit_succ_r by lia. apply Hbits.
Qed.
Lemma list2int_inj r r' : length r = length r' → length r ≤ 63 → list2int r = list2int r' → r = r'.
Proof.
  intros Hl H63 Heq. apply list_eq. intros j.
  destruct (decide (j < length r)) as [Hj|Hj].
  - destruct (list2int_bits r H63) as [_ H1]. destruct (list2int_bits r') as [_ H2]; [lia|].
    specialize (H1 j). specialize (H2 j). rewrite Heq, H2 in H1.
    destruct (lookup_lt_is_Some_2 r j) as [b Hb]; [lia|].
    destruct (lookup_lt_is_Some_2 r' j) as [b' Hb']; [lia|].
    rewrite Hb, Hb' in *. simpl in H1. congruence.
  - rewrite !lookup_ge_None_2; [done|lia|lia].
Qed.

(** Subset order on non-negative integers read as bit sets. *)
Definition bsub (a b : Z) : Prop := Z.land a b = a.
Lemma bsub_bits a b : (0 <= a)%Z → bsub a b ↔ ∀ j, Z.testbit a (Z.of_nat j) = true → Z.testbit b (Z.of_nat j) = true.
Proof.
  intros Ha. unfold bsub. split.
  - intros H j Hj. rewrite <-H, Z.land_spec in Hj. apply andb_true_iff in Hj as [_ ?]. done.
  - intros H. apply Z.bits_inj'. intros n Hn. rewrite Z.land_spec.
    specialize (H (Z.to_nat n)). rewrite Z2Nat.id in H by done.
    destruct (Z.testbit a n); [|done]. by rewrite H.
Qed.
Lemma bsub_elim a b : bsub a b → ∀ j, Z.testbit a (Z.of_nat j) = true → Z.testbit b (Z.of_nat j) = true.
Proof. unfold bsub. intros H j Hj. rewrite <-H, Z.land_spec in Hj. apply andb_true_iff in Hj as [_ ?]. done. Qed.
Ltac belim H := let H' := fresh "H" in pose proof (bsub_elim _ _ H) as H'; clear H; rename H' into H.
Lemma land_le a b : (0 <= a)%Z → (0 <= b)%Z → (0 <= Z.land a b <= a)%Z.
Proof.
  intros Ha Hb. split; [apply Z.land_nonneg; by left|].
  assert (a = Z.lor (Z.land a b) (Z.ldiff a b)) as Heq.
  { apply Z.bits_inj'. intros n Hn. rewrite Z.lor_spec, Z.land_spec, Z.ldiff_spec.
    by destruct (Z.testbit a n), (Z.testbit b n). }
  assert (Z.land (Z.land a b) (Z.ldiff a b) = 0)%Z as Hz.
  { apply Z.bits_inj'. intros n Hn. rewrite !Z.land_spec, Z.ldiff_spec, Z.bits_0.
    by destruct (Z.testbit a n), (Z.testbit b n). }
  assert (Z.lor (Z.land a b) (Z.ldiff a b) = Z.land a b + Z.ldiff a b)%Z as Hadd.
  { symmetry. by apply Z.add_nocarry_lor. }
  assert (0 <= Z.ldiff a b)%Z by (apply Z.ldiff_nonneg; by left).
  lia.
Qed.
Lemma bsub_le a b : (0 <= a)%Z → (0 <= b)%Z → bsub a b → (a <= b)%Z.
Proof. intros Ha Hb H. unfold bsub in H. rewrite Z.land_comm in H. pose proof (land_le b a Hb Ha). lia. Qed.

(** ** The reduction loop *)
Section reduce.
  Context (n : nat) (keys : list Z) (Hkeys : ∀ k, k ∈ keys → (0 <= k < 2 ^ Z.of_nat n)%Z) (Hnd : NoDup keys).
  Let m := (2 ^ Z.of_nat n - 1)%Z.
  Let bit (k : Z) (x : nat) : bool := Z.testbit k (Z.of_nat x).

  Lemma m_bits x : bit m x = bool_decide (x < n).
  Proof.
    unfold bit, m. rewrite <-Z.ones_equiv || (replace (2 ^ Z.of_nat n - 1)%Z with (Z.ones (Z.of_nat n)) by (rewrite Z.ones_equiv; lia)).
    destruct (decide (x < n)) as [H|H].
    - rewrite Z.ones_spec_low by lia. by rewrite bool_decide_eq_true_2.
    - rewrite Z.ones_spec_high by lia. by rewrite bool_decide_eq_false_2.
  Qed.
  Lemma m_nonneg : (0 <= m)%Z.
  Proof. unfold m. assert (0 < 2 ^ Z.of_nat n)%Z by (apply Z.pow_pos_nonneg; lia). lia. Qed.
  Lemma key_sub_m k : k ∈ keys → bsub k m.
  Proof.
    intros Hk. pose proof (Hkeys k Hk). apply bsub_bits; [lia|]. intros j Hj.
    fold (bit m j). rewrite m_bits. apply bool_decide_eq_true_2.
    destruct (decide (j < n)) as [|Hge]; [done|].
    destruct (decide (k = 0)%Z) as [->|]; [by rewrite Z.bits_0 in Hj|].
    rewrite Z.bits_above_log2 in Hj; [done|lia|].
    apply Z.log2_lt_pow2; [lia|]. eapply Z.lt_le_trans; [apply (Hkeys k Hk)|]. apply Z.pow_le_mono_r; lia.
  Qed.

  (** [k] is separated: every missing bit is missing from a strictly larger key. *)
  Definition witnessed (k c : Z) : Prop :=
    ∀ x, x < n → bit c x = false → ∃ j, j ∈ keys ∧ j ≠ k ∧ bsub k j ∧ bit j x = false.

  Definition removable (r : Z) : Prop :=
    r ∈ keys ∧ witnessed r r ∧ ∃ j, j ∈ keys ∧ j ≠ r ∧ bsub r j.
  Lemma reduce_step_inv k rest cur red :
    k ∈ keys → (∀ j, j ∈ rest → j ∈ keys ∧ j ≠ k) →
    (0 <= cur)%Z → bsub k cur → witnessed k cur →
    (∀ r, r ∈ red → removable r) →
    ∀ r, r ∈ (foldl (reduce_step k) (cur, red) rest).2 → removable r.
  Proof.
    intros Hk. pose proof (Hkeys k Hk) as Hk0.
    revert cur red. induction rest as [|j rest IH]; intros cur red Hrest Hc0 Hkc Hw Hred; simpl; [done|].
    destruct (Hrest j) as [Hj Hjk]; [left|]. pose proof (Hkeys j Hj) as Hj0.
    assert (∀ j', j' ∈ rest → j' ∈ keys ∧ j' ≠ k) as Hrest' by (intros; apply Hrest; by right).
    case_decide as Hjr; [by apply IH|].
    destruct (Z.ltb_spec (Z.land (Z.land cur j) k) k) as [Hlt|Hge]; [by apply IH|].
    assert (0 <= Z.land cur j)%Z as Hnew0 by (apply Z.land_nonneg; by left).
    pose proof (land_le k (Z.land cur j) ltac:(lia) Hnew0) as Hle. rewrite Z.land_comm in Hle.
    assert (bsub k (Z.land cur j)) as Hsub by (unfold bsub; rewrite Z.land_comm; lia).
    assert (bsub k j) as Hkj.
    { apply bsub_bits; [lia|]. intros x Hx. belim Hsub. apply Hsub in Hx.
      rewrite Z.land_spec in Hx. apply andb_true_iff in Hx as [_ ?]. done. }
    assert (witnessed k (Z.land cur j)) as Hw'.
    { intros x Hx Hb. unfold bit in Hb. rewrite Z.land_spec in Hb. apply andb_false_iff in Hb as [Hb|Hb].
      - by apply Hw.
      - by exists j. }
    destruct (Z.eqb_spec (Z.land cur j) k) as [Heq|Hne].
    - apply IH; [done..|]. intros r [->|Hr]%elem_of_cons; [|by apply Hred]. split; [done|]. rewrite Heq in Hw'. split; [done|]. by exists j.
    - destruct (Z.ltb_spec k (Z.land cur j)); [|by apply IH]. by apply IH.
  Qed.
  Lemma witnessed_m k : witnessed k m.
  Proof. intros x Hx Hb. rewrite m_bits in Hb. apply bool_decide_eq_false in Hb. done. Qed.
  Lemma elem_of_delete_list (i : nat) (k j : Z) : keys !! i = Some k → j ∈ delete i keys → j ∈ keys ∧ j ≠ k.
  Proof.
    intros Hi Hj. apply elem_of_list_lookup in Hj as [p Hp].
    destruct (decide (p < i)).
    - rewrite lookup_delete_lt in Hp by done. split; [by eapply elem_of_list_lookup_2|].
      intros ->. pose proof (NoDup_lookup _ _ _ _ Hnd Hp Hi). lia.
    - rewrite lookup_delete_ge in Hp by lia. split; [by eapply elem_of_list_lookup_2|].
      intros ->. pose proof (NoDup_lookup _ _ _ _ Hnd Hp Hi). lia.
  Qed.
  Lemma reduce_loop_inv is red :
    (∀ r, r ∈ red → removable r) →
    ∀ r, r ∈ foldl (reduce_iter m keys) red is → removable r.
  Proof.
    revert red. induction is as [|i is IH]; intros red Hred; simpl; [done|].
    apply IH. unfold reduce_iter. destruct (keys !! i) as [k|] eqn:Ek; [|done].
    case_decide; [done|]. apply reduce_step_inv.
    - by eapply elem_of_list_lookup_2.
    - intros j. by apply elem_of_delete_list.
    - apply m_nonneg.
    - apply key_sub_m. by eapply elem_of_list_lookup_2.
    - apply witnessed_m.
    - done.
  Qed.
  (** Every key is the intersection of the keys that remain. *)
  Lemma reduce_remaining (red : list Z) :
    (∀ r, r ∈ red → removable r) →
    ∀ k, k ∈ keys → ∀ x, x < n → bit k x = false →
      ∃ j, j ∈ keys ∧ j ∉ red ∧ bsub k j ∧ bit j x = false.
  Proof.
    intros Hred.
    assert (∀ d k, k ∈ keys → Z.to_nat (m - k) < d → ∀ x, x < n → bit k x = false →
      ∃ j, j ∈ keys ∧ j ∉ red ∧ bsub k j ∧ bit j x = false) as H.
    { induction d as [|d IH]; intros k Hk Hd x Hx Hb; [lia|].
      destruct (decide (k ∈ red)) as [Hr|Hr].
      - destruct (Hred k Hr) as (_ & Hw & _). destruct (Hw x Hx Hb) as (j & Hj & Hjk & Hkj & Hbj).
        pose proof (Hkeys k Hk). pose proof (Hkeys j Hj).
        pose proof (bsub_le k j ltac:(lia) ltac:(lia) Hkj).
        destruct (IH j Hj) with (x := x) as (j' & ? & ? & Hjj & ?); [unfold m in *; lia|done|done|].
        exists j'. split; [done|]. split; [done|]. split; [|done].
        apply bsub_bits; [lia|]. intros y Hy. belim Hkj. belim Hjj. auto.
      - exists k. split; [done|]. split; [done|]. split; [|done]. apply Z.land_diag. }
    intros k Hk. eapply H; [done|]. apply Nat.lt_succ_diag_r.
  Qed.

  (** Completeness of one pass when the index test never fires. *)
  Lemma reduce_step_mono k rest cur red r :
    r ∈ red → r ∈ (foldl (reduce_step k) (cur, red) rest).2.
  Proof.
    revert cur red. induction rest as [|j rest IH]; intros cur red Hr; simpl; [done|].
    case_decide; [by apply IH|]. destruct (_ <? _)%Z; [by apply IH|].
    destruct (_ =? _)%Z; [apply IH; by right|]. destruct (_ <? _)%Z; by apply IH.
  Qed.
  Lemma reduce_loop_mono is red r : r ∈ red → r ∈ foldl (reduce_iter m keys) red is.
  Proof.
    revert red. induction is as [|i is IH]; intros red Hr; simpl; [done|].
    apply IH. unfold reduce_iter. destruct (keys !! i); [|done]. case_decide; [done|].
    by apply reduce_step_mono.
  Qed.
  (** If [k] is the intersection of [S], a non-empty set of keys never removed,
      the pass over [k] removes it. *)
  Lemma reduce_step_complete k rest cur red (S : list Z) :
    k ∈ keys → (∀ j, j ∈ rest → j ∈ keys ∧ j ≠ k) →
    (0 <= cur)%Z → bsub k cur →
    (∀ j, j ∈ S → bsub k j ∧ j ∉ red ∧ (j ∈ rest ∨ bsub cur j)) →
    (∃ j, j ∈ S ∧ j ∈ rest) →
    (∀ x, bit k x = false → ∃ j, j ∈ S ∧ bit j x = false) →
    k ∈ (foldl (reduce_step k) (cur, red) rest).2.
  Proof.
    intros Hk. pose proof (Hkeys k Hk) as Hk0.
    revert cur red. induction rest as [|j rest IH]; intros cur red Hrest Hc0 Hkc HS [j0 [Hj0 Hj0r]] Hint; simpl.
    { by apply elem_of_nil in Hj0r. }
    destruct (Hrest j) as [Hj Hjk]; [left|]. pose proof (Hkeys j Hj) as Hjn.
    assert (∀ j', j' ∈ rest → j' ∈ keys ∧ j' ≠ k) as Hrest' by (intros; apply Hrest; by right).
    assert (∀ cur', (0 <= cur')%Z → bsub k cur' → bsub cur' cur →
       (j ∈ S → bsub cur' j) → (cur' ≠ k ∨ ∃ j', j' ∈ S ∧ j' ∈ rest) → k ∈ (foldl (reduce_step k) (cur', red) rest).2) as Hgo.
    { intros cur' H0 Hkc' Hcc HjS Hex.
      assert (∀ j', j' ∈ S → bsub k j' ∧ j' ∉ red ∧ (j' ∈ rest ∨ bsub cur' j')) as HS'.
      { intros j' Hj'. destruct (HS j' Hj') as (? & ? & [[->|]%elem_of_cons|Hb]); [|by auto|].
        - split; [done|]. split; [done|]. right. by apply HjS.
        - split; [done|]. split; [done|]. right. apply bsub_bits; [done|].
          intros x Hx. belim Hcc. belim Hb. auto. }
      apply IH; [done|done|done|done| |done].
      destruct Hex as [Hne|Hex]; [|done].
      destruct (decide (Exists (λ j', j' ∈ rest) S)) as [He|He].
      - apply Exists_exists in He. naive_solver.
      - exfalso. apply Hne. apply Z.bits_inj'. intros b Hb.
        rewrite <-(Z2Nat.id b) by done. set (x := Z.to_nat b).
        destruct (Z.testbit k (Z.of_nat x)) eqn:E.
        + belim Hkc'. auto.
        + destruct (Hint x E) as (j' & Hj' & Hbj). destruct (HS' j' Hj') as (_ & _ & [Hr|Hb']).
          * exfalso. apply He, Exists_exists. eauto.
          * belim Hb'. destruct (Z.testbit cur' (Z.of_nat x)) eqn:E'; [|done].
            apply Hb' in E'. unfold bit in Hbj. congruence. }
    case_decide as Hjr.
    { apply Hgo; [done|done|apply Z.land_diag| |].
      - intros HjS. destruct (HS j HjS) as (_ & ? & _). done.
      - right. exists j0. split; [done|]. apply elem_of_cons in Hj0r as [->|]; [|done].
        destruct (HS j Hj0) as (_ & ? & _). done. }
    assert (0 <= Z.land cur j)%Z as Hnew0 by (apply Z.land_nonneg; by left).
    assert (bsub k j → bsub k (Z.land cur j)) as Hnk.
    { intros Hkj. apply bsub_bits; [lia|]. intros x Hx. rewrite Z.land_spec.
      belim Hkj. belim Hkc. rewrite Hkc, Hkj by done. done. }
    destruct (Z.ltb_spec (Z.land (Z.land cur j) k) k) as [Hlt|Hge].
    { assert (¬ bsub k j) as Hnj.
      { intros Hkj%Hnk. unfold bsub in Hkj. rewrite Z.land_comm in Hlt. lia. }
      apply Hgo; [done|done|apply Z.land_diag| |].
      - intros HjS. destruct (HS j HjS) as (? & _). done.
      - right. exists j0. split; [done|]. apply elem_of_cons in Hj0r as [->|]; [|done].
        destruct (HS j Hj0) as (? & _). done. }
    pose proof (land_le k (Z.land cur j) ltac:(lia) Hnew0) as Hle. rewrite Z.land_comm in Hle.
    assert (bsub k (Z.land cur j)) as Hsub by (unfold bsub; rewrite Z.land_comm; lia).
    destruct (Z.eqb_spec (Z.land cur j) k) as [Heq|Hne].
    { apply reduce_step_mono. left. }
    pose proof (bsub_le k (Z.land cur j) ltac:(lia) Hnew0 Hsub).
    destruct (Z.ltb_spec k (Z.land cur j)); [|lia].
    apply Hgo; [done|done| | |by left].
    - apply bsub_bits; [done|]. intros x. rewrite Z.land_spec, andb_true_iff. tauto.
    - intros _. apply bsub_bits; [done|]. intros x. rewrite Z.land_spec, andb_true_iff. tauto.
  Qed.
  Lemma reduce_loop_complete k (S : list Z) :
    k ∈ keys →
    let red := foldl (reduce_iter m keys) [] (seq 0 (length keys)) in
    (∀ r, r ∈ red → (Z.of_nat (length keys) <= r)%Z) →
    S ≠ [] → (∀ j, j ∈ S → j ∈ keys ∧ j ≠ k ∧ j ∉ red ∧ bsub k j) →
    (∀ x, bit k x = false → ∃ j, j ∈ S ∧ bit j x = false) →
    k ∈ red.
  Proof.
    intros Hk red Hcol Hne HS Hint. pose proof Hk as [i Hi]%elem_of_list_lookup.
    pose proof (lookup_lt_Some _ _ _ Hi) as Hlt.
    assert (seq 0 (length keys) = seq 0 i ++ i :: seq (Datatypes.S i) (length keys - Datatypes.S i)) as Hseq.
    { replace (length keys) with (i + Datatypes.S (length keys - Datatypes.S i)) at 1 by lia.
      rewrite seq_app. done. }
    set (red0 := foldl (reduce_iter m keys) [] (seq 0 i)).
    assert (red = foldl (reduce_iter m keys) (reduce_iter m keys red0 i) (seq (Datatypes.S i) (length keys - Datatypes.S i))) as Hred.
    { unfold red. rewrite Hseq, foldl_app. done. }
    assert (∀ r, r ∈ red0 → r ∈ red) as Hsub0.
    { intros r Hr. rewrite Hred. apply reduce_loop_mono. unfold reduce_iter. rewrite Hi.
      case_decide; [done|]. by apply reduce_step_mono. }
    rewrite Hred. apply reduce_loop_mono. unfold reduce_iter. rewrite Hi.
    rewrite decide_False.
    2:{ intros Hin%Hsub0%Hcol. lia. }
    apply (reduce_step_complete _ _ _ _ S); [done| | | | | |done].
    - intros j. by apply elem_of_delete_list.
    - apply m_nonneg.
    - by apply key_sub_m.
    - intros j Hj. destruct (HS j Hj) as (Hjk & Hne' & Hnr & Hb). split; [done|]. split; [naive_solver|]. left.
      apply elem_of_list_lookup in Hjk as [p Hp]. apply elem_of_list_lookup.
      destruct (decide (p < i)).
      + exists p. by rewrite lookup_delete_lt.
      + exists (p - 1). assert (p ≠ i) by (intros ->; congruence). rewrite lookup_delete_ge by lia.
        replace (Datatypes.S (p - 1)) with p by lia. done.
    - destruct S as [|j S']; [done|]. exists j. split; [left|].
      destruct (HS j) as (Hjk & Hne' & _); [left|].
      apply elem_of_list_lookup in Hjk as [p Hp]. apply elem_of_list_lookup.
      destruct (decide (p < i)).
      + exists p. by rewrite lookup_delete_lt.
      + exists (p - 1). assert (p ≠ i) by (intros ->; congruence). rewrite lookup_delete_ge by lia.
        replace (Datatypes.S (p - 1)) with p by lia. done.
  Qed.
End reduce.

(** ** reduce_objects *)
(** The number whose binary digits are the cells of the row (least significant first). *)
Fixpoint bits_value (r : list bool) : Z :=
  match r with [] => 0 | b :: r' => Z.b2z b + 2 * bits_value r' end%Z.
Lemma list2int_value r : length r ≤ 63 → list2int r = bits_value r.
Proof.
  induction r as [|b r IH]; intros Hl; [done|]. simpl in Hl. simpl bits_value.
  rewrite <-IH by lia. destruct (list2int_bits r) as [Hr _]; [lia|].
  rewrite list2int_cons. assert (2 ^ Z.of_nat (length r) <= 2 ^ 62)%Z by (apply Z.pow_le_mono_r; lia).
  assert (2 ^ 63 = 2 * 2 ^ 62)%Z as Hp by done.
  rewrite (wrap64_small (list2int r * 2)) by lia. rewrite wrap64_small; destruct b; simpl Z.b2z; lia.
Qed.

(** The intent of [g] is the intersection of the intents of a non-empty set of other objects. *)
Definition reducible_object (c : context) (g : name) : Prop :=
  ∃ S : list name, S ≠ [] ∧ (∀ h, h ∈ S → h ∈ objs c ∧ h ≠ g) ∧
    ∀ m, m ∈ atts c → incident c g m ↔ ∀ h, h ∈ S → incident c h m.

Lemma isort_seq_filter (l : list nat) n :
  NoDup l → (∀ i, i ∈ l → i < n) →
  isort Nat.leb l = List.filter (λ i, bool_decide (i ∈ l)) (seq 0 n).
Proof.
  intros Hnd Hlt. apply (StronglySorted_unique le).
  - apply Sorted_StronglySorted; [intros ???; lia|].
    assert (∀ k, Sorted (λ x y, (x <=? y) = true) k → Sorted le k) as Himp.
    { induction 1 as [|x k _ IH Hx]; constructor; [done|].
      destruct Hx; constructor. by apply Nat.leb_le. }
    apply Himp, isort_Sorted. intros x y. rewrite Nat.leb_gt, Nat.leb_le. lia.
  - clear. generalize 0 as k. induction n as [|n IH]; intros k; simpl; [constructor|].
    destruct (bool_decide _); [|apply IH]. constructor; [apply IH|].
    apply Forall_forall. intros x Hx%elem_of_list_In. apply filter_In in Hx as [Hx%in_seq _]. lia.
  - rewrite isort_Permutation. apply NoDup_Permutation; [done| |].
    + apply NoDup_ListNoDup, List.NoDup_filter, seq_NoDup.
    + intros x. rewrite !elem_of_list_In, filter_In, <-!elem_of_list_In, elem_of_seq, bool_decide_eq_true.
      split; [|tauto]. intros Hx. split; [|done]. apply Hlt in Hx. lia.
Qed.

Section reduce_objects.
  Context (c : context) (Hwf : wf c) (Hd : distinct c) (H63 : length (atts c) ≤ 63).
  Let d := dict_of (zip (map list2int (np c)) (seq 0 (length (np c)))).
  Let keys := map fst d.
  Let n := length (atts c).
  Let m := (2 ^ Z.of_nat n - 1)%Z.
  Let red := foldl (reduce_iter m keys) [] (seq 0 (length keys)).
  Let bit (k : Z) (x : nat) : bool := Z.testbit k (Z.of_nat x).

  Lemma d_elem k i : (k, i) ∈ d → ∃ r, np c !! i = Some r ∧ k = list2int r.
  Proof.
    intros H%elem_of_dict_of. apply elem_of_lookup_zip_with in H as (p & x & y & [= -> ->] & Hx & Hy).
    apply lookup_map_Some in Hx as (r & Hr & ->). apply lookup_seq in Hy as [-> _]. eauto.
  Qed.
  Lemma d_nodup : NoDup keys.
  Proof. apply NoDup_keys_dict_of. Qed.
  Lemma d_row i r : np c !! i = Some r → ∃ i', (list2int r, i') ∈ d.
  Proof.
    intros Hr. assert (list2int r ∈ keys) as Hk.
    { apply elem_of_keys_dict_of, elem_of_list_fmap. exists (list2int r, i). split; [done|].
      apply elem_of_lookup_zip_with. exists i, (list2int r), i. split; [done|]. split.
      - apply lookup_map_Some. eauto.
      - apply lookup_seq. split; [done|]. by eapply lookup_lt_Some. }
    apply elem_of_list_fmap in Hk as ([k i'] & -> & Hin). eauto.
  Qed.
  Lemma keys_row k : k ∈ keys ↔ ∃ i r, np c !! i = Some r ∧ k = list2int r.
  Proof.
    split.
    - intros ([k' i] & -> & Hin)%elem_of_list_fmap. apply d_elem in Hin as (r & ? & ?). eauto.
    - intros (i & r & Hr & ->). destruct (d_row i r Hr) as [i' Hi']. apply elem_of_list_fmap. by exists (list2int r, i').
  Qed.
  Lemma row_bits i r : np c !! i = Some r →
    (0 <= list2int r < 2 ^ Z.of_nat n)%Z ∧ ∀ j, bit (list2int r) j = true ↔ cellb c i j = Some true.
  Proof.
    intros Hr. pose proof (wf_cols c Hwf _ _ Hr) as Hl. unfold n. rewrite <-Hl.
    destruct (list2int_bits r) as [H1 H2]; [lia|]. split; [done|]. intros j. unfold bit. rewrite H2.
    unfold cellb. rewrite Hr. simpl. destruct (r !! j) as [[]|]; naive_solver.
  Qed.
  Lemma keys_range k : k ∈ keys → (0 <= k < 2 ^ Z.of_nat n)%Z.
  Proof. intros (i & r & Hr & ->)%keys_row. by apply row_bits in Hr as [? _]. Qed.
  Lemma red_inv r : r ∈ red → removable n keys r.
  Proof.
    apply reduce_loop_inv; [apply keys_range|apply d_nodup|].
    intros r' ?%elem_of_nil. done.
  Qed.
  (** Objects, rows and keys. *)
  Lemma obj_key g : g ∈ objs c → ∃ i r, objs c !! i = Some g ∧ np c !! i = Some r ∧
     list2int r ∈ keys ∧ ∀ j x, atts c !! j = Some x → bit (list2int r) j = true ↔ incident c g x.
  Proof.
    intros [i Hi]%elem_of_list_lookup.
    destruct (row_exists c Hwf i) as (r & Hr & _); [by eapply lookup_lt_Some|].
    exists i, r. split; [done|]. split; [done|]. split; [apply keys_row; eauto|].
    intros j x Hx. apply row_bits in Hr as [_ Hb]. rewrite Hb, <-elem_of_fI. symmetry. by apply incident_cell.
  Qed.

  Lemma reduce_spec :
    ∃ c', reduce_objects c = Ok c' ∧ good c' ∧ atts c' = atts c ∧ objs c' `sublist_of` objs c ∧
      (∀ g x, incident c' g x ↔ g ∈ objs c' ∧ incident c g x) ∧
      (∀ g, g ∈ objs c' → ∃ i r, objs c !! i = Some g ∧ np c !! i = Some r ∧ (list2int r, i) ∈ d ∧ list2int r ∉ red) ∧
      (∀ k i, (k, i) ∈ d → k ∉ red → ∃ g, objs c !! i = Some g ∧ g ∈ objs c').
  Proof.
    pose proof Hd as [Hdo Hda]. unfold reduce_objects, reduced_rows. fold d. fold keys. fold n. fold m. fold red.
    assert ((63 <? n)%nat = false) as -> by (apply Nat.ltb_ge; done). cbn [andb].
    set (rest := filter (λ p : Z * nat, p.1 ∉ red) d).
    assert (NoDup rest) as Hnr by (apply NoDup_filter; eapply NoDup_fmap_1, d_nodup).
    assert (NoDup (map snd rest)) as Hns.
    { apply NoDup_fmap_2_strong; [|done].
      intros [k i] [k' i'] [_ (r & Hr & ->)%d_elem]%elem_of_list_filter [_ (r' & Hr' & ->)%d_elem]%elem_of_list_filter.
      simpl. intros ->. congruence. }
    assert (∀ i, i ∈ map snd rest → i < length (objs c)) as Hlt.
    { intros i ([k i'] & -> & [_ (r & Hr & _)%d_elem]%elem_of_list_filter)%elem_of_list_fmap. simpl.
      rewrite <-(wf_rows c Hwf). by eapply lookup_lt_Some. }
    set (order := isort Nat.leb (map snd rest)).
    assert (∀ i, i ∈ order ↔ i ∈ map snd rest) as Hord by (intros i; apply elem_of_isort).
    assert (∀ i, i ∈ order → i < length (objs c)) as Hlt' by (intros i ?%Hord; auto).
    destruct (select_rows_ok c order Hwf Hlt') as (os & t & Hos & Ht). rewrite Hos, Ht. cbn [mbind res_bind].
    edestruct (select_rows_spec c order os t) as (c' & Hc' & Hg & Ho' & Ha' & Hos' & Hinc); try done.
    { unfold order. by rewrite isort_Permutation. }
    exists c'. split; [done|]. split; [done|]. split; [done|].
    assert (os `sublist_of` objs c) as Hsub.
    { unfold order in Hos. rewrite (isort_seq_filter _ (length (objs c))) in Hos by done.
      rewrite (select_filter_order c _ os (λ g, g ∈ os) Hos); [apply sublist_filter_list|].
      intros i g Hi. rewrite bool_decide_eq_true, Hos'. setoid_rewrite Hord. split; [eauto|].
      intros (i' & Hi' & Hgi'). assert (i = i') as <- by (eapply (NoDup_lookup (objs c)); done). done. }
    split; [by rewrite Ho'|]. split; [by rewrite Ho'|]. split.
    - intros g. rewrite Ho', Hos'. intros (i & Hi & Hgi).
      apply Hord, elem_of_list_fmap in Hi as ([k i'] & -> & [Hk Hin]%elem_of_list_filter). simpl in *.
      pose proof (d_elem _ _ Hin) as (r & Hr & ->). exists i', r. done.
    - intros k i Hin Hk. pose proof (d_elem _ _ Hin) as (r & Hr & ->).
      destruct (lookup_lt_is_Some_2 (objs c) i) as [g Hgi]; [rewrite <-(wf_rows c Hwf); by eapply lookup_lt_Some|].
      exists g. split; [done|]. rewrite Ho', Hos'. exists i. split; [|done].
      apply Hord, elem_of_list_fmap. exists (list2int r, i). split; [done|]. by apply elem_of_list_filter.
  Qed.

  Lemma bsub_incident i r g i' r' h :
    objs c !! i = Some g → np c !! i = Some r → objs c !! i' = Some h → np c !! i' = Some r' →
    bsub (list2int r) (list2int r') ↔ ∀ x, x ∈ atts c → incident c g x → incident c h x.
  Proof.
    intros Hi Hr Hi' Hr'. pose proof (row_bits i r Hr) as [Hr0 Hb]. pose proof (row_bits i' r' Hr') as [_ Hb'].
    rewrite bsub_bits by lia. fold (bit (list2int r)). split.
    - intros H x [j Hj]%elem_of_list_lookup. rewrite <-!elem_of_fI.
      rewrite (incident_cell c i j g x), (incident_cell c i' j h x), <-Hb, <-Hb' by done. apply H.
    - intros H j Hj. apply Hb in Hj. pose proof (cellb_lt c Hwf _ _ _ Hj) as [_ Hjl].
      destruct (lookup_lt_is_Some_2 _ _ Hjl) as [x Hx]. apply Hb'.
      apply (incident_cell c i' j h x); [done..|]. apply elem_of_fI, H; [by eapply elem_of_list_lookup_2|].
      apply elem_of_fI. by apply (incident_cell c i j g x).
  Qed.

  Lemma reduce_closures c' : reduce_objects c = Ok c' →
    ∀ B, B ⊆ fM (abs c) → acl (abs c') B = acl (abs c) B.
  Proof.
    intros Hc'. destruct reduce_spec as (c'' & E & Hg & Ha & Hsub & Hinc & H1 & H2).
    rewrite E in Hc'. injection Hc' as ->. apply acl_sub_objects.
    - unfold abs. simpl. by rewrite Ha.
    - intros g. rewrite !elem_of_fG. intros (i & r & Hi & _)%H1. by eapply elem_of_list_lookup_2.
    - intros g x. rewrite elem_of_fG, !elem_of_fI, Hinc. tauto.
    - intros g x. rewrite elem_of_fG, elem_of_fM, elem_of_fI. intros Hg' [j Hx]%elem_of_list_lookup Hn.
      destruct (obj_key g Hg') as (i & r & Hi & Hr & Hk & Hbits).
      destruct (reduce_remaining n keys keys_range red red_inv (list2int r) Hk j) as (k & Hkk & Hkr & Hsb & Hkb).
      { by eapply lookup_lt_Some. }
      { destruct (Z.testbit (list2int r) (Z.of_nat j)) eqn:Eb; [|done]. exfalso. by apply Hn, (Hbits j x). }
      apply elem_of_list_fmap in Hkk as ([k' i'] & -> & Hin). cbn [fst] in Hkr, Hsb, Hkb.
      destruct (H2 _ _ Hin Hkr) as (h & Hi' & Hh). apply d_elem in Hin as (r' & Hr' & ->).
      exists h. rewrite elem_of_fG, elem_of_fI. split; [done|]. split.
      + rewrite <-elem_of_fI, (incident_cell c i' j h x) by done.
        apply row_bits in Hr' as [_ Hb']. rewrite <-Hb'. unfold bit. congruence.
      + intros y. rewrite elem_of_fM, !elem_of_fI. by eapply bsub_incident.
  Qed.

  (** An object with all attributes survives (as the last such object). *)
  Lemma reduce_keeps_full c' g : reduce_objects c = Ok c' → g ∈ objs c →
    (∀ x, x ∈ atts c → incident c g x) → ∃ h, h ∈ objs c' ∧ ∀ x, x ∈ atts c → incident c h x.
  Proof.
    intros Hc' Hgo Hall. destruct reduce_spec as (c'' & E & Hg & Ha & Hsub & Hinc & H1 & H2).
    rewrite E in Hc'. injection Hc' as ->.
    destruct (obj_key g Hgo) as (i & r & Hi & Hr & Hk & Hbits).
    assert (list2int r ∉ red) as Hnr.
    { intros (_ & _ & j & Hj & Hne & Hb)%red_inv. apply Hne.
      pose proof (keys_range j Hj). apply keys_row in Hj as (i' & r' & Hr' & ->).
      f_equal. symmetry. apply list2int_inj.
      - rewrite (wf_cols c Hwf _ _ Hr), (wf_cols c Hwf _ _ Hr'). done.
      - rewrite (wf_cols c Hwf _ _ Hr). done.
      - destruct (row_bits i r Hr) as [Hr0 Hrb]. destruct (row_bits i' r' Hr') as [Hr0' Hrb'].
        apply Z.bits_inj'. intros b Hb0. rewrite <-(Z2Nat.id b) by done. set (x := Z.to_nat b).
        fold (bit (list2int r) x) (bit (list2int r') x).
        apply eq_true_iff_eq. split; [by apply (bsub_elim _ _ Hb)|].
        intros Hbx%Hrb'. pose proof (cellb_lt c Hwf _ _ _ Hbx) as [_ Hjl].
        destruct (lookup_lt_is_Some_2 _ _ Hjl) as [y Hy]. apply (Hbits x y Hy), Hall. by eapply elem_of_list_lookup_2. }
    destruct (d_row i r Hr) as [i' Hi']. destruct (H2 _ _ Hi' Hnr) as (h & Hih & Hh).
    exists h. split; [done|]. intros x Hx. apply d_elem in Hi' as (r' & Hr' & Heq).
    apply (bsub_incident i r g i' r' h); [done..|rewrite <-Heq; apply Z.land_diag|done|by apply Hall].
  Qed.

  (** Without index collisions no remaining object is reducible. *)
  Lemma reduce_complete c' : reduce_objects c = Ok c' →
    (∀ i g r, objs c !! i = Some g → np c !! i = Some r → reducible_object c g →
       (Z.of_nat (length (objs c)) <= bits_value r)%Z) →
    ∀ g, g ∈ objs c' → ¬ reducible_object c' g.
  Proof.
    intros Hc' Hcol g Hgo (S & Hne & HS & Hint).
    destruct reduce_spec as (c'' & E & Hg & Ha & Hsub & Hinc & H1 & H2).
    rewrite E in Hc'. injection Hc' as ->. pose proof Hd as [Hdo Hda].
    destruct (H1 g Hgo) as (i & r & Hi & Hr & Hin & Hnr). apply Hnr.
    assert (∀ h, h ∈ S → ∃ i' r', objs c !! i' = Some h ∧ np c !! i' = Some r' ∧ list2int r' ∈ keys ∧ list2int r' ≠ list2int r ∧ list2int r' ∉ red) as HS'.
    { intros h Hh. destruct (HS h Hh) as [Hho Hhg]. destruct (H1 h Hho) as (i' & r' & Hi' & Hr' & Hin' & Hnr').
      exists i', r'. split; [done|]. split; [done|]. split; [apply elem_of_list_fmap; by exists (list2int r', i')|].
      split; [|done]. intros Heq. rewrite Heq in Hin'.
      pose proof (elem_of_dget _ _ d d_nodup Hin). pose proof (elem_of_dget _ _ d d_nodup Hin').
      assert (i = i') as <- by congruence. congruence. }
    assert (∀ h, h ∈ S → ∀ x, x ∈ atts c → incident c g x → incident c h x) as Hsup.
    { intros h Hh x Hx Hgx. rewrite Ha in Hint. assert (incident c' g x) as H by (apply Hinc; done).
      pose proof (proj1 (Hint x Hx) H h Hh) as H'. apply Hinc in H' as [_ ?]. done. }
    destruct (mapM_is_ok (λ h, match py_index h (objs c) with
        | Ok i' => match np c !! i' with Some r' => Ok (list2int r') | None => Err IndexError end | Err e => Err e end) S) as [ks Hks].
    { intros h Hh. destruct (HS' h Hh) as (i' & r' & Hi' & Hr' & _).
      rewrite (proj2 (py_index_NoDup h (objs c) i' Hdo) Hi'), Hr'. eauto. }
    assert (∀ k, k ∈ ks ↔ ∃ h i' r', h ∈ S ∧ objs c !! i' = Some h ∧ np c !! i' = Some r' ∧ k = list2int r') as Hkel.
    { intros k. rewrite (mapM_elem _ _ _ _ Hks). split.
      - intros (h & Hh & Hk). destruct (HS' h Hh) as (i' & r' & Hi' & Hr' & _).
        rewrite (proj2 (py_index_NoDup h (objs c) i' Hdo) Hi'), Hr' in Hk. injection Hk as <-. naive_solver.
      - intros (h & i' & r' & Hh & Hi' & Hr' & ->). exists h. split; [done|].
        by rewrite (proj2 (py_index_NoDup h (objs c) i' Hdo) Hi'), Hr'. }
    apply (reduce_loop_complete n keys keys_range d_nodup (list2int r) ks).
    - apply elem_of_list_fmap. by exists (list2int r, i).
    - intros k Hk%red_inv. destruct Hk as (Hkk & Hw & j & Hj & Hjk & Hkj).
      pose proof Hkk as (ik & rk & Hrk & ->)%keys_row.
      destruct (lookup_lt_is_Some_2 (objs c) ik) as [gk Hgk]; [rewrite <-(wf_rows c Hwf); by eapply lookup_lt_Some|].
      assert (length keys ≤ length (objs c)) as Hlen.
      { unfold keys. rewrite map_length, <-(wf_rows c Hwf).
        assert (map snd d ⊆+ seq 0 (length (np c))) as Hs.
        { apply NoDup_submseteq.
          - apply NoDup_fmap_2_strong; [|eapply NoDup_fmap_1, d_nodup].
            intros [k1 i1] [k2 i2] (r1 & Hr1 & ->)%d_elem (r2 & Hr2 & ->)%d_elem. simpl. intros ->. congruence.
          - intros x ([k1 i1] & -> & (r1 & Hr1 & ->)%d_elem)%elem_of_list_fmap. apply elem_of_seq. simpl.
            apply lookup_lt_Some in Hr1. lia. }
        apply submseteq_length in Hs. by rewrite map_length, seq_length in Hs. }
      rewrite list2int_value by by rewrite (wf_cols c Hwf _ _ Hrk).
      etrans; [|apply (Hcol ik gk rk Hgk Hrk)]; [lia|].
      (* a witnessed key is a reducible object of [c] *)
      set (T := filter (λ h, h ≠ gk ∧ Forall (λ x, incident c gk x → incident c h x) (atts c)) (objs c)).
      exists T. split; [|split].
      + apply keys_row in Hj as (ij & rj & Hrj & ->).
        destruct (lookup_lt_is_Some_2 (objs c) ij) as [gj Hgj]; [rewrite <-(wf_rows c Hwf); by eapply lookup_lt_Some|].
        assert (gj ∈ T) as HT; [|intros HTe; rewrite HTe in HT; by apply elem_of_nil in HT].
        apply elem_of_list_filter. split; [|by eapply elem_of_list_lookup_2]. split.
        * intros ->. assert (ij = ik) as -> by (eapply (NoDup_lookup (objs c)); done). congruence.
        * apply Forall_forall. by apply (bsub_incident ik rk gk ij rj gj).
      + intros h [[? _] ?]%elem_of_list_filter. done.
      + intros x Hx. split.
        * intros Hgx h [[_ Hall] _]%elem_of_list_filter. rewrite Forall_forall in Hall. by apply Hall.
        * intros Hall. pose proof Hx as [jx Hjx]%elem_of_list_lookup.
          destruct (row_bits ik rk Hrk) as [_ Hbk].
          rewrite <-elem_of_fI, (incident_cell c ik jx gk x), <-Hbk by done.
          destruct (bit (list2int rk) jx) eqn:Eb; [done|]. exfalso.
          destruct (Hw jx) as (k' & Hk' & Hne' & Hsb' & Hb'); [by eapply lookup_lt_Some|done|].
          apply keys_row in Hk' as (i' & r' & Hr' & ->).
          destruct (lookup_lt_is_Some_2 (objs c) i') as [h Hh]; [rewrite <-(wf_rows c Hwf); by eapply lookup_lt_Some|].
          assert (h ∈ T) as HT.
          { apply elem_of_list_filter. split; [|by eapply elem_of_list_lookup_2]. split.
            - intros ->. assert (i' = ik) as -> by (eapply (NoDup_lookup (objs c)); done). congruence.
            - apply Forall_forall. by apply (bsub_incident ik rk gk i' r' h). }
          apply Hall in HT. rewrite <-elem_of_fI, (incident_cell c i' jx h x) in HT by done.
          apply row_bits in Hr' as [_ Hbr']. apply Hbr' in HT. unfold bit in HT. congruence.
    - destruct S as [|h S]; [done|]. intros ->. apply mapM_length in Hks. done.
    - intros k (h & i' & r' & Hh & Hi' & Hr' & ->)%Hkel.
      destruct (HS' h Hh) as (i2 & r2 & Hi2 & Hr2 & ? & ? & ?).
      assert (i' = i2) as -> by (eapply (NoDup_lookup (objs c)); done). assert (r2 = r') as -> by congruence.
      split; [done|]. split; [done|]. split; [done|]. apply (bsub_incident i r g i2 r' h); [done..|]. by apply Hsup.
    - intros jx Hjx. destruct (decide (jx < length (atts c))) as [Hlt|Hge].
      + destruct (lookup_lt_is_Some_2 _ _ Hlt) as [x Hx].
        destruct (row_bits i r Hr) as [_ Hb].
        destruct (decide (Forall (λ h, incident c h x) S)) as [Hall|Hnall].
        * exfalso. rewrite Forall_forall in Hall.
          assert (incident c' g x) as Hgx.
          { apply Hint; [rewrite Ha; by eapply elem_of_list_lookup_2|]. intros h Hh. apply Hinc. split; [by apply HS|auto]. }
          apply Hinc in Hgx as [_ Hgx]. rewrite <-elem_of_fI, (incident_cell c i jx g x), <-Hb in Hgx by done.
          unfold bit in Hgx. congruence.
        * apply not_Forall_Exists in Hnall; [|apply _]. apply Exists_exists in Hnall as (h & Hh & Hnx).
          destruct (HS' h Hh) as (i' & r' & Hi' & Hr' & _). exists (list2int r'). split; [apply Hkel; naive_solver|].
          destruct (row_bits i' r' Hr') as [_ Hb']. fold (bit (list2int r') jx).
          destruct (bit (list2int r') jx) eqn:Eb; [|done]. exfalso. apply Hnx.
          apply elem_of_fI, (incident_cell c i' jx h x); [done..|]. by apply Hb'.
      + destruct S as [|h S]; [done|]. destruct (HS' h) as (i' & r' & Hi' & Hr' & _); [left|].
        exists (list2int r'). split; [apply Hkel; exists h, i', r'; split; [left|done]|].
        destruct (row_bits i' r' Hr') as [_ Hb']. fold (bit (list2int r') jx).
        destruct (bit (list2int r') jx) eqn:Eb; [|done]. apply Hb' in Eb. apply (cellb_lt c Hwf) in Eb. lia.
  Qed.
End reduce_objects.

(** ** reduce_attributes *)
Lemma ocl_ftrans K A : ocl K A = acl (ftrans K) A.
Proof.
  assert (∀ g m, (m, g) ∈ fI (ftrans K) ↔ (g, m) ∈ fI K) as HI.
  { intros g m. simpl. rewrite elem_of_map. split.
    - intros ([g' m'] & [= -> ->] & ?). done.
    - intros H. by exists (g, m). }
  assert (∀ X, up K X = down (ftrans K) X) as H1.
  { intros X. apply set_eq. intros m. rewrite elem_of_up, elem_of_down. simpl fG. by setoid_rewrite HI. }
  assert (∀ X, down K X = up (ftrans K) X) as H2.
  { intros X. apply set_eq. intros m. rewrite elem_of_up, elem_of_down. simpl fM. by setoid_rewrite HI. }
  unfold ocl, acl. by rewrite H1, H2.
Qed.
Lemma ftrans_ftrans K : ftrans (ftrans K) = K.
Proof.
  destruct K as [G M I]. unfold ftrans. simpl. f_equal. apply set_eq. intros [g m].
  rewrite elem_of_map. split.
  - intros ([m' g'] & [= -> ->] & H). apply elem_of_map in H as ([g m] & [= -> ->] & H). done.
  - intros H. exists (m, g). split; [done|]. apply elem_of_map. by exists (g, m).
Qed.
Lemma reduce_attributes_spec c : wf c → distinct c → length (objs c) ≤ 63 →
  ∃ c', reduce_attributes c = Ok c' ∧ good c' ∧ objs c' = objs c ∧ atts c' `sublist_of` atts c ∧
    (∀ g x, incident c' g x ↔ x ∈ atts c' ∧ incident c g x) ∧
    (∀ A, A ⊆ fG (abs c) → ocl (abs c') A = ocl (abs c) A) ∧
    (∀ x, x ∈ atts c → (∀ g, g ∈ objs c → incident c g x) → ∃ y, y ∈ atts c' ∧ ∀ g, g ∈ objs c → incident c g y).
Proof.
  intros Hwf Hd H63. unfold reduce_attributes.
  destruct (transpose_spec c Hwf Hd) as (t & Ht & Hgt & Hot & Hat & _ & Hit). rewrite Ht. cbn [mbind res_bind].
  assert (length (atts t) ≤ 63) as H63' by by rewrite Hat.
  destruct (reduce_spec t (good_wf _ Hgt) (good_distinct _ Hgt) H63') as (r & Hr & Hgr & Har & Hsr & Hir & _).
  rewrite Hr. cbn [mbind res_bind].
  destruct (transpose_spec r (good_wf _ Hgr) (good_distinct _ Hgr)) as (c' & Hc' & Hg' & Ho' & Ha' & _ & Hi').
  exists c'. split; [done|]. split; [done|]. split; [congruence|]. split; [by rewrite Ha', <-Hot|].
  split; [|split].
  - intros g x. by rewrite Hi', Hir, Hit, Ha'.
  - intros A HA. rewrite !ocl_ftrans.
    rewrite (transpose_abs r c'), ftrans_ftrans by (done || apply Hgr).
    rewrite <-(transpose_abs c t) by done.
    apply (reduce_closures t); [apply Hgt|apply Hgt|done|done|].
    intros g Hg%HA. apply elem_of_fM. rewrite Hat. by apply elem_of_fG.
  - intros x Hx Hall. destruct (reduce_keeps_full t (good_wf _ Hgt) (good_distinct _ Hgt) H63' r x Hr) as (y & Hy & Hyall).
    + by rewrite Hot.
    + intros g. rewrite Hat, Hit. apply Hall.
    + exists y. rewrite Ha'. split; [done|]. intros g Hg. apply Hit, Hyall. by rewrite Hat.
Qed.

(** Checking reducibility of a concrete object. *)
Definition incb (c : context) (g m : name) : bool := bool_decide ((g, m) ∈ fI (abs c)).
Lemma incb_spec c g m : incb c g m = true ↔ incident c g m.
Proof. unfold incb. by rewrite bool_decide_eq_true, elem_of_fI. Qed.
Definition reducibleb (c : context) (g : name) (S : list name) : bool :=
  negb (bool_decide (S = [])) &&
  forallb (λ h, bool_decide (h ∈ objs c) && negb (bool_decide (h = g))) S &&
  forallb (λ m, Bool.eqb (incb c g m) (forallb (λ h, incb c h m) S)) (atts c).
Lemma reducibleb_sound c g S : reducibleb c g S = true → reducible_object c g.
Proof.
  unfold reducibleb. rewrite !andb_true_iff, negb_true_iff, bool_decide_eq_false, !forallb_forall.
  intros [[H1 H2] H3]. exists S. split; [done|]. split.
  - intros h Hh%elem_of_list_In. apply H2 in Hh. rewrite andb_true_iff, negb_true_iff, bool_decide_eq_true, bool_decide_eq_false in Hh. done.
  - intros m Hm%elem_of_list_In%H3. apply eqb_prop in Hm. rewrite <-incb_spec, Hm, forallb_forall.
    setoid_rewrite <-elem_of_list_In. by setoid_rewrite incb_spec.
Qed.
