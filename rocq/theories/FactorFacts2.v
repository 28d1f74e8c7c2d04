From Coq Require Import QArith Qcanon.
From Verif Require Import Py PyFacts Spec SpecFacts ContextModel ContextSpec ContextFacts ContextMisc LatticeModel FilterModel FactorSpec FactorModel FactorFacts.

(** ** algorithm2_weighted *)
Lemma py_max_const {A} (ltb : A → A → bool) m l : (∀ x y, x ∈ m :: l → y ∈ m :: l → ltb x y = false) → py_max ltb m l = m.
Proof.
  unfold py_max. induction l as [|y l IH]; intros H; simpl; [done|].
  rewrite (H m y) by set_solver. apply IH. intros x z Hx Hz. apply H; set_solver.
Qed.
Lemma weighted_fails c ord fid : good c → (∀ k i X, ord k i X ≡ₚ elements X) → fI (abs c) ≠ ∅ →
  (∀ x, x ∈ objs c → x ∉ atts c) → (Q2Qc 0 < fid)%Qc → algorithm2_weighted c ord fid = ([], Err AssertionError).
Proof.
  intros Hg Hord HI Hdis Hfid. unfold algorithm2_weighted. destruct (fI_pairs c Hg) as (l & -> & ->).
  assert (size (fI (abs c)) ≠ 0) as Hn by (intros E; apply size_empty_inv in E; set_solver).
  cbn [weighted_loop]. rewrite decide_False by done.
  rewrite Z.sub_diag, qdiv_zero. destruct (qltb (Q2Qc 0) fid) eqn:E.
  2:{ apply qltb_false in E. exfalso. by apply (Qclt_not_le _ _ Hfid). }
  cbn [weighted_inner]. rewrite oprime_el by set_solver. rewrite up_empty. cbn [mbind res_bind].
  set (al := ord 0 0 _). assert (∀ j, j ∈ al → j ∈ fM (abs c)) as Hal.
  { intros j. unfold al. rewrite Hord, elem_of_elements, elem_of_difference. intros [? _]. done. }
  rewrite (mapM_Ok_map _ (λ j, (Q2Qc 0, j))).
  2:{ intros j Hj. unfold oplus. destruct (Hg) as [Hw Hd Hs].
      rewrite get_attribute_extent_spec; [|done..|by apply fI_np|by apply in_atts, Hal]. cbn [mbind res_bind].
      assert (fM (abs c) ∩ down (abs c) {[j]} = ∅) as ->.
      { apply set_eq. intros x. rewrite elem_of_intersection. split; [|set_solver].
        intros [H1%in_atts H2]. apply down_sub, in_objs in H2. exfalso. by apply (Hdis x). }
      rewrite oprime_el by set_solver. cbn [mbind res_bind].
      assert (rect_in ∅ (up (abs c) ∅) (fI (abs c)) = ∅) as ->.
      { apply set_eq. intros p. rewrite elem_of_rect_in. unfold in_rect. simpl. set_solver. }
      unfold wscore. rewrite !set_map_empty, !size_empty. by rewrite qdiv_zero. }
  cbn [mbind res_bind]. destruct (map _ al) as [|m ms] eqn:Em.
  { by rewrite decide_True. }
  assert (∀ x, x ∈ m :: ms → x.1 = Q2Qc 0) as Hz.
  { rewrite <-Em. intros x (j & -> & _)%elem_of_list_fmap. done. }
  rewrite py_max_const.
  2:{ intros x y Hx Hy. unfold score_ltb. rewrite (Hz x Hx), (Hz y Hy). apply qltb_false. apply Qcle_refl. }
  destruct m as [v j]. pose proof (Hz (v, j) ltac:(set_solver)) as Hv. cbn [fst] in Hv. subst v.
  assert (qltb (qnat 0) (Q2Qc 0) = false) as -> by (apply qltb_false; apply Qcle_refl).
  by rewrite decide_True.
Qed.
Lemma weighted_nothing c ord fid : good c → fI (abs c) ≠ ∅ → (fid <= Q2Qc 0)%Qc → algorithm2_weighted c ord fid = ([], Ok tt).
Proof.
  intros Hg HI Hfid. unfold algorithm2_weighted. destruct (fI_pairs c Hg) as (l & -> & ->).
  assert (size (fI (abs c)) ≠ 0) as Hn by (intros E; apply size_empty_inv in E; set_solver).
  cbn [weighted_loop]. rewrite decide_False by done. rewrite Z.sub_diag, qdiv_zero.
  by rewrite (proj2 (qltb_false _ _) Hfid).
Qed.

(** ** algorithm2_w_condition *)
Section cond.
  Context (c : context) (Hg : good c).
  Local Notation K := (abs c).
  Context (ord : nat → nat → gset name → list name).
  Hypothesis Hord : ∀ k i X, ord k i X ≡ₚ elements X.
  Hypothesis Hne : np c ≠ [].
  Context (allow : bool) (mn : Z) (ge : bool).
  Local Notation gf := (good_factor mn ge).
  Local Notation simple := (mn ≤ 1 ∧ ge = false)%Z.

  (** What the choice removes from [U]. *)
  Definition wrem (U : gset (name * name)) (C D : gset name) : gset (name * name) :=
    if allow then rect_in C D U else filter (fun p => p.1 ∈ C ∧ p.2 ∈ atts c ∨ p.1 ∈ objs c ∧ p.2 ∈ D) U.
  Lemma wrem_sub U C D : wrem U C D ⊆ U.
  Proof. unfold wrem, rect_in. destruct allow; intros p; rewrite elem_of_filter; tauto. Qed.
  Lemma rect_wrem U C D : C ⊆ fG K → D ⊆ fM K → rect_in C D U ⊆ wrem U C D.
  Proof.
    intros HC HD p. unfold wrem. destruct allow; [done|]. rewrite elem_of_rect_in, elem_of_filter. unfold in_rect. cbn [fst snd].
    intros (HU & H1 & H2). split; [|done]. left. split; [done|]. by apply in_atts, HD.
  Qed.

  Definition inner_ok (U : gset (name * name)) (avail : gset name) (r : res wout) : Prop :=
    match r with
    | Ok WReturn => True
    | Ok (WRestart Dj) => ¬ simple ∧ Dj ⊆ fM K ∧ ∃ j, j ∈ avail ∧ j ∈ Dj
    | Ok (WYield C D rem) => is_concept K C D ∧ gf C D = true ∧ rem = wrem U C D ∧ rem ≠ ∅ ∧
        (∃ j, j ∈ avail ∧ j ∉ D) ∧ (∃ j, j ∈ avail ∧ j ∈ D)
    | Err e => e = UserException 239 ∧ ¬ simple
    end.

  Lemma wcond_inner_spec k U avail : avail ⊆ fM K → (∀ j, j ∈ avail → ∃ g, (g, j) ∈ U) → U ⊆ fI K → ∀ fuel i D C V rem,
    D ⊆ fM K → size (fM K) < fuel + size D →
    (D = ∅ ∧ C = fG K ∧ V = 0 ∧ rem = ∅ ∨
     is_concept K C D ∧ rem = wrem U C D ∧ V = size (rect_in C D U) ∧ (∃ j, j ∈ avail ∧ j ∈ D) ∧ (simple → rect_in C D U ≠ ∅)) →
    inner_ok U avail (wcond_inner c ord allow mn ge fuel k i U avail D C V rem).
  Proof.
    intros Hav HavU HUI. induction fuel as [|fuel IH]; intros i D C V rem HD Hf Hst.
    { apply subseteq_size in HD. lia. }
    cbn [wcond_inner]. rewrite aprime_el by done. cbn [mbind res_bind].
    set (l := ord k i _). assert (∀ j, j ∈ l ↔ j ∈ avail ∧ j ∉ D) as Hl.
    { intros j. unfold l. rewrite Hord, elem_of_elements, elem_of_difference. done. }
    rewrite measures_spec; [|done..|intros j Hj; by apply Hav, Hl]. cbn [mbind res_bind].
    destruct (map _ l) as [|m ms] eqn:Em; [done|].
    destruct (best_spec c D U m ms l Em) as (j & -> & Hj & Hbest).
    pose proof Hj as [Hja HjD]%Hl. assert (j ∈ fM K) as HjM by auto.
    (* the first pass finds an uncovered cross *)
    assert (D = ∅ → 0 < size (cut U (ext1 c D j))) as Hfirst.
    { intros ->. destruct (HavU j Hja) as [g Hgj].
      assert ((g, j) ∈ cut U (ext1 c ∅ j)) as Hin.
      { apply elem_of_rect_in. split; [done|]. unfold in_rect. cbn [fst snd].
        destruct (abs_fwf c g j (HUI _ Hgj)) as [HgG HjM']. 
        split.
        - apply elem_of_down. split; [done|]. intros m'. rewrite elem_of_union. intros [?|Hm%elem_of_singleton]; [set_solver|]. subst. by apply HUI.
        - apply elem_of_up. split; [done|]. intros g' Hg'. apply elem_of_down in Hg' as [_ Hg']. apply Hg'. set_solver. }
      destruct (decide (size (cut U (ext1 c ∅ j)) = 0)) as [E|]; [|lia]. apply size_empty_inv in E. set_solver. }
    destruct ((V <? size (cut U (ext1 c D j)))%nat || negb (gf C D)) eqn:EV.
    - rewrite aprime_el by set_solver. cbn [mbind res_bind].
      assert (bool_decide (avail ∖ D = ∅) = false) as ->. { apply bool_decide_eq_false. set_solver. }
      rewrite orb_false_r.
      pose proof (ext1_grows c D j HD HjM) as Hgr. pose proof (ext1_concept c D j HD HjM) as Hc.
      (* in the simple case the new gain is positive *)
      assert (simple → 0 < size (cut U (ext1 c D j))) as Hpos.
      { intros [Hmn Hge]. destruct Hst as [(HD0 & _)|(Hc0 & _ & HV & _ & Hr)]; [by apply Hfirst|].
        apply orb_prop in EV as [EV|EV].
        - apply Nat.ltb_lt in EV. lia.
        - exfalso. specialize (Hr (conj Hmn Hge)). unfold good_factor in EV. rewrite Hge in EV.
          apply set_choose_L in Hr as [p Hp]. apply elem_of_rect_in in Hp as (_ & Hp1 & Hp2). cbn [fst snd] in *.
          assert (1 ≤ size C). { destruct (decide (size C = 0)) as [E|]; [|lia]. apply size_empty_inv in E. set_solver. }
          assert (1 ≤ size D). { destruct (decide (size D = 0)) as [E|]; [|lia]. apply size_empty_inv in E. set_solver. }
          apply negb_true_iff, andb_false_iff in EV as [EV|EV]; apply Z.leb_gt in EV; lia. }
      destruct (Z.of_nat (size (down K (D ∪ {[j]}))) <? mn)%Z eqn:Emn.
      { split; [|split; [set_solver|exists j; set_solver]]. intros Hs. specialize (Hpos Hs). destruct Hs as [Hmn _].
        apply Z.ltb_lt in Emn. assert (size (down K (D ∪ {[j]})) = 0) as E0 by lia. apply size_empty_inv in E0.
        assert (cut U (ext1 c D j) = ∅) as E1.
        { apply set_eq. intros p. unfold cut. rewrite elem_of_rect_in. unfold in_rect. cbn [fst snd ext1]. set_solver. }
        rewrite E1, size_empty in Hpos. lia. }
      rewrite oprime_el by (done || apply down_sub). cbn [mbind res_bind].
      change (up K (down K (D ∪ {[j]}))) with (ext1 c D j).2 in *. change (down K (D ∪ {[j]})) with (ext1 c D j).1 in *.
      apply IH.
      + apply ext1_sub.
      + assert (D ⊂ (ext1 c D j).2) as Hs by set_solver. apply subset_size in Hs. lia.
      + right. split; [done|]. split; [done|]. split; [done|]. split; [exists j; set_solver|].
        intros Hs E. specialize (Hpos Hs). unfold cut in Hpos. rewrite E, size_empty in Hpos. lia.
    - apply orb_false_iff in EV as [EV Egf]. apply negb_false_iff in Egf. rewrite Egf. apply Nat.ltb_ge in EV.
      destruct Hst as [(HD0 & _ & HV & _)|(Hc & Hr & HV & Hin & Hs)].
      { specialize (Hfirst HD0). lia. }
      case_decide as Hre.
      + split; [done|]. intros Hsim. apply (Hs Hsim). destruct Hc as (HC & HD' & _).
        pose proof (rect_wrem U C D HC HD') as Hsub. rewrite <-Hr, Hre in Hsub. set_solver.
      + split; [done|]. split; [done|]. split; [done|]. split; [done|]. split; [by exists j|done].
  Qed.
  Local Notation n := (size (fI K)).
  Lemma qdiv_le (a b : Z) : (a ≤ b)%Z → (qdiv a (Z.of_nat n) <= qdiv b (Z.of_nat n))%Qc.
  Proof using.
    intros H. unfold Qcle, qdiv. cbn [this Q2Qc]. rewrite !Qred_correct.
    unfold Qdiv. apply Qmult_le_compat_r; [by rewrite <-Zle_Qle|]. apply Qinv_le_0_compat. rewrite <-Zle_Qle with (x := 0%Z). lia.
  Qed.

  Definition yield_ok (bs : list fconcept) (y : fconcept * Qc * Qc) : Prop :=
    let '(f, q1, q2) := y in
    is_concept K f.1 f.2 ∧ gf f.1 f.2 = true ∧
    (qdiv (ncovered K (bs ++ [f])) (Z.of_nat n) <= q2)%Qc ∧
    (allow = true → gain K bs f ≠ ∅) ∧
    (allow = false → ∃ m, m ∈ f.2 ∧ ∀ h, h ∈ bs → m ∉ h.2) ∧
    (allow = true → simple → q1 = qdiv (Z.of_nat (size (gain K bs f))) (Z.of_nat n) ∧
      q2 = qdiv (ncovered K (bs ++ [f])) (Z.of_nat n)).

  Lemma wcond_loop_spec fid : ∀ fuel k fs U removed, size U < fuel → U ⊆ uncovered K fs → uncovered K fs ≠ ∅ →
    (allow = false → ∀ p f, p ∈ U → f ∈ fs → p.2 ∉ f.2) →
    (allow = true → simple → U = uncovered K fs) →
    ∃ ys r, wcond_loop c ord allow mn ge fuel k n fid U removed = (ys, r) ∧
      (r = Ok tt ∨ r = Err (UserException 239) ∧ ¬ simple) ∧
      (∀ i y, ys !! i = Some y → yield_ok (fs ++ map fst (map fst (take i ys))) y) ∧
      uncovered K (fs ++ map fst (map fst ys)) ≠ ∅.
  Proof.
    induction fuel as [|fuel IH]; intros k fs U removed Hf HU Hun Hna Hal; [lia|]. cbn [wcond_loop].
    destruct (qltb _ fid) eqn:Ef.
    2:{ exists [], (Ok tt). cbn [map]. rewrite app_nil_r. split; [done|]. split; [by left|]. done. }
    assert (U ⊆ fI K) as HUI. { intros p Hp. apply HU, elem_of_uncovered in Hp as [? _]. done. }
    set (avail := (set_map snd U : gset name) ∖ removed).
    assert (∀ j, j ∈ avail → ∃ g, (g, j) ∈ U) as HavU.
    { intros j. unfold avail. rewrite elem_of_difference, elem_of_map. intros [([g j'] & -> & Hp) _]. by exists g. }
    assert (avail ⊆ fM K) as Hav. { intros j Hj. destruct (HavU j Hj) as [g Hgj]. by eapply (abs_fwf c), HUI. }
    pose proof (wcond_inner_spec k U avail Hav HavU HUI (S (S (length (atts c)))) 0 ∅ (list_to_set (objs c)) 0 ∅) as Hin.
    specialize (Hin (empty_subseteq _)). specialize (Hin ltac:(pose proof (fsize c Hg); lia)).
    specialize (Hin ltac:(by left)).
    destruct (wcond_inner _ _ _ _ _ _ _ _ _ _ _ _ _ _) as [[|Dj|C D rem]|e]; cbn [inner_ok] in Hin.
    - exists [], (Ok tt). cbn [map]. rewrite app_nil_r. split; [done|]. split; [by left|]. done.
    - destruct Hin as (Hns & HDj & j & Hja & Hj). destruct (HavU j Hja) as [g Hgj].
      apply IH.
      + assert (filter (λ p, p.2 ∉ Dj) U ⊂ U) as Hs.
        { split; [intros p; rewrite elem_of_filter; tauto|]. intros H. apply H in Hgj. apply elem_of_filter in Hgj as [Hx _]. done. }
        apply subset_size in Hs. lia.
      + intros p. rewrite elem_of_filter. intros [_ ?]. auto.
      + done.
      + intros E p f. rewrite elem_of_filter. intros [_ ?]. by apply Hna.
      + intros _ Hs. done.
    - destruct Hin as (Hc & Hgf & Hrem & Hre & (j & Hja & HjD) & (j2 & Hj2a & Hj2D)).
      pose proof (wrem_sub U C D) as Hsub. rewrite <-Hrem in Hsub.
      pose proof Hc as (HC & HD & _). pose proof (rect_wrem U C D HC HD) as Hrw. rewrite <-Hrem in Hrw.
      assert (U ∖ rem ⊆ uncovered K (fs ++ [(C, D)])) as HU'.
      { intros p. rewrite elem_of_difference. intros [Hp Hpr]. pose proof (HU p Hp) as [HpI Hpf]%elem_of_uncovered.
        apply elem_of_uncovered. split; [done|]. intros f. rewrite elem_of_app, elem_of_list_singleton. intros [?| ->]; [auto|].
        intros Hin. apply Hpr, Hrw. apply elem_of_rect_in. done. }
      destruct (HavU j Hja) as [g Hgj].
      destruct (IH (S k) (fs ++ [(C, D)]) (U ∖ rem) removed) as (ys & r & -> & Hr & Hys & Hfin).
      { assert (U ∖ rem ⊂ U) as Hs by (clear -Hsub Hre; set_solver). apply subset_size in Hs. lia. }
      { done. }
      { apply (non_empty_inhabited_L (g, j)). apply elem_of_uncovered. pose proof (HU _ Hgj) as [HpI Hpf]%elem_of_uncovered.
        split; [done|]. intros f. rewrite elem_of_app, elem_of_list_singleton. intros [?| ->]; [auto|]. intros [_ ?]. done. }
      { intros E p f. rewrite elem_of_difference, elem_of_app, elem_of_list_singleton. intros [Hp Hpr] [?| ->]; [by apply Hna|].
        intros HpD. apply Hpr. rewrite Hrem. unfold wrem. rewrite E. apply elem_of_filter. split; [|done]. right.
        split; [|done]. apply in_objs. destruct p as [g' m']. by apply (abs_fwf c g' m'), HUI. }
      { intros E Hs. rewrite uncovered_snoc, <-rect_in_gain. rewrite <-(Hal E Hs). rewrite Hrem. unfold wrem. by rewrite E. }
      exists ((C, D, qdiv (Z.of_nat (size rem)) (Z.of_nat n), qdiv (Z.of_nat n - Z.of_nat (size (U ∖ rem))) (Z.of_nat n)) :: ys), r.
      split; [done|]. split; [done|]. split.
      + intros [|i] y Hy.
        * cbn [lookup list_lookup] in Hy. apply (inj Some) in Hy. subst y. cbn [take map]. rewrite app_nil_r. cbn [yield_ok fst snd].
          split; [done|]. split; [done|]. split; [|split; [|split]].
          -- apply qdiv_le. unfold ncovered. apply subseteq_size in HU'. lia.
          -- intros E. assert (rem = rect_in C D U) as Hr' by (rewrite Hrem; unfold wrem; by rewrite E).
             apply set_choose_L in Hre as [p Hp]. apply (non_empty_inhabited_L p). apply elem_of_filter. rewrite Hr' in Hp.
             apply elem_of_rect_in in Hp as [? ?]. split; [done|]. auto.
          -- intros E. exists j2. split; [done|]. intros h Hh. destruct (HavU j2 Hj2a) as [g2 Hg2].
             by apply (Hna E (g2, j2) h).
          -- intros E Hs. assert (rem = gain K fs (C, D)) as Hr'.
             { rewrite Hrem. unfold wrem. rewrite E, (Hal E Hs). apply (rect_in_gain K fs (C, D)). }
             split; [by rewrite Hr'|]. f_equal. unfold ncovered. rewrite uncovered_snoc, <-Hr', <-(Hal E Hs). done.
        * specialize (Hys i y Hy). cbn [take map fst]. by rewrite <-app_assoc in Hys.
      + cbn [map fst]. by rewrite <-app_assoc in Hfin.
    - destruct Hin as [-> Hs]. exists [], (Err (UserException 239)). cbn [map]. rewrite app_nil_r.
      split; [done|]. split; [by right|]. done.
  Qed.
End cond.

Lemma wcond_spec c ord allow mn ge fid : good c → (∀ k i X, ord k i X ≡ₚ elements X) → fI (abs c) ≠ ∅ →
  ∃ ys r, algorithm2_w_condition c ord allow mn ge fid = (ys, r) ∧
    (r = Ok tt ∨ r = Err (UserException 239) ∧ ¬ (mn ≤ 1 ∧ ge = false)%Z) ∧
    (∀ i y, ys !! i = Some y → yield_ok c allow mn ge (map fst (map fst (take i ys))) y) ∧
    uncovered (abs c) (map fst (map fst ys)) ≠ ∅.
Proof.
  intros Hg Hord HI. unfold algorithm2_w_condition. destruct (fI_pairs c Hg) as (l & -> & ->).
  assert (size (fI (abs c)) ≠ 0) as Hn by (intros E; apply size_empty_inv in E; set_solver).
  rewrite decide_False by done.
  destruct (wcond_loop_spec c Hg ord Hord (fI_np c HI) allow mn ge fid (S (size (fI (abs c)))) 0 [] (fI (abs c)) ∅) as (ys & r & E & H1 & H2 & H3).
  - lia.
  - by rewrite uncovered_nil.
  - by rewrite uncovered_nil.
  - set_solver.
  - by rewrite uncovered_nil.
  - exists ys, r. done.
Qed.
Lemma wcond_empty c ord allow mn ge fid : good c → fI (abs c) = ∅ → algorithm2_w_condition c ord allow mn ge fid = ([], Ok tt).
Proof. intros Hg HI. unfold algorithm2_w_condition. destruct (fI_pairs c Hg) as (l & -> & ->). by rewrite HI. Qed.
