From Coq Require Import QArith Qcanon.
From Verif Require Import Py PyFacts Spec SpecFacts ContextModel ContextSpec ContextFacts ContextMisc LatticeModel FilterModel FactorSpec FactorModel.

(** ** Rationals *)
Lemma qdiv_plus (a b n : Z) : (qdiv a n + qdiv b n = qdiv (a + b) n)%Qc.
Proof.
  unfold qdiv. apply Qc_is_canon. unfold Qcplus. cbn [this Q2Qc]. rewrite !Qred_correct.
  unfold Qdiv. rewrite inject_Z_plus. ring.
Qed.
Lemma qdiv_self (n : Z) : n ≠ 0%Z → qdiv n n = Q2Qc 1.
Proof.
  intros Hn. unfold qdiv. apply Qc_is_canon. cbn [this Q2Qc]. rewrite !Qred_correct. field.
  intros H. apply Hn. unfold Qeq in H. simpl in H. lia.
Qed.
Lemma qdiv_zero (n : Z) : qdiv 0 n = Q2Qc 0.
Proof. unfold qdiv. apply Qc_is_canon. cbn [this Q2Qc]. rewrite !Qred_correct. unfold Qdiv. ring. Qed.
Lemma qltb_spec a b : qltb a b = true ↔ (a < b)%Qc.
Proof.
  unfold qltb. destruct (Qclt_le_dec a b) as [H|H]; split; intros H'; try done.
  exfalso. by apply (Qcle_not_lt _ _ H).
Qed.
Lemma qltb_false a b : qltb a b = false ↔ (b <= a)%Qc.
Proof.
  unfold qltb. destruct (Qclt_le_dec a b) as [H|H]; split; intros H'; try done.
  exfalso. by apply (Qclt_not_le _ _ H).
Qed.

(** ** First maximum *)
Lemma py_max_spec {A} (ltb : A → A → bool) (key : A → nat) m l :
  (∀ x y, ltb x y = (key x <? key y)%nat) →
  py_max ltb m l ∈ m :: l ∧ ∀ x, x ∈ m :: l → key x ≤ key (py_max ltb m l).
Proof.
  intros H. unfold py_max. revert m. induction l as [|y l IH]; intros m; simpl.
  - split; [set_solver|]. intros x Hx. apply elem_of_list_singleton in Hx. by subst.
  - rewrite (H m y). destruct (key m <? key y)%nat eqn:E.
    + apply Nat.ltb_lt in E. destruct (IH y) as [Hi Hm]. split; [set_solver|].
      intros x Hx. apply elem_of_cons in Hx as [->|Hx]; [|by apply Hm].
      specialize (Hm y ltac:(set_solver)). lia.
    + apply Nat.ltb_ge in E. destruct (IH m) as [Hi Hm]. split; [set_solver|].
      intros x Hx. apply elem_of_cons in Hx as [->|Hx]; [apply Hm; set_solver|].
      apply elem_of_cons in Hx as [->|Hx]; [|apply Hm; set_solver].
      specialize (Hm m ltac:(set_solver)). lia.
Qed.

(** ** Coverage *)
Lemma elem_of_rect_in C D U p : p ∈ rect_in C D U ↔ p ∈ U ∧ in_rect (C, D) p.
Proof. unfold rect_in, in_rect. rewrite elem_of_filter. simpl. tauto. Qed.
Lemma rect_in_gain K fs f : rect_in f.1 f.2 (uncovered K fs) = gain K fs f.
Proof. apply set_eq. intros p. unfold gain. rewrite elem_of_rect_in, elem_of_filter. destruct f. simpl. tauto. Qed.
Lemma elem_of_uncovered K fs p : p ∈ uncovered K fs ↔ p ∈ fI K ∧ ∀ f, f ∈ fs → ¬ in_rect f p.
Proof. unfold uncovered. rewrite elem_of_filter, Forall_forall. tauto. Qed.
Lemma uncovered_nil K : uncovered K [] = fI K.
Proof. apply set_eq. intros p. rewrite elem_of_uncovered. set_solver. Qed.
Lemma uncovered_snoc K fs f : uncovered K (fs ++ [f]) = uncovered K fs ∖ gain K fs f.
Proof.
  apply set_eq. intros p. unfold gain. rewrite elem_of_difference, elem_of_filter, !elem_of_uncovered.
  setoid_rewrite elem_of_app. setoid_rewrite elem_of_list_singleton. split.
  - intros [H1 H2]. split; [split; [done|]; naive_solver|]. intros [H3 _]. by apply (H2 f); [right|].
  - intros [[H1 H2] H3]. split; [done|]. intros h [Hh| ->]; [by apply H2|]. intros Hp. apply H3. done.
Qed.
Lemma gain_sub K fs f : gain K fs f ⊆ uncovered K fs.
Proof. unfold gain. intros p. rewrite elem_of_filter. tauto. Qed.
Lemma uncovered_size K fs f : size (uncovered K (fs ++ [f])) + size (gain K fs f) = size (uncovered K fs).
Proof.
  rewrite uncovered_snoc, size_difference by apply gain_sub.
  pose proof (subseteq_size _ _ (gain_sub K fs f)). lia.
Qed.

Section loop.
  Context (c : context) (Hg : good c).
  Local Notation K := (abs c).
  Context (ord : nat → nat → gset name → list name).
  Hypothesis Hord : ∀ k i X, ord k i X ≡ₚ elements X.

  Lemma in_objs g : g ∈ fG K ↔ g ∈ objs c.
  Proof. change (fG K) with (list_to_set (C := gset name) (objs c)). apply elem_of_list_to_set. Qed.
  Lemma in_atts g : g ∈ fM K ↔ g ∈ atts c.
  Proof. change (fM K) with (list_to_set (C := gset name) (atts c)). apply elem_of_list_to_set. Qed.
  Lemma aprime_el B : B ⊆ fM K → aprime c (elements B) = Ok (down K B).
  Proof.
    intros H. destruct Hg as [Hw Hd Hs]. rewrite aprime_spec; [|done..|].
    - f_equal. f_equal. apply list_to_set_elements_L.
    - intros x Hx. apply in_atts, H. by apply elem_of_elements.
  Qed.
  Lemma oprime_el A : A ⊆ fG K → oprime c (elements A) = Ok (up K A).
  Proof.
    intros H. destruct Hg as [Hw Hd Hs]. rewrite oprime_spec; [|done..|].
    - f_equal. f_equal. apply list_to_set_elements_L.
    - intros x Hx. apply in_objs, H. by apply elem_of_elements.
  Qed.
  Hypothesis Hne : np c ≠ [].

  (** The concept generated by adding an attribute, and what it removes from [U]. *)
  Definition ext1 (D : gset name) (j : name) : fconcept := (down K (D ∪ {[j]}), acl K (D ∪ {[j]})).
  Definition cut (U : gset (name * name)) (f : fconcept) : gset (name * name) := rect_in f.1 f.2 U.

  Lemma oplus_spec D j U : D ⊆ fM K → j ∈ fM K → oplus c (down K D) j U = Ok (cut U (ext1 D j)).
  Proof.
    intros HD Hj. destruct Hg as [Hw Hd Hs]. unfold oplus.
    rewrite get_attribute_extent_spec; [|done..|by apply in_atts]. cbn [mbind res_bind].
    rewrite <-down_union. rewrite oprime_el by apply down_sub. done.
  Qed.
  Lemma measures_spec D U l : D ⊆ fM K → (∀ j, j ∈ l → j ∈ fM K) →
    mapM (fun j => r ← oplus c (down K D) j U; Ok (size r, j)) l = Ok (map (fun j => (size (cut U (ext1 D j)), j)) l).
  Proof.
    intros HD Hl. apply mapM_Ok_map. intros j Hj. rewrite oplus_spec by auto. done.
  Qed.
  Lemma best_spec D U m ms l : map (fun j => (size (cut U (ext1 D j)), j)) l = m :: ms →
    ∃ j, py_max measure_ltb m ms = (size (cut U (ext1 D j)), j) ∧ j ∈ l ∧
      ∀ i, i ∈ l → size (cut U (ext1 D i)) ≤ size (cut U (ext1 D j)).
  Proof.
    intros E. destruct (py_max_spec measure_ltb fst m ms) as [H1 H2]; [done|].
    rewrite <-E in H1, H2. apply elem_of_list_fmap in H1 as (j & Hj & Hjl). exists j.
    split; [done|]. split; [done|]. intros i Hi. rewrite Hj in H2.
    pose proof (H2 (size (cut U (ext1 D i)), i)) as H3. cbn [fst] in H3. apply H3. apply elem_of_list_fmap. eauto.
  Qed.
  Lemma ext1_concept D j : D ⊆ fM K → j ∈ fM K → is_concept K (ext1 D j).1 (ext1 D j).2.
  Proof using. clear -c. intros. apply concept_of_attributes. set_solver. Qed.
  Lemma ext1_grows D j : D ⊆ fM K → j ∈ fM K → D ∪ {[j]} ⊆ (ext1 D j).2.
  Proof using. clear -c. intros. apply acl_ext. set_solver. Qed.
  Lemma ext1_sub D j : (ext1 D j).2 ⊆ fM K.
  Proof. apply up_sub. Qed.

  (** State of the inner loop of algorithm2: nothing chosen yet, or a concept with a new cross. *)
  Lemma alg2_inner_spec k U : ∀ fuel i D V C rem,
    D ⊆ fM K → size (fM K) < fuel + size D →
    (D = ∅ ∧ V = 0 ∧ rem = ∅ ∨ is_concept K C D ∧ rem = rect_in C D U ∧ V = size rem ∧ rem ≠ ∅) →
    ∃ rem' C' D', alg2_inner c ord fuel k i U D V C rem = Ok (rem', C', D') ∧
      (∀ j, j ∈ fM K → j ∉ D' → size (cut U (ext1 D' j)) ≤ size rem') ∧
      (rem' = ∅ ∧ D' = ∅ ∨ is_concept K C' D' ∧ rem' = rect_in C' D' U ∧ rem' ≠ ∅).
  Proof.
    induction fuel as [|fuel IH]; intros i D V C rem HD Hf Hst.
    { apply subseteq_size in HD. lia. }
    cbn [alg2_inner]. rewrite aprime_el by done. cbn [mbind res_bind].
    set (l := ord k i _). assert (∀ j, j ∈ l ↔ j ∈ fM K ∧ j ∉ D) as Hl.
    { intros j. unfold l. rewrite Hord, elem_of_elements, elem_of_difference. done. }
    rewrite measures_spec; [|done|intros j Hj; by apply Hl]. cbn [mbind res_bind].
    assert (∀ v : nat, (∀ j, j ∈ l → size (cut U (ext1 D j)) ≤ v) → v = V →
      ∃ rem' C' D', Ok (rem, C, D) = Ok (rem', C', D') ∧
      (∀ j, j ∈ fM K → j ∉ D' → size (cut U (ext1 D' j)) ≤ size rem') ∧
      (rem' = ∅ ∧ D' = ∅ ∨ is_concept K C' D' ∧ rem' = rect_in C' D' U ∧ rem' ≠ ∅)) as Hstop.
    { intros v Hv ->. exists rem, C, D. split; [done|]. split.
      - intros j Hj Hj'. assert (V = size rem) as <-.
        { destruct Hst as [(-> & -> & ->)|(_ & _ & -> & _)]; [by rewrite size_empty|done]. }
        apply Hv, Hl. done.
      - destruct Hst as [(-> & -> & ->)|(? & ? & ? & ?)]; [by left|right; done]. }
    destruct (map _ l) as [|m ms] eqn:Em.
    { apply (Hstop V); [|done]. intros j Hj. destruct l; [set_solver|done]. }
    destruct (best_spec D U m ms l Em) as (j & -> & Hj & Hbest).
    destruct (V <? size (cut U (ext1 D j)))%nat eqn:EV.
    - apply Nat.ltb_lt in EV. apply Hl in Hj as [Hj HjD].
      rewrite aprime_el by set_solver. cbn [mbind res_bind].
      rewrite oprime_el by apply down_sub. cbn [mbind res_bind].
      pose proof (ext1_grows D j HD Hj) as Hgr. pose proof (ext1_concept D j HD Hj) as Hc.
      change (up K (down K (D ∪ {[j]}))) with (ext1 D j).2 in *. change (down K (D ∪ {[j]})) with (ext1 D j).1 in *.
      apply IH.
      + apply ext1_sub.
      + assert (D ⊂ (ext1 D j).2) as Hs by set_solver. apply subset_size in Hs. lia.
      + right. split; [done|]. split; [done|]. split; [done|].
        change (rect_in (ext1 D j).1 (ext1 D j).2 U) with (cut U (ext1 D j)). intros E.
        rewrite E, size_empty in EV. lia.
    - apply Nat.ltb_ge in EV. apply (Hstop V); [|done]. intros j' Hj'. etransitivity; [by apply Hbest|done].
  Qed.

  Lemma fsize : size (fM K) ≤ length (atts c).
  Proof. change (fM K) with (list_to_set (C := gset name) (atts c)). rewrite size_list_to_set; [done|]. apply Hg. Qed.
  Lemma alg2_pass k U : U ⊆ fI K → U ≠ ∅ →
    ∃ rem C D, alg2_inner c ord (S (length (atts c))) k 0 U ∅ 0 ∅ ∅ = Ok (rem, C, D) ∧
      is_concept K C D ∧ rem = rect_in C D U ∧ rem ≠ ∅ ∧
      ∀ j, j ∈ fM K → j ∉ D → size (cut U (ext1 D j)) ≤ size rem.
  Proof.
    intros HU HUe. destruct (alg2_inner_spec k U (S (length (atts c))) 0 ∅ 0 ∅ ∅) as (rem & C & D & -> & Hmax & Hst).
    - set_solver.
    - pose proof fsize. lia.
    - by left.
    - exists rem, C, D. split; [done|]. destruct Hst as [[-> ->]|(? & ? & ?)]; [|done]. exfalso.
      apply set_choose_L in HUe as [[g m] Hp]. pose proof (HU _ Hp) as HI.
      destruct (abs_fwf c g m HI) as [HgG HmM].
      specialize (Hmax m HmM ltac:(set_solver)). rewrite size_empty in Hmax.
      assert ((g, m) ∈ cut U (ext1 ∅ m)) as Hin.
      { apply elem_of_rect_in. split; [done|]. unfold in_rect. cbn [fst snd].
        assert (g ∈ down K (∅ ∪ {[m]})). { apply elem_of_down. split; [done|]. set_solver. }
        split; [done|]. apply elem_of_up. split; [done|]. intros g' Hg'.
        apply elem_of_down in Hg' as [_ Hg']. apply Hg'. set_solver. }
      assert (cut U (ext1 ∅ m) = ∅) as E. { apply size_empty_inv in Hmax || apply leibniz_equiv, size_empty_inv; lia. }
      set_solver.
  Qed.
  Local Notation n := (size (fI K)).
  Lemma ncov_snoc fs f : ncovered K (fs ++ [f]) = (ncovered K fs + Z.of_nat (size (gain K fs f)))%Z.
  Proof. unfold ncovered. pose proof (uncovered_size K fs f). lia. Qed.

  (** [fs] are the factors already yielded. *)
  Lemma alg2_loop_spec fid : n ≠ 0 → ∀ fuel k fs, size (uncovered K fs) < fuel →
    ∃ ys r, alg2_loop c ord fuel k n fid (uncovered K fs) = (ys, r) ∧
      (∀ i y, ys !! i = Some y → let bs := fs ++ map fst (take i ys) in
        is_concept K y.1.1 y.1.2 ∧ gain K bs y.1 ≠ ∅ ∧ y.2 = qdiv (Z.of_nat (size (gain K bs y.1))) (Z.of_nat n) ∧
        (∀ m, m ∈ fM K → m ∉ y.1.2 → size (gain K bs (ext1 y.1.2 m)) ≤ size (gain K bs y.1)) ∧
        (qdiv (ncovered K bs) (Z.of_nat n) < fid)%Qc) ∧
      foldr Qcplus (Q2Qc 0) (map snd ys) = qdiv (ncovered K (fs ++ map fst ys) - ncovered K fs) (Z.of_nat n) ∧
      ((fid <= Q2Qc 1)%Qc → r = Ok tt ∧ (fid <= qdiv (ncovered K (fs ++ map fst ys)) (Z.of_nat n))%Qc) ∧
      ((Q2Qc 1 < fid)%Qc → r = Err AssertionError ∧ uncovered K (fs ++ map fst ys) = ∅).
  Proof.
    intros Hn. induction fuel as [|fuel IH]; intros k fs Hf; [lia|]. cbn [alg2_loop].
    rewrite decide_False by done. fold (ncovered K fs).
    destruct (qltb (qdiv (ncovered K fs) (Z.of_nat n)) fid) eqn:Ef.
    2:{ apply qltb_false in Ef. exists [], (Ok tt). split; [done|]. split; [done|]. cbn [map foldr]. rewrite app_nil_r.
        split; [by rewrite Z.sub_diag, qdiv_zero|]. split; [done|]. intros H. exfalso.
        pose proof (Qclt_le_trans _ _ _ H Ef) as H'. apply (Qclt_not_le _ _ H').
        rewrite <-(qdiv_self (Z.of_nat n)) by lia. unfold Qcle, qdiv. cbn [this Q2Qc]. rewrite !Qred_correct.
        unfold Qdiv. apply Qmult_le_compat_r; [|apply Qinv_le_0_compat; rewrite <-Zle_Qle with (x := 0%Z); lia].
        rewrite <-Zle_Qle. unfold ncovered. lia. }
    apply qltb_spec in Ef.
    destruct (decide (uncovered K fs = ∅)) as [HU|HU].
    { (* nothing left *)
      destruct (alg2_inner_spec k (uncovered K fs) (S (length (atts c))) 0 ∅ 0 ∅ ∅) as (rem & C & D & -> & _ & Hst).
      { set_solver. } { pose proof fsize. lia. } { by left. }
      assert (rem = ∅) as ->. { destruct Hst as [[-> _]|(_ & -> & H)]; [done|]. exfalso. apply H. rewrite HU. apply set_eq.
        intros p. rewrite elem_of_rect_in. set_solver. }
      rewrite decide_True by done. exists [], (Err AssertionError). split; [done|]. split; [done|]. cbn [map foldr].
      rewrite app_nil_r. split; [by rewrite Z.sub_diag, qdiv_zero|]. split; [|done].
      intros H. exfalso. apply (Qclt_not_le _ _ Ef). unfold ncovered. rewrite HU, size_empty, Z.sub_0_r.
      rewrite qdiv_self by lia. done. }
    destruct (alg2_pass k (uncovered K fs)) as (rem & C & D & -> & Hc & Hrem & Hne' & Hmax).
    { intros p. rewrite elem_of_uncovered. tauto. } { done. }
    rewrite decide_False by done.
    assert (rem = gain K fs (C, D)) as Hr by (rewrite Hrem; apply (rect_in_gain K fs (C, D))).
    rewrite Hr, <-uncovered_snoc.
    destruct (IH (S k) (fs ++ [(C, D)])) as (ys & r & -> & Hys & Hsum & Hle & Hgt).
    { pose proof (uncovered_size K fs (C, D)). rewrite <-Hr in H.
      assert (size rem ≠ 0) by (intros E; apply size_empty_inv in E; set_solver). lia. }
    exists ((C, D, qdiv (Z.of_nat (size (gain K fs (C, D)))) (Z.of_nat n)) :: ys), r.
    split; [done|]. split; [|split; [|split]].
    - intros [|i] y Hy.
      + injection Hy as <-. cbn [take map fst snd]. cbv zeta. rewrite app_nil_r.
        split; [done|]. split; [by rewrite <-Hr|]. split; [done|]. split; [|done].
        intros m Hm HmD. rewrite <-Hr. rewrite <-rect_in_gain. by apply Hmax.
      + specialize (Hys i y Hy). cbv zeta in *. cbn [take map fst]. by rewrite <-app_assoc in Hys.
    - cbn [map foldr snd fst]. rewrite Hsum, qdiv_plus. rewrite <-app_assoc, ncov_snoc. cbn [app]. f_equal. lia.
    - cbn [map fst]. by rewrite <-app_assoc in Hle.
    - cbn [map fst]. by rewrite <-app_assoc in Hgt.
  Qed.
End loop.

Lemma fI_pairs c : good c → ∃ l, get_object_attribute_pairs c = Ok l ∧ (list_to_set l : gset (name * name)) = fI (abs c).
Proof.
  intros [Hw Hd _]. destruct (pairs_spec c Hw Hd) as (l & -> & _ & Hl). exists l. split; [done|].
  apply set_eq. intros [g m]. rewrite elem_of_list_to_set, Hl, <-elem_of_fI. done.
Qed.
Lemma fI_np c : fI (abs c) ≠ ∅ → np c ≠ [].
Proof.
  intros H E. apply set_choose_L in H as [[g m] Hp]. apply elem_of_fI in Hp as (i & j & r & _ & _ & Hr & _).
  by rewrite E in Hr.
Qed.

Lemma algorithm2_spec c ord fid : good c → (∀ k i X, ord k i X ≡ₚ elements X) → fI (abs c) ≠ ∅ →
  ∃ ys r, algorithm2 c ord fid = (ys, r) ∧
    (∀ i y, ys !! i = Some y → let bs := map fst (take i ys) in
      is_concept (abs c) y.1.1 y.1.2 ∧ gain (abs c) bs y.1 ≠ ∅ ∧
      y.2 = qdiv (Z.of_nat (size (gain (abs c) bs y.1))) (Z.of_nat (size (fI (abs c)))) ∧
      (∀ m, m ∈ fM (abs c) → m ∉ y.1.2 → size (gain (abs c) bs (ext1 c y.1.2 m)) ≤ size (gain (abs c) bs y.1)) ∧
      (qdiv (ncovered (abs c) bs) (Z.of_nat (size (fI (abs c)))) < fid)%Qc) ∧
    foldr Qcplus (Q2Qc 0) (map snd ys) = qdiv (ncovered (abs c) (map fst ys)) (Z.of_nat (size (fI (abs c)))) ∧
    ((fid <= Q2Qc 1)%Qc → r = Ok tt ∧ (fid <= qdiv (ncovered (abs c) (map fst ys)) (Z.of_nat (size (fI (abs c)))))%Qc) ∧
    ((Q2Qc 1 < fid)%Qc → r = Err AssertionError ∧ uncovered (abs c) (map fst ys) = ∅).
Proof.
  intros Hg Hord HI. unfold algorithm2. destruct (fI_pairs c Hg) as (l & -> & ->).
  assert (size (fI (abs c)) ≠ 0) as Hn by (intros E; apply size_empty_inv in E; set_solver).
  destruct (alg2_loop_spec c Hg ord Hord (fI_np c HI) fid Hn (S (size (fI (abs c)))) 0 []) as (ys & r & E & H1 & H2 & H3 & H4).
  { rewrite uncovered_nil. lia. }
  rewrite uncovered_nil in E. exists ys, r. split; [done|]. split; [done|]. split; [|done].
  rewrite H2. f_equal. cbn [app]. unfold ncovered at 2. rewrite uncovered_nil. lia.
Qed.
Lemma algorithm2_empty c ord fid : good c → fI (abs c) = ∅ → algorithm2 c ord fid = ([], Err ZeroDivisionError).
Proof. intros Hg HI. unfold algorithm2. destruct (fI_pairs c Hg) as (l & -> & ->). by rewrite HI. Qed.
