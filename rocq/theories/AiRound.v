(** * The attribute-incremental algorithm: one round *)
From Verif Require Import Py PyFacts Spec SpecFacts DgSpec ContextModel ContextSpec ContextOps ContextFacts ContextInit ContextFinal
  ClosureModel ClosureFacts NorrisFacts DgCxt AiModel AiFacts.

(** No set properly includes a later one. *)
Definition stopo (l : list (gset name)) : Prop :=
  ∀ a b X Y, l !! a = Some X → l !! b = Some Y → a < b → ¬ Y ⊂ X.
Lemma stopo_topo l : stopo l → NoDup l → topo l.
Proof.
  intros H Hn a b X Y Ha Hb Hab Hs. apply (H a b X Y Ha Hb Hab). split; [done|]. intros Hs'.
  assert (X = Y) as -> by by apply (anti_symm (⊆)). assert (a = b) by by eapply NoDup_lookup. lia.
Qed.

Lemma sub_trans (X Y Z : gset name) : X ⊆ Y → Y ⊆ Z → X ⊆ Z.
Proof. apply PreOrder_Transitive. Qed.
Record Inv (K : fctx) (M : gset name) (ps : list pre) : Prop := {
  i_conc : ∀ A B, PConcept A B ∈ ps ↔ B ⊆ M ∧ kcl K M B = B ∧ A = down K B;
  i_imp : ∀ A i, PImp A i ∈ ps → exact K M i ∧ A = down K i.1;
  i_complete : ∀ X, X ⊆ M → model_of (pimps ps) X → kcl K M X = X;
  i_nodup : NoDup (map fst (pimps ps)) }.
(** No premise misses the conclusion of a smaller one. *)
Definition quasi (L : list fimp) : Prop := ∀ i j, i ∈ L → j ∈ L → j.1 ⊂ i.1 → j.2 ⊆ i.1.
Definition Can (ps : list pre) : Prop := topo (map pset ps) ∧ quasi (pimps ps).

Lemma sublist_nodup (l k : list fimp) : l `sublist_of` k → NoDup (map fst k) → NoDup (map fst l).
Proof.
  induction 1 as [|x l k H IH|x l k H IH]; [done|..]; cbn [map]; rewrite ?NoDup_cons; [|intros [? ?]; by apply IH].
  intros [Hx Hk]. split; [|by apply IH]. intros Hl. apply Hx. apply elem_of_list_fmap in Hl as (y & -> & Hy).
  apply elem_of_list_fmap. exists y. split; [done|]. clear -H Hy. induction H; [done|..];
    rewrite ?elem_of_cons in *; naive_solver.
Qed.
Lemma pimps_perm l k : l ≡ₚ k → pimps l ≡ₚ pimps k.
Proof. intros H. unfold pimps. by rewrite H. Qed.
Lemma pimps_map (l : list (gset name * fimp)) : pimps (map (λ p, PImp p.1 p.2) l) = map snd l.
Proof. induction l as [|[A i] l IH]; [done|]. cbn. by f_equal. Qed.
Lemma pimps_none l : (∀ A i, PImp A i ∉ l) → pimps l = [].
Proof.
  intros H. destruct (pimps l) as [|i k] eqn:E; [done|]. assert (i ∈ pimps l) as Hi by (rewrite E; left).
  apply elem_of_pimps in Hi as (A & Hi). by destruct (H A i).
Qed.
Lemma model_perm (L L' : list fimp) X : L ≡ₚ L' → model_of L X ↔ model_of L' X.
Proof. intros H. unfold model_of. by setoid_rewrite H. Qed.

Section round.
  Context (K : fctx) (M : gset name) (m : name) (Hm : m ∉ M) (HM : M ∪ {[m]} ⊆ fM K).
  Notation dn := (down K).
  Let M' := M ∪ {[m]}.
  Let E := dn {[m]}.
  Context (clo : gset name → res (gset name)) (Hclo : ∀ X, X ⊆ M' → clo X = Ok (kcl K M' X)).
  Context (Hhash : ∀ i : fimp, i.1 ⊆ M' → i.2 ⊆ M' → hashable i = true).
  Context (ps : list pre) (HI : Inv K M ps).
  Let HM0' : M ⊆ fM K := HM0 K M m HM.

  Lemma ps_ok p : p ∈ ps → okp K M p.
  Proof. destruct p as [A B|A i]; cbn; intros H; [by apply HI|by apply (i_imp _ _ _ HI)]. Qed.
  Lemma round_J : ∃ st, update_loop m E clo ps (UState [] [] [] [] [] []) = Ok st ∧ J K M m ps st.
  Proof. apply (update_loop_ok K M m Hm HM clo Hclo ps [] _); [exact ps_ok|eapply J_nil; eassumption]. Qed.

  Context (st : ustate) (HJ : J K M m ps st).
  Let fixed := old_stable st ++ new_stable st ++ min_mod st.
  Lemma m_in (X : gset name) : m ∈ X ∪ {[m]}.
  Proof. apply elem_of_union_r. by apply elem_of_singleton. Qed.
  Lemma old_props i : i ∈ old_stable st → exact K M i ∧ ¬ dn i.1 ⊆ E ∧ m ∉ i.1 ∧ i ∈ pimps ps.
  Proof.
    intros Hi. apply (j_old _ _ _ _ _ HJ) in Hi as (A & Hi & HA). destruct (i_imp _ _ _ HI _ _ Hi) as [He ->].
    split; [done|]. split; [done|]. split; [|apply elem_of_pimps; by eexists]. destruct He as [He _]. by intros ?%He.
  Qed.
  Lemma new_props i : i ∈ new_stable st → ∃ B, B ⊆ M ∧ kcl K M B = B ∧ ¬ dn B ⊆ E ∧ i.1 = B ∪ {[m]} ∧ exact K M' i.
  Proof.
    intros Hi. destruct (j_new _ _ _ _ _ HJ i Hi) as (A & B & HAB & HA & -> & Hne). apply HI in HAB as (H1 & H2 & ->).
    exists B. split; [done|]. split; [done|]. split; [done|]. split; [done|]. split; [|done]. cbn. unfold M'. by apply union_mono_r.
  Qed.
  Lemma min_props i : i ∈ min_mod st → i.1 ⊆ M ∧ dn i.1 ⊆ E ∧ m ∈ i.2 ∧ exact K M' i ∧
    (∀ j, j ∈ pimps ps → quasi (pimps ps) → j.1 ⊂ i.1 → j.2 ⊆ i.1).
  Proof.
    intros Hi. destruct (j_min _ _ _ _ _ HJ i Hi) as (A & HA & [(B & HAB & ->)|(j & Hj & ->)]); cbn [fst snd].
    - apply HI in HAB as (H1 & H2 & ->). split; [done|]. split; [done|]. split; [apply m_in|]. split.
      + split; [|split]; cbn.
        * unfold M'. etrans; [exact H1|]. apply union_subseteq_l.
        * rewrite (kcl_mod K M m HM) by done. by rewrite H2.
        * intros Hb. destruct Hm. apply H1. rewrite Hb. apply m_in.
      + intros j Hj _ Hs. apply elem_of_pimps in Hj as (A & Hj). apply (i_imp _ _ _ HI) in Hj as [He _].
        destruct He as (He1 & He2 & _). apply (closed_respects K M B j H1 H2 He1 He2). apply Hs.
    - destruct (i_imp _ _ _ HI _ _ Hj) as [(He1 & He2 & He3) ->]. split; [done|]. split; [done|]. split; [apply m_in|]. split.
      + split; [|split]; cbn.
        * unfold M'. etrans; [exact He1|]. apply union_subseteq_l.
        * rewrite (kcl_mod K M m HM) by done. by rewrite He2.
        * intros Hb. destruct Hm. apply He1. rewrite Hb. apply m_in.
      + intros k Hk Hq Hs. apply (Hq j k); [|done|done]. apply elem_of_pimps. by eexists.
  Qed.
  Lemma old_exact i : i ∈ old_stable st → exact K M' i.
  Proof.
    intros Hi. destruct (old_props i Hi) as ((H1 & H2 & H3) & H4 & _). split; [|split]; [|by rewrite (kcl_old K M m HM)|done].
    unfold M'. etrans; [exact H1|]. apply union_subseteq_l.
  Qed.
  Lemma fixed_exact i : i ∈ fixed → exact K M' i.
  Proof.
    unfold fixed. rewrite !elem_of_app. intros [Hi|[Hi|Hi]].
    - by apply old_exact.
    - destruct (new_props i Hi) as (B & _ & _ & _ & _ & H). done.
    - by apply min_props.
  Qed.
  Lemma nodup_lookup (L : list fimp) : (∀ a b i j, L !! a = Some i → L !! b = Some j → a < b → i.1 ≠ j.1) → NoDup (map fst L).
  Proof.
    intros H. apply NoDup_alt. intros a b X Ha Hb.
    rewrite list_lookup_fmap in Ha. rewrite list_lookup_fmap in Hb. apply fmap_Some in Ha as (i & Ha & ->), Hb as (j & Hb & Hij).
    destruct (Nat.lt_trichotomy a b) as [Hl|[Hl|Hl]]; [|done|].
    - by destruct (H a b i j Ha Hb Hl).
    - by destruct (H b a j i Hb Ha Hl).
  Qed.
  Lemma fixed_nodup : NoDup (map fst fixed).
  Proof.
    unfold fixed. rewrite !map_app. apply NoDup_app. split; [|split; [|apply NoDup_app; split; [|split]]].
    - eapply sublist_nodup; [apply (j_old_sub _ _ _ _ _ HJ)|]. apply (i_nodup _ _ _ HI).
    - intros X HX HX'. apply elem_of_list_fmap in HX as (i & -> & Hi). destruct (old_props i Hi) as (_ & HE & Hmi & _).
      apply elem_of_app in HX' as [HX'|HX']; apply elem_of_list_fmap in HX' as (j & Hij & Hj).
      + destruct (new_props j Hj) as (B & _ & _ & _ & HB & _). apply Hmi. rewrite Hij, HB. apply m_in.
      + apply HE. rewrite Hij. by apply min_props.
    - apply nodup_lookup. intros a b i j Ha Hb Hab Hij. pose proof (j_new_pair _ _ _ _ _ HJ a b i j Ha Hb Hab) as Hr.
      apply elem_of_list_lookup_2 in Ha. destruct (new_props i Ha) as (B & _ & _ & _ & _ & (H1 & H2 & H3)).
      apply H3. apply (anti_symm (⊆)); [rewrite H2; by apply kcl_ext|]. etrans; [apply Hr|]; by rewrite Hij.
    - intros X HX HX'. apply elem_of_list_fmap in HX as (i & -> & Hi), HX' as (j & Hij & Hj).
      destruct (new_props i Hi) as (B & _ & _ & _ & HB & _). destruct (min_props j Hj) as (Hj1 & _). destruct Hm. apply Hj1.
      rewrite <-Hij, HB. apply m_in.
    - apply nodup_lookup. intros a b i j Ha Hb Hab Hij. apply (j_min_pair _ _ _ _ _ HJ a b i j Ha Hb Hab). by rewrite Hij.
  Qed.
  Lemma non_props A i : (A, i) ∈ non_min st → i.1 ⊆ M' ∧ i.2 = kcl K M' i.1 ∧ A = dn i.1 ∧ ∃ P, P ⊆ M ∧ dn P ⊆ E ∧ i.1 = P ∪ {[m]}.
  Proof.
    intros Hi. destruct (j_non _ _ _ _ _ HJ A i Hi) as (j & Hj & HA & ->). destruct (i_imp _ _ _ HI _ _ Hj) as [(H1 & H2 & H3) ->].
    cbn. split; [unfold M'; by apply union_mono_r|]. split; [unfold M'; by rewrite (kcl_mod_m K M m HM), H2|].
    split; [|by exists j.1]. rewrite dn_add. symmetry. by apply subseteq_intersection_1_L.
  Qed.

  Context (srt : list pre → list pre) (Hsrt : ∀ l, srt l ≡ₚ l).
  Lemma round_ok : ∃ r, close_loop fixed (reverse (non_min st)) [] (mod_extra st) = Ok r ∧
    r.1 ≡ₚ pimps (new_pre st ++ srt r.2) ∧ Inv K M' (new_pre st ++ srt r.2) ∧
    (Can ps → (∀ l, stopo (map pset (srt l))) → Can (new_pre st ++ srt r.2)).
  Proof.
    destruct (close_loop_ok K M' HM fixed Hhash (reverse (non_min st)) [] (mod_extra st)) as (new & H1 & H2 & H3 & H4 & H5).
    { intros i. rewrite app_nil_r. apply fixed_exact. }
    { intros A i. rewrite elem_of_reverse. intros Hi. by destruct (non_props A i Hi) as (? & ? & _). }
    { rewrite app_nil_r. apply fixed_nodup. }
    cbn [app] in *. eexists. split; [exact H1|]. cbn [fst snd].
    set (ex := mod_extra st ++ map (λ p, PImp p.1 p.2) new).
    assert (pimps (srt ex) ≡ₚ map snd new) as Hex.
    { rewrite (pimps_perm _ _ (Hsrt ex)). unfold ex. rewrite pimps_app, pimps_map. rewrite pimps_none; [done|].
      intros A i Hi. apply (j_extra _ _ _ _ _ HJ) in Hi as (? & ? & _ & _ & ?). done. }
    assert (fixed ++ map snd new ≡ₚ pimps (new_pre st ++ srt ex)) as Hb.
    { rewrite pimps_app, Hex, (j_pre_imp _ _ _ _ _ HJ). done. }
    assert (∀ A i, (A, i) ∈ new → exact K M' i ∧ A = dn i.1 ∧ ∃ P, P ⊆ M ∧ dn P ⊆ E ∧ P ∪ {[m]} ⊆ i.1) as Hnew.
    { intros A i Hi. destruct (H3 A i Hi) as ((e1 & e2 & e3) & j & Hj & Hs & Hc). rewrite elem_of_reverse in Hj.
      destruct (non_props A j Hj) as (Hj1 & Hj2 & -> & P & HP & HPE & HP').
      split; [done|]. split; [|exists P; by rewrite <-HP']. apply (anti_symm (⊆)); [|by apply down_anti].
      rewrite <-(dn_kcl K M' HM j.1) by done. rewrite <-Hj2, <-Hc, e2. apply down_anti. by apply kcl_ext. }
    split; [done|]. split.
    - constructor.
      + intros X Y. rewrite elem_of_app, Hsrt. unfold ex. rewrite elem_of_app, (j_extra _ _ _ _ _ HJ), (j_pre_conc _ _ _ _ _ HJ).
        split.
        * intros [[[HXY HX]|(A & B & HAB & HA & -> & -> & HY)]|[(A & B & HAB & HA & [= -> ->])|HXY]].
          -- apply HI in HXY as (h1 & h2 & ->). split; [unfold M'; etrans; [exact h1|]; apply union_subseteq_l|].
             split; [|done]. unfold M'. by rewrite (kcl_old K M m HM).
          -- apply HI in HAB as (h1 & h2 & ->). split; [unfold M'; by apply union_mono_r|]. split; [done|]. by rewrite dn_add.
          -- apply HI in HAB as (h1 & h2 & ->). split; [unfold M'; by apply union_mono_r|].
             split; [unfold M'; by rewrite (kcl_mod_m K M m HM), h2|]. rewrite dn_add. symmetry. by apply subseteq_intersection_1_L.
          -- apply elem_of_list_fmap in HXY as (? & ? & _). done.
        * intros (h1 & h2 & ->). destruct (decide (m ∈ Y)) as [HmY|HmY].
          -- set (B := Y ∖ {[m]}).
             assert (Y = B ∪ {[m]}) as EY.
             { unfold B. apply set_eq. intros a. rewrite elem_of_union, elem_of_difference, elem_of_singleton.
               destruct (decide (a = m)) as [->|]; tauto. }
             assert (B ⊆ M) as HB.
             { intros a Ha. unfold B in Ha. apply elem_of_difference in Ha as [Ha Ha']. specialize (h1 a Ha). unfold M' in h1.
               apply elem_of_union in h1 as [?|?]; done. }
             assert (kcl K M B = B) as HBc.
             { apply (anti_symm (⊆)); [|by apply kcl_ext]. intros a Ha. pose proof (kcl_sub K M B a Ha) as HaM.
               unfold B. apply elem_of_difference. split; [|intros ->%elem_of_singleton; done]. rewrite <-h2.
               assert (B ⊆ Y) as HBY by (rewrite EY; apply union_subseteq_l). apply (kcl_mono K M' B Y HBY).
               unfold kcl in *. apply elem_of_intersection in Ha as [Ha _]. apply elem_of_intersection. split; [done|].
               unfold M'. by apply elem_of_union_l. }
             destruct (decide (dn B ⊆ E)) as [HE|HE].
             ++ right. left. exists (dn B), B. split; [by apply HI|]. split; [done|]. f_equal; [|done].
                rewrite EY, dn_add. by apply subseteq_intersection_1_L.
             ++ left. right. exists (dn B), B. split; [by apply HI|]. split; [done|]. split; [by rewrite EY at 1; rewrite dn_add|]. done.
          -- left. left. assert (Y ⊆ M) as HY.
             { intros a Ha. specialize (h1 a Ha). unfold M' in h1. apply elem_of_union in h1 as [?|h1]; [done|].
               apply elem_of_singleton in h1 as ->. done. }
             assert (¬ dn Y ⊆ E) as HE.
             { intros HE. apply HmY. rewrite <-h2. unfold M'. rewrite (kcl_mod K M m HM) by done. apply m_in. }
             split; [|done]. apply HI. split; [done|]. split; [|done]. rewrite <-(kcl_old K M m HM) by done. done.
      + intros A i. rewrite elem_of_app, Hsrt. unfold ex. rewrite elem_of_app. intros [Hi|[Hi|Hi]].
        * split; [|by apply (j_pre_ext _ _ _ _ _ HJ)]. apply fixed_exact. unfold fixed. rewrite <-(j_pre_imp _ _ _ _ _ HJ).
          apply elem_of_pimps. by exists A.
        * apply (j_extra _ _ _ _ _ HJ) in Hi as (? & ? & _ & _ & ?). done.
        * apply elem_of_list_fmap in Hi as ([A' i'] & [= -> ->] & Hi). destruct (Hnew A' i' Hi) as (? & ? & _). done.
      + intros X HX HXm. rewrite <-(model_perm _ _ X Hb), H2, app_nil_r in HXm.
        assert (∀ i, i ∈ fixed → respects X i) as Hf. { intros i Hi. apply HXm. apply elem_of_app. by left. }
        assert (∀ A i, (A, i) ∈ non_min st → respects X i) as Hn.
        { intros A i Hi. apply HXm. apply elem_of_app. right. apply elem_of_list_fmap. exists (A, i). split; [done|]. by rewrite elem_of_reverse. }
        set (Y := X ∖ {[m]}). assert (Y ⊆ X) as HYX. { intros a Ha. unfold Y in Ha. by apply elem_of_difference in Ha as [? _]. }
        assert (Y ⊆ M) as HY.
        { intros a Ha. unfold Y in Ha. apply elem_of_difference in Ha as [Ha Ha']. specialize (HX a Ha). unfold M' in HX.
          apply elem_of_union in HX as [?|?]; done. }
        assert (∀ Z, Z ⊆ M → Z ⊆ X → Z ⊆ Y) as HZ.
        { intros Z HZM HZX a Ha. unfold Y. apply elem_of_difference. split; [by apply HZX|]. intros ->%elem_of_singleton. by apply Hm, HZM. }
        assert (∀ k, k ∈ min_mod st → k.1 ⊆ X → m ∈ X) as Hmin.
        { intros k Hk HkX. apply (Hf k); [unfold fixed; rewrite !elem_of_app; by auto|done|]. by apply min_props. }
        assert (kcl K M Y = Y) as HYc.
        { apply (i_complete _ _ _ HI Y HY). intros j Hj HjY. apply elem_of_pimps in Hj as (A & Hj).
          destruct (i_imp _ _ _ HI _ _ Hj) as [(e1 & e2 & e3) ->].
          assert (j.2 ⊆ M) as e4. { rewrite e2. apply kcl_sub. }
          assert (j.1 ⊆ X) as HjX by exact (sub_trans _ _ _ HjY HYX). apply HZ; [done|].
          destruct (decide (dn j.1 ⊆ E)) as [HE|HE].
          - destruct (j_min_imp _ _ _ _ _ HJ _ _ Hj HE) as [Hk|(Hk & k & Hk' & Hs)].
            + assert (j.2 ∪ {[m]} ⊆ X) as Hs. { refine (Hf (j.1, j.2 ∪ {[m]}) _ HjX). unfold fixed. rewrite !elem_of_app. by auto. }
              etrans; [|exact Hs]. apply union_subseteq_l.
            + assert (m ∈ X) as HmX. { apply (Hmin k Hk'). exact (sub_trans _ _ _ Hs HjX). }
              assert (j.2 ∪ {[m]} ⊆ X) as Hs'.
              { apply (Hn _ _ Hk). cbn. apply union_least; [done|]. by apply singleton_subseteq_l. }
              etrans; [|exact Hs']. apply union_subseteq_l.
          - apply (Hf j); [|done]. unfold fixed. rewrite !elem_of_app. left. apply (j_old _ _ _ _ _ HJ). by exists (dn j.1). }
        assert (PConcept (dn Y) Y ∈ ps) as HYp by by apply HI.
        destruct (decide (m ∈ X)) as [HmX|HmX].
        * assert (X = Y ∪ {[m]}) as EX.
          { apply (anti_symm (⊆)); [|apply union_least; [done|by apply singleton_subseteq_l]]. intros a Ha. unfold Y.
            rewrite elem_of_union, elem_of_difference, elem_of_singleton. destruct (decide (a = m)) as [->|]; tauto. }
          destruct (decide (dn Y ⊆ E)) as [HE|HE].
          -- rewrite EX at 1. unfold M'. rewrite (kcl_mod_m K M m HM), HYc by done. done.
          -- rewrite EX. apply (j_new_all _ _ _ _ _ HJ _ _ HYp HE). intros i Hi. rewrite <-EX. apply Hf. unfold fixed.
             rewrite !elem_of_app. by auto.
        * assert (X = Y) as EX.
          { apply (anti_symm (⊆)); [|done]. intros a Ha. unfold Y. apply elem_of_difference. split; [done|].
            intros ->%elem_of_singleton. done. }
          destruct (decide (dn Y ⊆ E)) as [HE|HE].
          -- destruct (j_min_conc _ _ _ _ _ HJ _ _ HYp HE) as (k & Hk & Hs). destruct HmX. apply (Hmin k Hk). exact (sub_trans _ _ _ Hs HYX).
          -- rewrite EX at 1. unfold M'. rewrite (kcl_old K M m HM), HYc by done. done.
      + rewrite <-Hb. done.
    - intros [Ht Hq] Hss. destruct (j_topo _ _ _ _ _ HJ Ht) as (t1 & t2 & t3 & t4). split.
      + rewrite map_app. apply topo_app; [done| |].
        * apply stopo_topo; [apply Hss|]. rewrite Hsrt. unfold ex. rewrite map_app. apply NoDup_app. split; [|split].
          -- by apply topo_NoDup.
          -- intros X HX HX'. apply elem_of_list_fmap in HX as (p & -> & Hp). apply (j_extra _ _ _ _ _ HJ) in Hp as (A & B & HAB & HA & ->).
             apply elem_of_list_fmap in HX' as (p & Hpp & Hp). apply elem_of_list_fmap in Hp as ([A' i] & -> & Hi). cbn in Hpp.
             destruct (Hnew A' i Hi) as ((e1 & e2 & e3) & _). apply HI in HAB as (h1 & h2 & ->).
             apply e3. rewrite e2, <-Hpp. unfold M'. by rewrite (kcl_mod_m K M m HM), h2.
          -- rewrite !map_app in H5. apply NoDup_app in H5 as (_ & _ & H5). rewrite map_map. rewrite map_map in H5. exact H5.
        * intros x y Hx Hy Hs. apply elem_of_list_fmap in Hx as (p & -> & Hp), Hy as (q & -> & Hq').
          assert (∃ P, P ⊆ M ∧ dn P ⊆ E ∧ P ∪ {[m]} ⊆ pset q) as (P & HP & HPE & HPq).
          { rewrite Hsrt in Hq'. unfold ex in Hq'. apply elem_of_app in Hq' as [Hq'|Hq'].
            - apply (j_extra _ _ _ _ _ HJ) in Hq' as (A & B & HAB & HA & ->). apply HI in HAB as (h1 & h2 & ->). by exists B.
            - apply elem_of_list_fmap in Hq' as ([A' i] & -> & Hi). cbn. by destruct (Hnew A' i Hi) as (_ & _ & ?). }
          assert (P ∪ {[m]} ⊆ pset p) as HPp by by etrans.
          destruct (j_pre_sets _ _ _ _ _ HJ p Hp) as [(q' & Hq'' & Hpq)|(A & B & HAB & HA & Hpq)]; rewrite Hpq in HPp.
          -- apply Hm. apply (okp_pset K M q'); [by apply ps_ok|]. apply HPp, m_in.
          -- apply HI in HAB as (h1 & h2 & ->). apply HA. etrans; [|exact HPE]. apply down_anti.
             apply (sub_add M m Hm); [done|]. etrans; [|exact HPp]. apply union_subseteq_l.
      + intros i j. rewrite <-Hb, !elem_of_app. intros Hi Hj Hs.
        destruct Hi as [Hi|Hi]; [|apply (H4 i j); [done|by rewrite elem_of_app|done]].
        assert (∀ P, P ⊆ M → dn P ⊆ E → P ∪ {[m]} ⊆ i.1 → False) as Hno.
        { intros P HP HPE HPi. unfold fixed in Hi. rewrite !elem_of_app in Hi. destruct Hi as [Hi|[Hi|Hi]].
          - destruct (old_props i Hi) as (_ & _ & Hmi & _). apply Hmi, HPi, m_in.
          - destruct (new_props i Hi) as (B & _ & _ & HB & HiB & _). apply HB. etrans; [|exact HPE]. apply down_anti.
            apply (sub_add M m Hm); [done|]. rewrite <-HiB. etrans; [|exact HPi]. apply union_subseteq_l.
          - destruct (min_props i Hi) as (Hi1 & _). apply Hm, Hi1, HPi, m_in. }
        destruct Hj as [Hj|Hj].
        2:{ exfalso. apply elem_of_list_fmap in Hj as ([A' j'] & -> & Hj). destruct (Hnew A' j' Hj) as (_ & _ & P & HP & HPE & HPj).
            apply (Hno P HP HPE). cbn in Hs. etrans; [exact HPj|apply Hs]. }
        assert (j.1 ⊆ i.1) as Hs' by apply Hs.
        unfold fixed in Hi, Hj. rewrite !elem_of_app in Hi. rewrite !elem_of_app in Hj. destruct Hi as [Hi|[Hi|Hi]].
        * destruct (old_props i Hi) as (ei & HEi & Hmi & Hpi). destruct Hj as [Hj|[Hj|Hj]].
          -- destruct (old_props j Hj) as (ej & HEj & Hmj & Hpj). by apply (Hq i j).
          -- exfalso. destruct (new_props j Hj) as (B & _ & _ & _ & HB & _). apply Hmi, Hs'. rewrite HB. apply m_in.
          -- exfalso. destruct (min_props j Hj) as (_ & HEj & _). apply HEi. etrans; [|exact HEj]. by apply down_anti.
        * destruct (new_props i Hi) as (B & HB & HBc & HBE & HiB & _). destruct Hj as [Hj|[Hj|Hj]].
          -- destruct (old_props j Hj) as ((ej1 & ej2 & ej3) & _). rewrite HiB. etrans; [|apply union_subseteq_l].
             apply (closed_respects K M B j HB HBc ej1 ej2). apply (sub_add M m Hm); [done|]. by rewrite <-HiB.
          -- apply elem_of_list_lookup in Hi as (a & Ha), Hj as (b & Hb'). destruct (Nat.lt_trichotomy a b) as [Hl|[Hl|Hl]].
             ++ exfalso. apply (t2 a b i.1 j.1); [by rewrite list_lookup_fmap, Ha|by rewrite list_lookup_fmap, Hb'|done|done].
             ++ exfalso. rewrite <-Hl, Ha in Hb'. injection Hb' as ->. destruct Hs as [_ Hs]. by apply Hs.
             ++ by apply (j_new_pair _ _ _ _ _ HJ b a j i Hb' Ha Hl).
          -- exfalso. destruct (min_props j Hj) as (Hj1 & HEj & _). apply HBE. etrans; [|exact HEj]. apply down_anti.
             apply (sub_add M m Hm); [done|]. by rewrite <-HiB.
        * destruct (min_props i Hi) as (Hi1 & HiE & Him & ei & Hiq). destruct Hj as [Hj|[Hj|Hj]].
          -- destruct (old_props j Hj) as (_ & _ & _ & Hpj). by apply Hiq.
          -- exfalso. destruct (new_props j Hj) as (B & _ & _ & _ & HB & _). apply Hm, Hi1, Hs'. rewrite HB. apply m_in.
          -- exfalso. apply elem_of_list_lookup in Hi as (a & Ha), Hj as (b & Hb'). destruct (Nat.lt_trichotomy a b) as [Hl|[Hl|Hl]].
             ++ apply (t3 a b i.1 j.1); [by rewrite list_lookup_fmap, Ha|by rewrite list_lookup_fmap, Hb'|done|done].
             ++ rewrite <-Hl, Ha in Hb'. injection Hb' as ->. destruct Hs as [_ Hs]. by apply Hs.
             ++ by apply (j_min_pair _ _ _ _ _ HJ b a j i Hb' Ha Hl).
  Qed.
End round.
