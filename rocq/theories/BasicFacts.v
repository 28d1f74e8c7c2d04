(** * BasicExploration with truthful answers *)
From Verif Require Import Py Spec PyFacts SpecFacts DgSpec ContextModel ContextSpec ContextOps ContextFacts ContextInit ContextMut ContextMisc ContextEffects
  ContextFinal ClosureModel ClosureFacts DgModel DgFacts DgMain DgCons DgCxt DgFinal AiModel AiFacts AiRound AiFinal ExplModel ExplSpec ExplFacts ExplDb ExplFinal
  FilterFacts ExploreFacts NorrisFacts LatticeModel CrossFacts CrossFacts2 BasicSpec.

(** ** One side, abstractly *)
Section core.
  Context (M : gset name) (cl : gset name → gset name) (Hcl : closure_op M cl).
  (** [T]: a different set for every answer so far. *)
  Record tinv (K : fctx) (op cf : list fimp) (T : list (gset name)) : Prop := TInv {
    t_wf : fwf K;
    t_M : fM K = M;
    t_rows : ∀ g, g ∈ fG K → cl (up K {[g]}) = up K {[g]};
    t_op : ∀ i, i ∈ op → i.1 ⊆ M ∧ i.2 = acl K i.1 ∧ i.1 ≠ i.2;
    t_nd : NoDup (map fst op);
    t_cf : ∀ j, j ∈ cf → j.1 ⊆ M ∧ j.2 = cl j.1 ∧ j.1 ≠ j.2 ∧ acl K j.1 = j.2;
    t_new : ∀ i j, i ∈ op → j ∈ cf → i.1 ≠ j.1;
    t_T : NoDup T;
    t_Tsub : ∀ Y, Y ∈ T → Y ⊆ M;
    t_Tk : ∀ Y, Y ∈ T → Y ∈ map fst cf ∨ acl K Y = Y }.

  Lemma below K X : fM K = M → (∀ g, g ∈ fG K → cl (up K {[g]}) = up K {[g]}) → X ⊆ M → cl X ⊆ acl K X.
  Proof.
    intros EM Hr HX m Hm. apply elem_of_up. split; [rewrite EM; by apply (cl_sub _ _ Hcl X)|].
    intros g [Hg HgX]%elem_of_down.
    assert (X ⊆ up K {[g]}) as Hsub.
    { intros x Hx. apply elem_of_up. split; [rewrite EM; auto|]. intros g' ->%elem_of_singleton. by apply HgX. }
    assert (m ∈ up K {[g]}) as Hmg.
    { rewrite <-(Hr g Hg). apply (cl_mono _ _ Hcl X); [done| |done]. rewrite <-EM. apply up_sub. }
    apply elem_of_up in Hmg as [_ Hmg]. apply Hmg. by apply elem_of_singleton.
  Qed.
  Lemma fresh_exact K R : fwf K → fM K = M → (∀ g, g ∈ fG K → cl (up K {[g]}) = up K {[g]}) →
    (∀ i, i ∈ R → i.1 ⊆ M ∧ i.2 = acl K i.1 ∧ i.1 ≠ i.2) → NoDup (map fst R) → tinv K R [] [].
  Proof. intros. constructor; try done; try (by intros ? ?%elem_of_nil); try (by intros ? ? ? ?%elem_of_nil). constructor. Qed.

  Lemma tinv_confirm K op cf T p i : tinv K op cf T → op !! p = Some i → i.2 ⊆ cl i.1 →
    tinv K (delete p op) (cf ++ [i]) (i.1 :: T).
  Proof.
    intros [h0 h1 h2 h3 h4 h5 h6 h7 h8 h9] Hp Hv. pose proof (elem_of_list_lookup_2 _ _ _ Hp) as Hi. destruct (h3 i Hi) as (e1 & e2 & e3).
    assert (i.2 = cl i.1) as Ei.
    { apply (anti_symm (⊆)); [done|]. rewrite e2. by apply below. }
    pose proof (delete_Permutation op p i Hp) as HP. rewrite HP in h4. cbn in h4. apply NoDup_cons in h4 as [Hni h4].
    constructor; try done.
    - intros j Hj. apply h3. by eapply delete_sub.
    - intros j Hj. apply elem_of_app in Hj as [Hj|Hj%elem_of_list_singleton]; [by apply h5|]. subst j. by rewrite <-e2.
    - intros j k Hj Hk. apply elem_of_app in Hk as [Hk|Hk%elem_of_list_singleton]; [apply h6; [by eapply delete_sub|done]|]. subst k.
      intros E. apply Hni. rewrite <-E. by apply elem_of_list_fmap_1.
    - constructor; [|done]. intros HiT. destruct (h9 _ HiT) as [H|H]; [|congruence].
      apply elem_of_list_fmap in H as (j & E & Hj). by apply (h6 i j).
    - intros Y [->|HY]%elem_of_cons; [done|auto].
    - intros Y [->|HY]%elem_of_cons.
      + left. rewrite map_app. apply elem_of_app. right. by apply elem_of_list_singleton.
      + destruct (h9 Y HY) as [H|H]; [|by right]. left. rewrite map_app. apply elem_of_app. by left.
  Qed.

  Context (K K' : fctx) (o : name) (X : gset name).
  Context (Ho : o ∉ fG K) (HG : ∀ g, g ∈ fG K' ↔ g ∈ fG K ∨ g = o) (HMM : fM K' = fM K) (Hwf' : fwf K').
  Context (HI : ∀ g m, (g, m) ∈ fI K' ↔ (g, m) ∈ fI K ∨ g = o ∧ m ∈ X ∩ M).
  Context (HX : cl (X ∩ M) = X ∩ M).

  Lemma tinv_grow op cf T R : tinv K op cf T →
    (∀ i, i ∈ R → i.1 ⊆ M ∧ i.2 = acl K' i.1 ∧ i.1 ≠ i.2) → NoDup (map fst R) → tinv K' (unconfirmed cf R) cf T.
  Proof.
    intros [h0 h1 h2 h3 h4 h5 h6 h7 h8 h9] HR HN.
    assert (X ∩ M ⊆ fM K) as HJ by set_solver.
    pose proof (added_acl K K' o (X ∩ M) h0 Ho HJ HG HMM HI) as Hacl.
    assert (∀ Y, acl K' Y ⊆ acl K Y) as Hle by (intros Y; rewrite Hacl; case_decide; set_solver).
    assert (fM K' = M) as EM by congruence.
    assert (∀ g, g ∈ fG K' → cl (up K' {[g]}) = up K' {[g]}) as Hr.
    { intros g Hg. apply HG in Hg as [Hg| ->].
      - rewrite (added_up K K' o (X ∩ M) Ho HMM HI) by set_solver. auto.
      - assert (up K' {[o]} = X ∩ M) as ->; [|done]. apply set_eq. intros m. rewrite elem_of_up. split.
        + intros [_ H]. apply (new_row K K' o (X ∩ M) h0 Ho HI). apply H. by apply elem_of_singleton.
        + intros Hm. split; [rewrite EM; set_solver|]. intros g ->%elem_of_singleton. by apply (new_row K K' o (X ∩ M) h0 Ho HI). }
    assert (∀ j, j ∈ cf → acl K' j.1 = j.2) as Hcf.
    { intros j Hj. destruct (h5 j Hj) as (e1 & e2 & e3 & e4). apply (anti_symm (⊆)); [rewrite <-e4; apply Hle|]. rewrite e2. by apply below. }
    constructor; try done.
    - intros i Hi. apply HR. by eapply unconfirmed_sub.
    - unfold unconfirmed. revert HN. clear. induction R as [|i R IH]; cbn; [done|]. intros [Hn HN]%NoDup_cons.
      destruct (negb _); cbn; [|by apply IH]. constructor; [|by apply IH]. intros (j & E & Hj)%elem_of_list_fmap. apply Hn. rewrite E.
      apply elem_of_list_fmap_1. apply elem_of_list_In, List.filter_In in Hj as [Hj _]. by apply elem_of_list_In.
    - intros j Hj. destruct (h5 j Hj) as (e1 & e2 & e3 & e4). split_and!; try done. by apply Hcf.
    - intros i j Hi Hj E. pose proof (unconfirmed_sub _ _ _ Hi) as HiR. destruct (HR i HiR) as (e1 & e2 & e3).
      apply elem_of_list_In, List.filter_In in Hi as [_ Hi]. apply negb_true_iff in Hi. apply not_true_iff_false in Hi. apply Hi.
      apply existsb_exists. exists j. split; [by apply elem_of_list_In|]. unfold imp_eqb, conclusion.
      assert (i.2 = j.2) as E2. { rewrite e2, E. by apply Hcf. } rewrite E, E2. by rewrite !bool_decide_true.
    - intros Y HY. destruct (h9 Y HY) as [H|H]; [by left|]. right. pose proof (h8 Y HY) as HYM.
      apply (anti_symm (⊆)); [rewrite <-H at 2; apply Hle|]. apply acl_ext. by rewrite EM.
  Qed.
  Lemma tinv_counter op cf T R i : tinv K op cf T →
    (∀ i, i ∈ R → i.1 ⊆ M ∧ i.2 = acl K' i.1 ∧ i.1 ≠ i.2) → NoDup (map fst R) → i ∈ op → ¬ respects X i →
    tinv K' (unconfirmed cf R) cf (X ∩ M :: T).
  Proof.
    intros Ht HR HN Hi Hx. pose proof (tinv_grow op cf T R Ht HR HN) as [g0 g1 g2 g3 g4 g5 g6 g7 g8 g9].
    destruct Ht as [h0 h1 h2 h3 h4 h5 h6 h7 h8 h9]. destruct (h3 i Hi) as (e1 & e2 & e3).
    assert (X ∩ M ⊆ fM K) as HJ by set_solver.
    pose proof (added_acl K K' o (X ∩ M) h0 Ho HJ HG HMM HI) as Hacl.
    assert (i.1 ⊆ X) as Hp. { destruct (decide (i.1 ⊆ X)); [done|]. exfalso. apply Hx. by intros ?. }
    assert (¬ acl K (X ∩ M) = X ∩ M) as Hnc.
    { intros E. apply Hx. intros _. rewrite e2. assert (acl K i.1 ⊆ acl K (X ∩ M)) as H by (apply acl_mono; set_solver). rewrite E in H. set_solver. }
    constructor; try done.
    - constructor; [|done]. intros HT. destruct (h9 _ HT) as [H|H]; [|done].
      apply elem_of_list_fmap in H as (j & E & Hj). destruct (h5 j Hj) as (_ & f2 & f3 & _). apply f3. rewrite f2, <-E. by rewrite HX.
    - intros Y [->|HY]%elem_of_cons; [set_solver|auto].
    - intros Y [->|HY]%elem_of_cons; [|auto]. right. rewrite Hacl, decide_True by done.
      assert (X ∩ M ⊆ acl K (X ∩ M)) by (apply acl_ext; rewrite h1; set_solver). set_solver.
  Qed.
  Lemma tinv_accepts op cf T j : tinv K op cf T → j ∈ cf → respects X j.
  Proof.
    intros [h0 h1 h2 h3 h4 h5 h6 h7 h8 h9] Hj Hp. destruct (h5 j Hj) as (e1 & e2 & e3 & e4). rewrite e2.
    assert (cl j.1 ⊆ X ∩ M) as H; [|set_solver]. rewrite <-HX. apply (cl_mono _ _ Hcl); set_solver.
  Qed.
End core.
Section results.
  Context (M : gset name) (cl : gset name → gset name) (Hcl : closure_op M cl) (K : fctx) (op cf : list fimp) (T : list (gset name)).
  Context (Ht : tinv M cl K op cf T).
  Lemma tinv_count ms : M = list_to_set ms → length T ≤ 2 ^ length ms.
  Proof.
    intros ->. rewrite <-subs_l_length. apply submseteq_length, NoDup_submseteq; [apply Ht|]. intros Y HY.
    apply elem_of_subs_l. by apply (t_Tsub _ _ _ _ _ _ Ht).
  Qed.
  Lemma tinv_done : op = [] → complete K (op ++ cf) →
    (∀ X, X ⊆ M → acl K X = cl X) ∧ (∀ i, i.1 ⊆ M → i.2 ⊆ M → entails cf i ↔ i.2 ⊆ cl i.1).
  Proof.
    intros -> Hc. destruct Ht as [h0 h1 h2 h3 h4 h5 h6 h7 h8 h9]. cbn in Hc.
    assert (∀ X, X ⊆ M → model_of cf (cl X)) as Hm.
    { intros X HX j Hj Hp. destruct (h5 j Hj) as (e1 & e2 & _). rewrite e2, <-(cl_idem _ _ Hcl X HX).
      apply (cl_mono _ _ Hcl); [done|]. by apply (cl_sub _ _ Hcl). }
    assert (∀ X, X ⊆ M → acl K X = cl X) as E.
    { intros X HX. pose proof (cl_sub _ _ Hcl X HX) as HcX. apply (anti_symm (⊆)); [|by apply (below M cl Hcl)].
      trans (acl K (cl X)); [apply acl_mono; by apply (cl_ext _ _ Hcl)|].
      assert (entails cf (cl X, acl K (cl X))) as He.
      { apply Hc; cbn; [by rewrite h1|apply acl_sub|]. apply acl_holds; [by rewrite h1|apply acl_sub|done]. }
      by apply (He (cl X) (Hm X HX)). }
    split; [done|]. intros i H1 H2. split.
    - intros He. apply (He (cl i.1) (Hm i.1 H1)). by apply (cl_ext _ _ Hcl).
    - intros Hs. apply Hc; [by rewrite h1|by rewrite h1|]. destruct i as [P C]. cbn in *. apply acl_holds; [by rewrite h1|by rewrite h1|].
      by rewrite E.
  Qed.
End results.

(** ** Exact lists of implications *)
Definition exact (K : fctx) (R : list fimp) : Prop :=
  (∀ i, i ∈ R → i.1 ⊆ fM K ∧ i.2 = acl K i.1 ∧ i.1 ≠ i.2) ∧ NoDup (map fst R).
Lemma canonical_exact c sa R : good c → comparable (atts c) = true → objs c ≠ [] → sorts sa →
  compute_canonical_basis sa c = Ok R → exact (abs c) R.
Proof.
  intros Hg Hc Ho Hs H. destruct (canonical_ok c Hg Hc Ho sa Hs) as (R' & H1 & H2 & H3 & _). rewrite H in H1. by injection H1 as <-.
Qed.
Lemma object_exact c so R : good c → comparable (objs c) = true → atts c ≠ [] → sorts so →
  object_basis so c = Ok R → exact (ftrans (abs c)) R.
Proof.
  intros Hg Hc Ho Hs. destruct (transpose_spec c (good_wf _ Hg) (good_distinct _ Hg)) as (t & Et & Hgt & Eo & Ea & _).
  pose proof (transpose_abs c t (good_wf _ Hg) (good_distinct _ Hg) Et) as Eabs.
  unfold object_basis. rewrite Et. cbn [mbind res_bind]. intros H. rewrite <-Eabs.
  apply (canonical_exact t so); [done|by rewrite Ea|by rewrite Eo|done|done].
Qed.
(** What a successful change leaves. *)
Lemma mutated sa so f s c' : sorts sa → sorts so → f (bcxt s) = (c', Ok tt) → good c' → comparable (atts c') = true → objs c' ≠ [] →
  comparable (objs c') = true → atts c' ≠ [] →
  ∃ R R', exact (abs c') R ∧ exact (ftrans (abs c')) R' ∧
    mutate_recompute sa so f s = (BExp c' (unconfirmed (bcattr s) R) (unconfirmed (bcobj s) R') (bcattr s) (bcobj s) (bjam s), Ok tt).
Proof.
  intros Hsa Hso E Hg Hc Ho Hc2 Ha2. unfold mutate_recompute. rewrite E. unfold recompute_basis. cbn [bcxt].
  destruct (canonical_facts c' sa Hg Hc Ho Hsa) as (R & HR & _). rewrite HR.
  destruct (object_facts c' so Hg Hc2 Ha2 Hso) as (R' & HR' & _). rewrite HR'.
  exists R, R'. split; [by apply (canonical_exact c' sa)|]. split; [by apply (object_exact c' so)|]. done.
Qed.
Lemma ftrans_fwf K : fwf K → fwf (ftrans K).
Proof. intros H m g Hi%ftrans_I%H. cbn. tauto. Qed.

Section attr.
  Context (c0 : context) (Hg : good c0) (Hc : comparable (atts c0) = true) (Ho : objs c0 ≠ []).
  Context (Hc2 : comparable (objs c0) = true) (Ha2 : atts c0 ≠ []).
  Local Notation M := (fM (abs c0)).
  Context (cl : gset name → gset name) (Hcl : closure_op M cl).
  Context (Hr : ∀ g, g ∈ objs c0 → cl (up (abs c0) {[g]}) = up (abs c0) {[g]}).

  Record ainv (n : nat) (s : bexp) : Prop := AInv {
    a_base : obase s;
    a_atts : atts (bcxt s) = atts c0;
    a_T : ∃ T, length T = n ∧ tinv M cl (abs (bcxt s)) (battr s) (bcattr s) T }.

  Lemma add_example sa so s X o : sorts sa → sorts so → obase s → atts (bcxt s) = atts c0 → o ∉ objs (bcxt s) → comparable (o :: objs (bcxt s)) = true →
    ∃ c' R R', add_object_with_intent (bcxt s) X o = (c', Ok tt) ∧ exact (abs c') R ∧ atts c' = atts c0 ∧
      mutate_recompute sa so (fun c => add_object_with_intent c X o) s =
        (BExp c' (unconfirmed (bcattr s) R) (unconfirmed (bcobj s) R') (bcattr s) (bcobj s) (bjam s), Ok tt) ∧
      fwf (abs c') ∧ o ∉ fG (abs (bcxt s)) ∧ fM (abs c') = fM (abs (bcxt s)) ∧ fM (abs c') = M ∧
      (∀ g, g ∈ fG (abs c') ↔ g ∈ fG (abs (bcxt s)) ∨ g = o) ∧
      (∀ g m, (g, m) ∈ fI (abs c') ↔ (g, m) ∈ fI (abs (bcxt s)) ∨ g = o ∧ m ∈ X ∩ M).
  Proof.
    intros Hsa Hso Hb Ea Hn Hcm. set (c := bcxt s) in *.
    destruct (add_object_with_intent_effect c X o) as (c' & H1 & H2 & H3 & H4 & H5); [apply Hb|apply Hb|done|].
    assert (atts c' = atts c0) as Ea' by congruence.
    assert (fM (abs c') = M) as EM by (cbn; by rewrite Ea').
    destruct (mutated sa so (fun c => add_object_with_intent c X o) s c' Hsa Hso) as (R & R' & h1 & h2 & h3);
      [done|done|by rewrite Ea'| |rewrite H3; by apply comparable_snoc|by rewrite Ea'|].
    { rewrite H3. by destruct (objs c). }
    exists c', R, R'. split_and!; try done.
    - apply abs_fwf.
    - by rewrite in_objs.
    - cbn. by rewrite H4.
    - intros g. by rewrite !in_objs, H3, elem_of_app, elem_of_list_singleton.
    - intros g m. rewrite !elem_of_fI, H5, elem_of_intersection, in_atts, <-Ea. tauto.
  Qed.

  Lemma answer_step sa so n s o : sorts sa → sorts so → ainv n s → answer_attr M cl s o →
    ainv (S n) (bstep sa so o s).1 ∧ (bstep sa so o s).2 = Ok tt.
  Proof.
    intros Hsa Hso [Hb Ea (T & Hl & Ht)] Hans. destruct o as [k|k|o X k|a X k|X o|X a|X a|X o]; try done; cbn in Hans.
    - destruct Hans as (i & Hi & Hv). apply item_pos in Hi as (p & Hp & Hi).
      pose proof (confirm_attr_obase k s Hb) as Hb'. unfold bstep. rewrite (b_jam s (o_base s Hb)).
      revert Hb'. unfold confirm_attribute_implication. rewrite Hp. intros Hb'. split; [|done]. split; [done|done|].
      exists (i.1 :: T). split; [cbn; by rewrite Hl|]. rewrite Hi. cbn. by apply tinv_confirm.
    - destruct Hans as (Hn & Hcm & HX & i & Hi & Hx).
      destruct (add_object_obase sa so Hsa Hso s Hb X o Hn Hcm) as [Hb' _].
      destruct (add_example sa so s X o Hsa Hso Hb Ea Hn Hcm) as (c' & R & R' & _ & [HR1 HR2] & Ea' & E & h1 & h2 & h3 & h4 & h5 & h6).
      unfold bstep. rewrite (b_jam s (o_base s Hb)). rewrite (proj2 (counter_check_item (battr s) (bcattr s) X k)).
      2:{ exists i. split; [done|]. split; [done|]. intros j Hj. by apply (tinv_accepts M cl Hcl (abs (bcxt s)) (abs c') o X h2 h5 h3 h1 h6 HX (battr s) (bcattr s) T). }
      cbn [guarded]. rewrite E in Hb' |- *. split; [|done]. split; [done|done|]. exists (X ∩ M :: T). split; [cbn; by rewrite Hl|]. cbn [fst bcxt battr bcattr].
      apply item_pos in Hi as (p & Hp & Hi).
      apply (tinv_counter M cl Hcl (abs (bcxt s)) (abs c') o X h2 h5 h3 h1 h6 HX (battr s) (bcattr s) T R i); [done| |done|by eapply elem_of_list_lookup_2|done].
      intros j Hj. rewrite <-h4. by apply HR1.
  Qed.
  Lemma aside_step sa so n s o : sorts sa → sorts so → ainv n s → aside_attr M cl s o → ainv n (bstep sa so o s).1.
  Proof.
    intros Hsa Hso [Hb Ea (T & Hl & Ht)] Has. destruct o as [k|k|o X k|a X k|X o|X a|X a|X o]; try done; cbn in Has.
    - unfold bstep. rewrite (b_jam s (o_base s Hb)). destruct (confirm_obj_obase k s Hb) as [Hb' _].
      destruct (confirm_obj_base k s (o_base s Hb)) as (_ & E1 & E2).
      split; [done|by rewrite E2|]. exists T. split; [done|]. rewrite E1, E2.
      unfold confirm_object_implication. by destruct (py_pos _ k).
    - destruct Has as (Hn & Hcm & HX).
      destruct (add_object_obase sa so Hsa Hso s Hb X o Hn Hcm) as [Hb' _].
      destruct (add_example sa so s X o Hsa Hso Hb Ea Hn Hcm) as (c' & R & R' & _ & [HR1 HR2] & Ea' & E & h1 & h2 & h3 & h4 & h5 & h6).
      unfold bstep. rewrite (b_jam s (o_base s Hb)).
      destruct (guarded_cases (conflict_check (bcattr s) X) s (mutate_recompute sa so (λ c, add_object_with_intent c X o))) as [[_ ->]|(e & _ & ->)];
        [|split; [done|done|by exists T]].
      rewrite E in Hb' |- *. split; [done|done|]. exists T. split; [done|]. cbn [fst bcxt battr bcattr].
      apply (tinv_grow M cl Hcl (abs (bcxt s)) (abs c') o X h2 h5 h3 h1 h6 HX (battr s) (bcattr s) T R); [done| |done].
      intros j Hj. rewrite <-h4. by apply HR1.
  Qed.
  Lemma asked_attr n s : asked (answer_attr M cl) (aside_attr M cl) c0 n s → ainv n s.
  Proof.
    induction 1 as [sa so s Hsa Hso H|sa so n s o Hsa Hso _ IH Ha|sa so n s o Hsa Hso _ IH Ha].
    - destruct (new_base sa so c0 s Hsa Hg Hc Ho H) as (Hb & E1 & E2 & Eabs & Eo & Ea & Eb).
      assert (obase s) as Hob.
      { apply (breach_obase any_call2 c0 s); [by intros ? ?|done..|]. by apply (breach_new any_call2 c0 sa so). }
      split; [done|done|]. exists []. split; [done|]. rewrite E1.
      assert (exact (abs (bcxt s)) (battr s)) as [HR1 HR2].
      { apply (canonical_exact (bcxt s) sa); [apply Hb|by rewrite Ea|by rewrite Eo|done|].
        unfold new_exploration in H. destruct (mk_context _ _ _ _) as [c|]; [|done]. cbn [mbind res_bind] in H.
        destruct (compute_canonical_basis sa c) as [l|] eqn:El; [|done]. cbn [mbind res_bind] in H.
        destruct (object_basis so c) as [l'|]; [|done]. cbn [mbind res_bind] in H. by injection H as <-. }
      rewrite Eabs in *. apply fresh_exact; try done; [apply abs_fwf|]. intros g Hgg%in_objs. by apply Hr.
    - by apply (answer_step sa so n s o).
    - by apply (aside_step sa so n s o).
  Qed.
  Lemma asked_attr_results n s : asked (answer_attr M cl) (aside_attr M cl) c0 n s →
    n ≤ 2 ^ length (atts c0) ∧ good (bcxt s) ∧ atts (bcxt s) = atts c0 ∧
    (∀ g, g ∈ objs (bcxt s) → cl (up (abs (bcxt s)) {[g]}) = up (abs (bcxt s)) {[g]}) ∧
    (∀ i, i ∈ bcattr s → i.1 ⊆ M ∧ i.2 = cl i.1 ∧ i.1 ≠ i.2) ∧
    (battr s = [] → (∀ X, X ⊆ M → acl (abs (bcxt s)) X = cl X) ∧
       ∀ i, i.1 ⊆ M → i.2 ⊆ M → entails (bcattr s) i ↔ i.2 ⊆ cl i.1) ∧
    (∀ sa so o, sorts sa → sorts so → answer_attr M cl s o → (bstep sa so o s).2 = Ok tt) ∧
    (∀ i, i ∈ battr s → i.1 ⊆ M ∧ i.2 ⊆ M).
  Proof.
    intros H. pose proof (asked_attr n s H) as Hi. pose proof Hi as [Hb Ea (T & Hl & Ht)].
    assert (fM (abs (bcxt s)) = M) as EM by (cbn; by rewrite Ea).
    split_and!.
    - rewrite <-Hl. by apply (tinv_count M cl Hcl _ _ _ _ Ht).
    - apply Hb.
    - done.
    - intros g Hgg. apply (t_rows _ _ _ _ _ _ Ht). by rewrite in_objs.
    - intros i Hin. destruct (t_cf _ _ _ _ _ _ Ht i Hin) as (? & ? & ? & _). done.
    - intros E. apply (tinv_done M cl Hcl _ _ _ _ Ht E). apply Hb.
    - intros sa so o Hsa Hso Ha. by apply (answer_step sa so n s o).
    - intros i Hin. rewrite <-EM. by apply (b_within s (o_base s Hb)).
  Qed.
End attr.

Section obj.
  Context (c0 : context) (Hg : good c0) (Hc : comparable (atts c0) = true) (Ho : objs c0 ≠ []).
  Context (Hc2 : comparable (objs c0) = true) (Ha2 : atts c0 ≠ []).
  Local Notation G := (fG (abs c0)).
  Context (cl : gset name → gset name) (Hcl : closure_op G cl).
  Context (Hr : ∀ m, m ∈ atts c0 → cl (down (abs c0) {[m]}) = down (abs c0) {[m]}).

  Record oinv (n : nat) (s : bexp) : Prop := OInv {
    oi_base : obase s;
    oi_objs : objs (bcxt s) = objs c0;
    oi_T : ∃ T, length T = n ∧ tinv G cl (ftrans (abs (bcxt s))) (bobj s) (bcobj s) T }.

  Lemma add_col sa so s X a : sorts sa → sorts so → obase s → objs (bcxt s) = objs c0 → a ∉ atts (bcxt s) → comparable (a :: atts (bcxt s)) = true →
    ∃ c' R R', add_attribute_with_extent (bcxt s) X a = (c', Ok tt) ∧ exact (ftrans (abs c')) R' ∧ objs c' = objs c0 ∧
      mutate_recompute sa so (fun c => add_attribute_with_extent c X a) s =
        (BExp c' (unconfirmed (bcattr s) R) (unconfirmed (bcobj s) R') (bcattr s) (bcobj s) (bjam s), Ok tt) ∧
      fwf (ftrans (abs c')) ∧ a ∉ fG (ftrans (abs (bcxt s))) ∧ fM (ftrans (abs c')) = fM (ftrans (abs (bcxt s))) ∧ fM (ftrans (abs c')) = G ∧
      (∀ g, g ∈ fG (ftrans (abs c')) ↔ g ∈ fG (ftrans (abs (bcxt s))) ∨ g = a) ∧
      (∀ g m, (g, m) ∈ fI (ftrans (abs c')) ↔ (g, m) ∈ fI (ftrans (abs (bcxt s))) ∨ g = a ∧ m ∈ X ∩ G).
  Proof.
    intros Hsa Hso Hb Eo Hn Hcm. set (c := bcxt s) in *.
    destruct (add_attribute_with_extent_effect c X a) as (c' & H1 & _ & _ & H2 & H3 & H4 & H5); [apply Hb|apply Hb|done|].
    assert (objs c' = objs c0) as Eo' by congruence.
    assert (good c') as Hg' by (apply H2; by rewrite Eo).
    destruct (mutated sa so (fun c => add_attribute_with_extent c X a) s c' Hsa Hso) as (R & R' & h1 & h2 & h3);
      [done|done|rewrite H4; by apply comparable_snoc|by rewrite Eo'|by rewrite Eo'| |].
    { rewrite H4. by destruct (atts c). }
    exists c', R, R'. split_and!; try done.
    - apply ftrans_fwf, abs_fwf.
    - change (a ∉ fM (abs c)). by rewrite in_atts.
    - change (fG (abs c') = fG (abs c)). cbn. by rewrite H3.
    - change (fG (abs c') = fG (abs c0)). cbn. by rewrite Eo'.
    - intros g. change (g ∈ fM (abs c') ↔ g ∈ fM (abs c) ∨ g = a). by rewrite !in_atts, H4, elem_of_app, elem_of_list_singleton.
    - intros g m. rewrite !ftrans_I, !elem_of_fI, H5, elem_of_intersection, in_objs, <-Eo. tauto.
  Qed.

  Lemma answer_step_o sa so n s o : sorts sa → sorts so → oinv n s → answer_obj G cl s o →
    oinv (S n) (bstep sa so o s).1 ∧ (bstep sa so o s).2 = Ok tt.
  Proof.
    intros Hsa Hso [Hb Eo (T & Hl & Ht)] Hans. destruct o as [k|k|o X k|a X k|X o|X a|X a|X o]; try done; cbn in Hans.
    - destruct Hans as (i & Hi & Hv). apply item_pos in Hi as (p & Hp & Hi).
      pose proof (confirm_obj_obase k s Hb) as [Hb' _]. unfold bstep. rewrite (b_jam s (o_base s Hb)).
      revert Hb'. unfold confirm_object_implication. rewrite Hp. intros Hb'. split; [|done]. split; [done|done|].
      exists (i.1 :: T). split; [cbn; by rewrite Hl|]. rewrite Hi. cbn. by apply tinv_confirm.
    - destruct Hans as (Hn & Hcm & HX & i & Hi & Hx).
      destruct (add_attribute_obase sa so Hsa Hso s Hb X a Hn Hcm) as [Hb' _].
      destruct (add_col sa so s X a Hsa Hso Hb Eo Hn Hcm) as (c' & R & R' & _ & [HR1 HR2] & Eo' & E & h1 & h2 & h3 & h4 & h5 & h6).
      unfold bstep. rewrite (b_jam s (o_base s Hb)). rewrite (proj2 (counter_check_item (bobj s) (bcobj s) X k)).
      2:{ exists i. split; [done|]. split; [done|]. intros j Hj.
          by apply (tinv_accepts G cl Hcl (ftrans (abs (bcxt s))) (ftrans (abs c')) a X h2 h5 h3 h1 h6 HX (bobj s) (bcobj s) T). }
      cbn [guarded]. rewrite E in Hb' |- *. split; [|done]. split; [done|done|]. exists (X ∩ G :: T). split; [cbn; by rewrite Hl|]. cbn [fst bcxt bobj bcobj].
      apply item_pos in Hi as (p & Hp & Hi).
      apply (tinv_counter G cl Hcl (ftrans (abs (bcxt s))) (ftrans (abs c')) a X h2 h5 h3 h1 h6 HX (bobj s) (bcobj s) T R' i); [done| |done|by eapply elem_of_list_lookup_2|done].
      intros j Hj. rewrite <-h4. by apply HR1.
  Qed.
  Lemma aside_step_o sa so n s o : sorts sa → sorts so → oinv n s → aside_obj G cl s o → oinv n (bstep sa so o s).1.
  Proof.
    intros Hsa Hso [Hb Eo (T & Hl & Ht)] Has. destruct o as [k|k|o X k|a X k|X o|X a|X a|X o]; try done; cbn in Has.
    - unfold bstep. rewrite (b_jam s (o_base s Hb)). pose proof (confirm_attr_obase k s Hb) as Hb'.
      destruct (confirm_attr_base k s (o_base s Hb)) as (_ & _ & E1 & E2 & E3).
      split; [done|by rewrite E1|]. exists T. split; [done|]. by rewrite E1, E2, E3.
    - destruct Has as (Hn & Hcm & HX).
      destruct (add_attribute_obase sa so Hsa Hso s Hb X a Hn Hcm) as [Hb' _].
      destruct (add_col sa so s X a Hsa Hso Hb Eo Hn Hcm) as (c' & R & R' & _ & [HR1 HR2] & Eo' & E & h1 & h2 & h3 & h4 & h5 & h6).
      unfold bstep. rewrite (b_jam s (o_base s Hb)).
      destruct (guarded_cases (conflict_check (bcobj s) X) s (mutate_recompute sa so (λ c, add_attribute_with_extent c X a))) as [[_ ->]|(e & _ & ->)];
        [|split; [done|done|by exists T]].
      rewrite E in Hb' |- *. split; [done|done|]. exists T. split; [done|]. cbn [fst bcxt bobj bcobj].
      apply (tinv_grow G cl Hcl (ftrans (abs (bcxt s))) (ftrans (abs c')) a X h2 h5 h3 h1 h6 HX (bobj s) (bcobj s) T R'); [done| |done].
      intros j Hj. rewrite <-h4. by apply HR1.
  Qed.
  Lemma asked_obj n s : asked (answer_obj G cl) (aside_obj G cl) c0 n s → oinv n s.
  Proof.
    induction 1 as [sa so s Hsa Hso H|sa so n s o Hsa Hso _ IH Ha|sa so n s o Hsa Hso _ IH Ha].
    - destruct (new_base sa so c0 s Hsa Hg Hc Ho H) as (Hb & E1 & E2 & Eabs & Eo & Ea & Eb).
      assert (obase s) as Hob.
      { apply (breach_obase any_call2 c0 s); [by intros ? ?|done..|]. by apply (breach_new any_call2 c0 sa so). }
      split; [done|done|]. exists []. split; [done|]. rewrite E2.
      assert (exact (ftrans (abs (bcxt s))) (bobj s)) as [HR1 HR2].
      { apply (object_exact (bcxt s) so); [apply Hb|by rewrite Eo|by rewrite Ea|done|done]. }
      rewrite Eabs in *. apply fresh_exact; try done; [apply ftrans_fwf, abs_fwf|]. intros m Hm.
      rewrite up_ftrans. apply Hr. by apply in_atts.
    - by apply (answer_step_o sa so n s o).
    - by apply (aside_step_o sa so n s o).
  Qed.
  Lemma asked_obj_results n s : asked (answer_obj G cl) (aside_obj G cl) c0 n s →
    n ≤ 2 ^ length (objs c0) ∧ good (bcxt s) ∧ objs (bcxt s) = objs c0 ∧
    (∀ m, m ∈ atts (bcxt s) → cl (down (abs (bcxt s)) {[m]}) = down (abs (bcxt s)) {[m]}) ∧
    (∀ i, i ∈ bcobj s → i.1 ⊆ G ∧ i.2 = cl i.1 ∧ i.1 ≠ i.2) ∧
    (bobj s = [] → (∀ X, X ⊆ G → down (abs (bcxt s)) (up (abs (bcxt s)) X) = cl X) ∧
       ∀ i, i.1 ⊆ G → i.2 ⊆ G → entails (bcobj s) i ↔ i.2 ⊆ cl i.1) ∧
    (∀ sa so o, sorts sa → sorts so → answer_obj G cl s o → (bstep sa so o s).2 = Ok tt) ∧
    (∀ i, i ∈ bobj s → i.1 ⊆ G ∧ i.2 ⊆ G).
  Proof.
    intros H. pose proof (asked_obj n s H) as Hi. pose proof Hi as [Hb Eo (T & Hl & Ht)].
    assert (fM (ftrans (abs (bcxt s))) = G) as EM by (change (fG (abs (bcxt s)) = G); cbn; by rewrite Eo).
    split_and!.
    - rewrite <-Hl. by apply (tinv_count G cl Hcl _ _ _ _ Ht).
    - apply Hb.
    - done.
    - intros m Hm. rewrite <-up_ftrans. apply (t_rows _ _ _ _ _ _ Ht). change (m ∈ fM (abs (bcxt s))). by rewrite in_atts.
    - intros i Hin. destruct (t_cf _ _ _ _ _ _ Ht i Hin) as (? & ? & ? & _). done.
    - intros E. destruct (tinv_done G cl Hcl _ _ _ _ Ht E) as [H1 H2]; [apply Hb|]. split; [|done].
      intros X HX. rewrite <-(H1 X HX). unfold acl. by rewrite up_ftrans, down_ftrans.
    - intros sa so o Hsa Hso Ha. by apply (answer_step_o sa so n s o).
    - intros i Hin. rewrite <-EM. by apply (o_within s Hb).
  Qed.
End obj.
