(** * Combined statements about contexts, as seen by a caller *)
From Verif Require Import Py Spec ContextModel ContextSpec ContextOps PyFacts SpecFacts ContextFacts ContextInit
  ContextMut ContextEffects ContextMisc ContextReduce ContextEq.

Lemma mk_context_final t os ats :
  (NoDup os → NoDup ats → length t = length os → (∀ r, r ∈ t → length r = length ats) →
     ∃ c, mk_context t None os ats = Ok c ∧ objs c = os ∧ atts c = ats ∧
       ∀ i j g m, os !! i = Some g → ats !! j = Some m →
         (incident c g m ↔ ∃ r, t !! i = Some r ∧ r !! j = Some true)) ∧
  (is_ok (mk_context t None os ats) = true ↔ length t = length os ∧ ∀ r, r ∈ t → length r = length ats) ∧
  (¬ (length t = length os ∧ ∀ r, r ∈ t → length r = length ats) → mk_context t None os ats = Err ValueError).
Proof.
  split; [|split].
  - intros Ho Ha Hl Hr. destruct (mk_context_ok t None os ats Hl Hr) as [c Hc]. exists c. split; [done|].
    pose proof (mk_context_good t None os ats c Hc Ho Ha) as (Hg & Eo & Ea & En); [done|].
    split; [done|]. split; [done|]. intros i j g m Hi Hj. rewrite <-En.
    rewrite <-elem_of_fI, (incident_cell c i j g m); [|apply Hg|by rewrite Eo|by rewrite Ea]. apply cellb_Some.
  - rewrite mk_context_spec. case_decide as H; simpl.
    + rewrite Forall_forall in H. done.
    + split; [done|]. intros [? H']. destruct H. split; [done|]. by apply Forall_forall.
  - intros H. rewrite mk_context_spec, decide_False; [done|]. rewrite Forall_forall. done.
Qed.

(** Position [i] of a repeated name is called [str(x) ++ "_" ++ str(i)], other
    names are kept. *)
Lemma mk_context_names t os ats c :
  mk_context t None os ats = Ok c → no_clash os → no_clash ats →
  distinct c ∧ length (objs c) = length os ∧ length (atts c) = length ats ∧
  (∀ i x, os !! i = Some x → objs c !! i = Some (if (1 <? py_count x os)%nat then NStr (pystr x ++ "_" ++ pretty i) else x)) ∧
  (∀ i x, ats !! i = Some x → atts c !! i = Some (if (1 <? py_count x ats)%nat then NStr (pystr x ++ "_" ++ pretty i) else x)).
Proof.
  intros H Ho Ha. apply mk_context_Ok in H as (_ & _ & Eo & Ea & _).
  split; [split; [rewrite Eo|rewrite Ea]; by apply uniquify_unique|].
  rewrite Eo, Ea, !uniquify_length. split; [done|]. split; [done|].
  rewrite !uniquify_spec by done. split; intros i x Hi; rewrite list_lookup_imap, Hi; done.
Qed.

Lemma derivation_galois c A B : good c → (∀ g, g ∈ A → g ∈ objs c) → (∀ m, m ∈ B → m ∈ atts c) →
  ∃ XA XB, oprime c A = Ok XA ∧ aprime c B = Ok XB ∧
    ((∀ g, g ∈ A → g ∈ XB) ↔ (∀ m, m ∈ B → m ∈ XA)).
Proof.
  intros Hg HA HB. exists (up (abs c) (list_to_set A)), (down (abs c) (list_to_set B)).
  split; [by apply oprime_spec|]. split; [by apply aprime_spec|].
  setoid_rewrite elem_of_down. setoid_rewrite elem_of_up.
  setoid_rewrite elem_of_fG. setoid_rewrite elem_of_fM.
  setoid_rewrite elem_of_list_to_set. naive_solver.
Qed.
Lemma oprime_exact c A : good c →
  ((∀ g, g ∈ A → g ∈ objs c) → ∃ X, oprime c A = Ok X ∧
     ∀ m, m ∈ X ↔ m ∈ atts c ∧ ∀ g, g ∈ A → incident c g m) ∧
  ((∃ g, g ∈ A ∧ g ∉ objs c) → oprime c A = Err KeyError).
Proof.
  intros Hg. split.
  - intros HA. eexists. split; [by apply oprime_spec|]. intros m. rewrite elem_of_up, elem_of_fM.
    setoid_rewrite elem_of_fI. by setoid_rewrite elem_of_list_to_set.
  - apply oprime_KeyError, Hg.
Qed.
Lemma aprime_exact c B : good c →
  ((∀ m, m ∈ B → m ∈ atts c) → ∃ X, aprime c B = Ok X ∧
     ∀ g, g ∈ X ↔ g ∈ objs c ∧ ∀ m, m ∈ B → incident c g m) ∧
  ((∃ m, m ∈ B ∧ m ∉ atts c) → aprime c B = Err KeyError).
Proof.
  intros Hg. split.
  - intros HA. eexists. split; [by apply aprime_spec|]. intros m. rewrite elem_of_down, elem_of_fG.
    setoid_rewrite elem_of_fI. by setoid_rewrite elem_of_list_to_set.
  - apply aprime_KeyError, Hg.
Qed.
(** Closures are the double derivation, extensive, monotone and idempotent. *)
Lemma aclosure_laws c B : good c → (∀ m, m ∈ B → m ∈ atts c) →
  ∃ X Y, aclosure c B = Ok X ∧ aprime c B = Ok Y ∧ oprime c (elements Y) = Ok X ∧
    (∀ m, m ∈ B → m ∈ X) ∧ (∀ m, m ∈ X → m ∈ atts c) ∧ aclosure c (elements X) = Ok X ∧
    ∀ B' X', (∀ m, m ∈ B → m ∈ B') → aclosure c B' = Ok X' → X ⊆ X'.
Proof.
  intros Hg HB. exists (acl (abs c) (list_to_set B)), (down (abs c) (list_to_set B)).
  assert ((list_to_set B : gset name) ⊆ fM (abs c)) as HBM.
  { intros m. rewrite elem_of_list_to_set, elem_of_fM. auto. }
  split; [by apply aclosure_spec|]. split; [by apply aprime_spec|].
  split. { rewrite oprime_spec; [by rewrite list_to_set_elements_L|done|].
    intros g. rewrite elem_of_elements, elem_of_down, elem_of_fG. tauto. }
  split. { intros m Hm. apply acl_ext; [done|]. by apply elem_of_list_to_set. }
  assert (acl (abs c) (list_to_set B) ⊆ fM (abs c)) as Hsub by apply acl_sub.
  split. { intros m Hm%Hsub. by apply elem_of_fM. }
  split. { rewrite aclosure_spec; [by rewrite list_to_set_elements_L, acl_idem|done|].
    intros m Hm%elem_of_elements%Hsub. by apply elem_of_fM. }
  intros B' X' HBB HX'.
  destruct (decide (Forall (λ m, m ∈ atts c) B')) as [H|H].
  - rewrite Forall_forall in H. rewrite aclosure_spec in HX' by done. injection HX' as <-.
    apply acl_mono. intros m. rewrite !elem_of_list_to_set. auto.
  - apply not_Forall_Exists in H; [|apply _]. apply Exists_exists in H as (m & ? & ?).
    rewrite aclosure_KeyError in HX'; [done|apply Hg|eauto].
Qed.
Lemma oclosure_laws c A : good c → (∀ g, g ∈ A → g ∈ objs c) →
  ∃ X Y, oclosure c A = Ok X ∧ oprime c A = Ok Y ∧ aprime c (elements Y) = Ok X ∧
    (∀ g, g ∈ A → g ∈ X) ∧ (∀ g, g ∈ X → g ∈ objs c) ∧ oclosure c (elements X) = Ok X ∧
    ∀ A' X', (∀ g, g ∈ A → g ∈ A') → oclosure c A' = Ok X' → X ⊆ X'.
Proof.
  intros Hg HB. exists (ocl (abs c) (list_to_set A)), (up (abs c) (list_to_set A)).
  assert ((list_to_set A : gset name) ⊆ fG (abs c)) as HBM.
  { intros m. rewrite elem_of_list_to_set, elem_of_fG. auto. }
  split; [by apply oclosure_spec|]. split; [by apply oprime_spec|].
  split. { rewrite aprime_spec; [by rewrite list_to_set_elements_L|done|].
    intros g. rewrite elem_of_elements, elem_of_up, elem_of_fM. tauto. }
  split. { intros m Hm. apply ocl_ext; [done|]. by apply elem_of_list_to_set. }
  assert (ocl (abs c) (list_to_set A) ⊆ fG (abs c)) as Hsub by apply ocl_sub.
  split. { intros m Hm%Hsub. by apply elem_of_fG. }
  split. { rewrite oclosure_spec; [by rewrite list_to_set_elements_L, ocl_idem|done|].
    intros m Hm%elem_of_elements%Hsub. by apply elem_of_fG. }
  intros A' X' HBB HX'.
  destruct (decide (Forall (λ m, m ∈ objs c) A')) as [H|H].
  - rewrite Forall_forall in H. rewrite oclosure_spec in HX' by done. injection HX' as <-.
    apply ocl_mono. intros m. rewrite !elem_of_list_to_set. auto.
  - apply not_Forall_Exists in H; [|apply _]. apply Exists_exists in H as (m & ? & ?).
    rewrite oclosure_KeyError in HX'; [done|apply Hg|eauto].
Qed.
(** Supports: [n] objects have all of [B]; [d m] of them also have [m]. *)
Lemma associative_final c B : good c → (∀ m, m ∈ B → m ∈ atts c) →
  ∃ d n X, associative_aclosure c B = Ok (d, n) ∧ aprime c B = Ok X ∧ n = size X ∧
    (∀ m k, d !! m = Some k → m ∈ atts c ∧ k = size (filter (λ g, incident c g m) X)) ∧
    (∀ m, is_Some (d !! m) ↔ m ∈ atts c ∧ (X = ∅ ∨ ∃ g, g ∈ X ∧ incident c g m)) ∧
    ∃ Y, aclosure c B = Ok Y ∧ ∀ m, m ∈ Y ↔ d !! m = Some n.
Proof.
  intros Hg HB. destruct (associative_aclosure_spec c B Hg HB) as (d & n & E & Hn & Hd1 & Hd2).
  set (X := down (abs c) (list_to_set B)) in *.
  assert (∀ m, m ∈ atts c → X ∩ down (abs c) {[m]} = filter (λ g, incident c g m) X) as Hf.
  { intros m Hm. apply set_eq. intros g. rewrite elem_of_filter, elem_of_intersection, elem_of_down, elem_of_fG.
    setoid_rewrite elem_of_fI. split.
    - intros (? & ? & Hall). split; [|done]. apply Hall. set_solver.
    - intros [Hi HX]. split; [done|]. split; [by apply elem_of_down in HX as [?%elem_of_fG _]|]. set_solver. }
  assert (∀ m k, d !! m = Some k → m ∈ atts c ∧ k = size (filter (λ g, incident c g m) X)) as Hk.
  { intros m k Hmk. assert (m ∈ atts c) as Hm by (by apply Hd2). split; [done|]. rewrite <-Hf by done. by eapply Hd1. }
  exists d, n, X. split; [done|]. split; [by apply aprime_spec|]. split; [done|]. split; [done|]. split.
  - intros m. rewrite Hd2, Hn, size_empty_iff. by rewrite leibniz_equiv_iff.
  - exists (acl (abs c) (list_to_set B)). split; [by apply aclosure_spec|]. intros m. unfold acl. fold X.
    rewrite elem_of_up, elem_of_fM. setoid_rewrite elem_of_fI. split.
    + intros [Hm Hall]. assert (is_Some (d !! m)) as [k Hdk].
      { apply Hd2. split; [done|]. destruct (set_choose_or_empty X) as [[g Hgx]|HX]; [right; eauto|left].
        rewrite Hn. by rewrite HX, size_empty. }
      rewrite Hdk. f_equal. apply Hk in Hdk as [_ ->]. rewrite Hn. f_equal. apply set_eq.
      intros g. rewrite elem_of_filter. naive_solver.
    + intros Hmn. apply Hk in Hmn as [Hm Hs]. split; [done|]. intros g Hgx.
      destruct (decide (g ∈ filter (λ g, incident c g m) X)) as [[? _]%elem_of_filter|Hng]; [done|].
      assert (size (filter (λ g, incident c g m) X) < size X); [|lia].
      apply subset_size. split; [intros g'; rewrite elem_of_filter; tauto|]. intros H. by apply Hng, H.
Qed.
(** Exactly one object per row pattern. *)
Lemma clarify_final c : good c →
  ∃ c', clarify_objects c = Ok c' ∧ good c' ∧ atts c' = atts c ∧
    (∀ g, g ∈ objs c' → g ∈ objs c) ∧
    (∀ g m, incident c' g m ↔ g ∈ objs c' ∧ incident c g m) ∧
    (∀ g, g ∈ objs c → ∃ h, h ∈ objs c' ∧ ∀ m, incident c h m ↔ incident c g m) ∧
    (∀ g h, g ∈ objs c' → h ∈ objs c' → (∀ m, incident c' g m ↔ incident c' h m) → g = h) ∧
    (∀ B X, aclosure c B = Ok X → aclosure c' B = Ok X).
Proof.
  intros Hg. destruct (clarify_spec c) as (c' & E & Hg' & Ha & Hsub & Hinc & Hcov & Huniq); [apply Hg..|].
  exists c'. split; [done|]. split; [done|]. split; [done|]. split; [done|]. split; [|split; [done|split; [done|]]].
  - intros g m. split.
    + intros H. assert (g ∈ objs c') as Hgo by (by apply elem_of_fI, abs_fwf in H as [?%elem_of_fG _]).
      split; [done|]. by apply Hinc.
    + intros [? ?]. by apply Hinc.
  - intros B X HX. destruct (decide (Forall (λ m, m ∈ atts c) B)) as [H|H].
    + rewrite Forall_forall in H. rewrite aclosure_spec in HX by done. injection HX as <-.
      rewrite aclosure_spec by (done || by rewrite Ha). f_equal. apply clarify_closures; [apply Hg..|done|].
      intros m. rewrite elem_of_list_to_set, elem_of_fM. auto.
    + apply not_Forall_Exists in H; [|apply _]. apply Exists_exists in H as (m & ? & ?).
      rewrite aclosure_KeyError in HX; [done|apply Hg|eauto].
Qed.
Lemma reduce_final c : good c → length (atts c) ≤ 63 →
  ∃ c', reduce_objects c = Ok c' ∧ good c' ∧ atts c' = atts c ∧ objs c' `sublist_of` objs c ∧
    (∀ g m, incident c' g m ↔ g ∈ objs c' ∧ incident c g m) ∧
    (∀ B X, aclosure c B = Ok X → aclosure c' B = Ok X) ∧
    ((∃ g, g ∈ objs c ∧ ∀ m, m ∈ atts c → incident c g m) →
     ∃ g, g ∈ objs c' ∧ ∀ m, m ∈ atts c → incident c g m).
Proof.
  intros Hg H63. destruct (reduce_spec c (good_wf _ Hg) (good_distinct _ Hg) H63) as (c' & E & Hg' & Ha & Hsub & Hinc & _).
  exists c'. split; [done|]. split; [done|]. split; [done|]. split; [done|]. split; [done|]. split.
  - intros B X HX. destruct (decide (Forall (λ m, m ∈ atts c) B)) as [H|H].
    + rewrite Forall_forall in H. rewrite aclosure_spec in HX by done. injection HX as <-.
      rewrite aclosure_spec by (done || by rewrite Ha). f_equal. apply reduce_closures; [apply Hg..|done|done|].
      intros m. rewrite elem_of_list_to_set, elem_of_fM. auto.
    + apply not_Forall_Exists in H; [|apply _]. apply Exists_exists in H as (m & ? & ?).
      rewrite aclosure_KeyError in HX; [done|apply Hg|eauto].
  - intros (g & Hgo & Hall). eapply reduce_keeps_full; [apply Hg..|done|done|done|done].
Qed.
Lemma reduce_attributes_final c : good c → length (objs c) ≤ 63 →
  ∃ c', reduce_attributes c = Ok c' ∧ good c' ∧ objs c' = objs c ∧ atts c' `sublist_of` atts c ∧
    (∀ g m, incident c' g m ↔ m ∈ atts c' ∧ incident c g m) ∧
    (∀ A X, oclosure c A = Ok X → oclosure c' A = Ok X) ∧
    ((∃ m, m ∈ atts c ∧ ∀ g, g ∈ objs c → incident c g m) →
     ∃ m, m ∈ atts c' ∧ ∀ g, g ∈ objs c → incident c g m).
Proof.
  intros Hg H63. destruct (reduce_attributes_spec c (good_wf _ Hg) (good_distinct _ Hg) H63) as (c' & E & Hg' & Ho & Hsub & Hinc & Hcl & Hfull).
  exists c'. split; [done|]. split; [done|]. split; [done|]. split; [done|]. split; [done|]. split.
  - intros A X HX. destruct (decide (Forall (λ m, m ∈ objs c) A)) as [H|H].
    + rewrite Forall_forall in H. rewrite oclosure_spec in HX by done. injection HX as <-.
      rewrite oclosure_spec by (done || by rewrite Ho). f_equal. apply Hcl.
      intros m. rewrite elem_of_list_to_set, elem_of_fG. auto.
    + apply not_Forall_Exists in H; [|apply _]. apply Exists_exists in H as (m & ? & ?).
      rewrite oclosure_KeyError in HX; [done|apply Hg|eauto].
  - intros (m & Hm & Hall). by apply (Hfull m).
Qed.
