(** * Combined statements about the Duquenne-Guigues basis *)
From Verif Require Import Py Spec PyFacts SpecFacts DgSpec ContextModel ContextSpec ContextOps ContextFacts ContextReduce
  ClosureModel ClosureFacts DgModel DgFacts DgMain DgCons DgCxt.

Lemma lectic_sorted_unique ms (l k : list (gset name)) :
  StronglySorted (lectic ms) l → StronglySorted (lectic ms) k → (∀ P, P ∈ l ↔ P ∈ k) → l = k.
Proof.
  intros Hl Hk H.
  assert (∀ l, StronglySorted (lectic ms) l → NoDup l) as Hnd.
  { clear. intros l Hl. induction Hl as [|P l HS IH HP]; [constructor|]. constructor; [|done].
    intros H. rewrite Forall_forall in HP. by eapply lectic_irrefl, HP. }
  assert (l ≡ₚ k) as Hp by (apply NoDup_Permutation; auto).
  assert (Transitive (lectic ms)) by (intros P Q R; apply lectic_trans).
  assert (AntiSymm (=) (lectic ms)) by (intros P Q H1 H2; by destruct (lectic_asym ms P Q)).
  apply (StronglySorted_unique (lectic ms)); done.
Qed.
Lemma post_unique ms cl L0 R R' : post ms cl L0 R → post ms cl L0 R' → R = R'.
Proof.
  intros H H'. assert (map fst R = map fst R') as E.
  { apply (lectic_sorted_unique ms); [apply H|apply H'|]. intros P.
    exact (pseudo_family_unique _ _ _ _ _ P (post_family _ _ _ _ H) (post_family _ _ _ _ H')). }
  assert (∀ R, post ms cl L0 R → R = map (λ P, (P, cl P)) (map fst R)) as HR.
  { clear. intros R H. rewrite map_map. rewrite <-(map_id R) at 1. apply map_ext_in. intros [P C] Hi%elem_of_list_In.
    destruct (post_elem _ _ _ _ H _ Hi) as (_ & E & _). simpl in *. by subst. }
  rewrite (HR R), (HR R') by done. by rewrite E.
Qed.

Definition good_ords (ords : gset name → list fimp → nat → gset name → list name) : Prop :=
  ∀ s L k X, ords s L k X ≡ₚ elements X.

Section final.
  Context (c : context) (Hg : good c) (Hcmp : comparable (atts c) = true).
  Local Notation K := (abs c).
  Context (L0 : list fimp) (HL0 : ∀ i, i ∈ L0 → i.1 ⊆ fM K ∧ i.2 ⊆ fM K) (Hno : objs c ≠ [] ∨ L0 = []).

  Lemma L0_hashable i : i ∈ L0 → hashable i = true.
  Proof. intros Hi. destruct (HL0 i Hi). by apply (hashable_sub c Hcmp). Qed.

  Lemma dg_simple_post : ∃ R, compute_dg_basis_simple c (Some L0) (λ _, true) = Ok R ∧ post (atts c) (acl K) L0 R.
  Proof.
    unfold compute_dg_basis_simple. apply (dg_cxt_spec c Hg Hcmp L0); [intros i Hi; by apply HL0|done|].
    intros R X HR HX. apply (simple_close_ok c Hcmp L0 L0_hashable), (basis_over c L0), HR.
  Qed.
  Lemma dg_lin_post ords : good_ords ords →
    (∀ p q i j, L0 !! p = Some i → L0 !! q = Some j → p ≠ q → imp_eqb i j = false) →
    ∃ R, compute_dg_basis c ords (Some L0) (λ _, true) = Ok R ∧ post (atts c) (acl K) L0 R.
  Proof.
    intros Hords Hd. unfold compute_dg_basis. apply (dg_cxt_spec c Hg Hcmp L0); [intros i Hi; by apply HL0|done|].
    intros R X HR HX. apply (lin_close_ok c Hcmp L0 L0_hashable ords Hords); [|done].
    apply NoDup_pairwise. intros p q i j Hi Hj Hpq E%imp_eqb_ikey. rewrite (Hd p q i j) in E; done.
  Qed.
  Lemma dg_both ords : good_ords ords →
    (∀ p q i j, L0 !! p = Some i → L0 !! q = Some j → p ≠ q → imp_eqb i j = false) →
    compute_dg_basis c ords (Some L0) (λ _, true) = compute_dg_basis_simple c (Some L0) (λ _, true).
  Proof.
    intros Hords Hd. destruct (dg_lin_post ords Hords Hd) as (R & -> & HR).
    destruct dg_simple_post as (R' & -> & HR'). f_equal. by eapply post_unique.
  Qed.
  Lemma dg_exact : ∃ R, compute_dg_basis_simple c (Some L0) (λ _, true) = Ok R ∧
    (∀ i, i ∈ R → i.2 = acl K i.1) ∧
    pseudo_family (fM K) (acl K) L0 (λ P, P ∈ map fst R) ∧
    StronglySorted (lectic (atts c)) (map fst R).
  Proof.
    destruct dg_simple_post as (R & HR & Hp). exists R. split; [done|]. split.
    - intros i Hi. by apply (post_elem _ _ _ _ Hp) in Hi as (_ & ? & _).
    - split; [by apply (post_family _ _ _ _ Hp)|apply Hp].
  Qed.
  Lemma dg_sound_complete R : compute_dg_basis_simple c (Some L0) (λ _, true) = Ok R →
    (∀ i, i ∈ R → i.1 ⊆ fM K ∧ i.2 ⊆ fM K ∧ holds K i) ∧
    (∀ i, i.1 ⊆ fM K → i.2 ⊆ fM K → holds K i → entails (R ++ L0) i) ∧
    (∀ R1 i R2, R = R1 ++ i :: R2 → ¬ entails (R1 ++ R2 ++ L0) i).
  Proof.
    intros HR. destruct dg_simple_post as (R' & HR' & Hp). rewrite HR in HR'. injection HR' as <-.
    split; [|split].
    - intros [P C] Hi. destruct (post_elem _ _ _ _ Hp _ Hi) as (H1 & H2 & _). simpl in *.
      assert (C ⊆ fM K) as HC by (rewrite H2; apply acl_sub).
      split; [done|]. split; [done|]. apply acl_holds; [done|done|]. by rewrite H2.
    - intros [P C] HP HC Hh. simpl in *. apply acl_holds in Hh; [|done|done].
      apply (post_entails (atts c) (acl K) (acl_closure_op K) L0 R Hp); [done|done|].
      intros i Hi. by apply HL0.
    - intros R1 i R2 E. by apply (post_irredundant (atts c) (acl K) (acl_closure_op K) L0 R Hp).
  Qed.
  Lemma dg_minimum R S : compute_dg_basis_simple c (Some L0) (λ _, true) = Ok R →
    (∀ i, i ∈ S → i.1 ⊆ fM K ∧ i.2 ⊆ fM K ∧ holds K i) →
    (∀ i, i.1 ⊆ fM K → i.2 ⊆ fM K → holds K i → entails (S ++ L0) i) →
    length R ≤ length S.
  Proof.
    intros HR HS HC. destruct dg_simple_post as (R' & HR' & Hp). rewrite HR in HR'. injection HR' as <-.
    apply (post_minimum (atts c) (acl K) (acl_closure_op K) L0 R Hp S).
    - intros [P C] X Hi HX E HPX. cbn in *. destruct (HS _ Hi) as (H1 & H2 & H3). simpl in *.
      apply acl_holds in H3; [|done|done]. rewrite E. trans (acl K P); [done|]. by apply acl_mono.
    - intros X HX Hm. apply set_eq. intros x. split; [by apply acl_ext|].
      apply (HC (X, acl K X)); cbn.
      + done.
      + apply acl_sub.
      + apply acl_holds; [done|apply acl_sub|done].
      + done.
      + done.
  Qed.
End final.

Lemma dg_cond_final c cond L0 ords : good c → comparable (atts c) = true → objs c ≠ [] →
  (∀ i, i ∈ L0 → i.1 ⊆ fM (abs c) ∧ i.2 ⊆ fM (abs c)) → good_ords ords →
  ∀ r, r = compute_dg_basis_simple c (Some L0) cond ∨ r = compute_dg_basis c ords (Some L0) cond →
  ∃ R, r = Ok R ∧
    (∀ i, i ∈ R → i.1 ⊆ fM (abs c) ∧ i.2 = acl (abs c) i.1 ∧ i.1 ≠ i.2 ∧ cond i.1 = true ∧ holds (abs c) i) ∧
    StronglySorted (lectic (atts c)) (map fst R) ∧ NoDup (map fst R).
Proof.
  intros Hg Hcmp Hne HL0 Hords r Hr.
  assert (NoDup (atts c)) as Hnd by apply Hg.
  assert (∀ i, i ∈ L0 → hashable i = true) as Hh by (intros i Hi; destruct (HL0 i Hi); by apply (hashable_sub c Hcmp)).
  assert (∀ R, filtered (atts c) (acl (abs c)) cond R → imps_over c R) as Hover.
  { intros R [HR _] i Hi. destruct (HR i Hi) as (H1 & -> & _). split; [done|]. apply acl_sub. }
  assert (∀ R, imps_over c R → ∀ X, X ⊆ fM (abs c) → X ∪ ⋃ map snd (R ++ L0) ⊆ fM (abs c)) as HU.
  { intros R HR X HX x [Hx|(Y & HY & Hx)%elem_of_union_list]%elem_of_union; [by apply HX|].
    apply elem_of_list_fmap in HY as (i & -> & Hi). apply elem_of_app in Hi as [Hi|Hi].
    - by apply (HR i).
    - by apply (HL0 i). }
  assert (∀ R, imps_over c R → close_ok (atts c) simple_close L0 R ∧ close_ok (atts c) (lin_close ords) L0 R) as Hok.
  { intros R HR. split; intros X HX.
    - destruct (simple_close_ok c Hcmp L0 Hh R X HR) as (C & HC & HCc). exists C. split; [done|].
      destruct HCc as (H1 & H2 & H3). split; [done|]. trans (X ∪ ⋃ map snd (R ++ L0)); [|by apply HU].
      apply H3; [clear; set_solver|]. intros i Hi _ x Hx. apply elem_of_union. right. apply elem_of_union_list.
      exists i.2. split; [by apply elem_of_list_fmap_1|done].
    - destruct (lin_closure_total (ords X (R ++ L0)) X (R ++ L0)) as (C & HC & H1 & H2).
      + intros k Y. apply Hords.
      + by apply (over_hashable c Hcmp L0 Hh).
      + exists C. split; [done|]. split; [done|]. trans (X ∪ ⋃ map snd (R ++ L0)); [done|by apply HU]. }
  assert (imps_over c []) as Hnil by by intros ? ?%elem_of_nil.
  assert (∃ R, r = Ok R ∧ filtered (atts c) (acl (abs c)) cond R) as (R & HR & [H1 H2]).
  { destruct Hr as [-> | ->].
    - apply (dg_filtered (atts c) Hnd (acl (abs c)) (closure_growing _ _ (acl_closure_op (abs c)))).
      + intros X HX. by apply cxt_aclose_spec.
      + intros R HR. by apply Hok, Hover.
      + destruct (proj1 (Hok [] Hnil) ∅) as (C & HC & _ & HCM); [clear; set_solver|]. by exists C.
    - apply (dg_filtered (atts c) Hnd (acl (abs c)) (closure_growing _ _ (acl_closure_op (abs c)))).
      + intros X HX. by apply cxt_aclose_spec.
      + intros R HR. by apply Hok, Hover.
      + destruct (proj2 (Hok [] Hnil) ∅) as (C & HC & _ & HCM); [clear; set_solver|]. by exists C. }
  exists R. split; [done|]. split; [|split; [done|]].
  - intros [P C] Hi. destruct (H1 _ Hi) as (A1 & A2 & A3 & A4). simpl in *. split; [done|]. split; [done|].
    split; [by rewrite A2|]. split; [done|]. rewrite A2. apply acl_holds; [done|apply acl_sub|done].
  - clear -H2. induction H2 as [|P l HS IH HP]; [constructor|]. constructor; [|done].
    intros H. rewrite Forall_forall in HP. by eapply lectic_irrefl, HP.
Qed.
