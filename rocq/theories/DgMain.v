(** * Correctness of the Duquenne-Guigues basis algorithm *)
From Verif Require Import Py Spec PyFacts SpecFacts DgSpec ContextModel ClosureModel ClosureFacts DgModel DgFacts.

Lemma StronglySorted_snoc {A} (R : A → A → Prop) l x :
  StronglySorted R l → (∀ y, y ∈ l → R y x) → StronglySorted R (l ++ [x]).
Proof.
  intros HS. induction HS as [|y l HS IH Hy]; intros Hx; simpl.
  - constructor; constructor.
  - constructor; [apply IH; intros; apply Hx; by right|]. apply Forall_app. split; [done|].
    constructor; [|done]. apply Hx. by left.
Qed.

Section main.
  Context (ms : list name) (Hms : NoDup ms).
  Local Notation M := (list_to_set ms : gset name).
  Local Notation n := (length ms).
  Context (cl : gset name → gset name) (Hcl : growing_op M cl).
  Context (aclose : gset name → res (gset name)) (Haclose : ∀ X, X ⊆ M → aclose X = Ok (cl X)).
  Context (close : closer) (L0 : list fimp).
  Context (HL0 : ∀ i, i ∈ L0 → i.2 ⊆ M).

  (** The lists of implications the algorithm builds. *)
  Definition basis_like (R : list fimp) : Prop :=
    (∀ i, i ∈ R → i.1 ⊆ M ∧ i.2 = cl i.1 ∧ i.1 ≠ cl i.1 ∧ model_of L0 i.1) ∧
    StronglySorted (lectic ms) (map fst R).
  Context (Hclose : ∀ R X, basis_like R → X ⊆ M →
    ∃ C, close X (Some (R ++ L0)) = Ok C ∧ is_closure (R ++ L0) X C).

  Local Notation prem R := (map fst (R : list fimp)).
  Definition pseudo_at (R : list fimp) (P : gset name) : Prop :=
    P ≠ cl P ∧ ∀ Q, Q ∈ prem R → Q ⊂ P → cl Q ⊆ P.

  (** The premises are the sets that are pseudo-closed at [R], but a pseudo-closed set
      that is the conclusion of an implication may be missing. *)
  Definition exact_at (R : list fimp) (P : gset name) : Prop :=
    (P ∈ prem R → pseudo_at R P) ∧ (pseudo_at R P → P ∈ prem R ∨ ∃ Q, Q ∈ prem R ∧ P = cl Q).
  Record inv (R : list fimp) (a : gset name) (i : nat) : Prop := {
    inv_basis : basis_like R;
    inv_lt : ∀ P, P ∈ prem R → lectic ms P a;
    inv_exact : ∀ P, P ⊆ M → model_of L0 P → lectic ms P a → exact_at R P;
    inv_sub : a ⊆ M;
    inv_model : model_of (R ++ L0) a;
    inv_i : i = n ∨ ∃ m, ms !! i = Some m ∧ m ∈ a ∧ is_closure (R ++ L0) (a ∩ pre ms (S i)) a }.

  Definition post (R : list fimp) : Prop :=
    basis_like R ∧ ∀ P, P ⊆ M → model_of L0 P → (P ∈ prem R ↔ pseudo_at R P).
  Definition weak_post (R : list fimp) : Prop :=
    basis_like R ∧ ∀ P, P ⊆ M → model_of L0 P → exact_at R P.

  Lemma model_of_app L L' X : model_of (L ++ L') X ↔ model_of L X ∧ model_of L' X.
  Proof. unfold model_of. setoid_rewrite elem_of_app. naive_solver. Qed.
  Lemma prem_elem R P : basis_like R → P ∈ prem R ↔ (P, cl P) ∈ R.
  Proof.
    intros [H _]. rewrite elem_of_list_fmap. split.
    - intros ([P' C] & -> & Hi). destruct (H _ Hi) as (_ & E & _). simpl in *. by subst C.
    - intros Hi. by exists (P, cl P).
  Qed.
  Lemma basis_close_sub R X C : basis_like R → X ⊆ M → is_closure (R ++ L0) X C → C ⊆ M.
  Proof.
    intros [HR _] HX (_ & _ & Hl). apply Hl; [done|]. apply model_of_app. split.
    - intros i Hi _. destruct (HR i Hi) as (H1 & -> & _). by apply (gr_sub _ _ Hcl).
    - intros i Hi _. by apply HL0.
  Qed.
  Lemma basis_close_ok R : basis_like R → close_ok ms close L0 R.
  Proof.
    intros HR X HX. destruct (Hclose R X HR HX) as (C & HC & Hc). exists C. split; [done|].
    split; [apply Hc|]. by eapply basis_close_sub.
  Qed.

  Notation nb := (next_basis cl (λ _, true)).
  Lemma nb_prem R a P : P ∈ prem (nb R a) ↔ P ∈ prem R ∨ (P = a ∧ a ≠ cl a).
  Proof.
    unfold next_basis. rewrite andb_true_r. case_bool_decide.
    - rewrite map_app, elem_of_app. simpl. rewrite elem_of_list_singleton. tauto.
    - tauto.
  Qed.
  Lemma nb_basis R a i : inv R a i → basis_like (nb R a).
  Proof.
    intros [[HR HS] Hlt Hex Ha Hm Hi]. unfold next_basis. rewrite andb_true_r.
    case_bool_decide as Hne; [|done]. split.
    - intros j [Hj| ->%elem_of_list_singleton]%elem_of_app; [by apply HR|]. cbn.
      split; [done|]. split; [done|]. split; [done|]. by apply model_of_app in Hm as [_ ?].
    - rewrite map_app. by apply StronglySorted_snoc.
  Qed.
  (** The exact characterisation extends to [a] itself. *)
  Lemma nb_exact R a i P : inv R a i → P ⊆ M → model_of L0 P → lectic ms P a ∨ P = a →
    exact_at (nb R a) P.
  Proof.
    intros [HR Hlt Hex Ha Hm Hi] HP HPm [HPa| ->].
    - assert (P ≠ a) as Hne by (intros ->; by eapply lectic_irrefl).
      destruct (Hex P HP HPm HPa) as [Hex1 Hex2].
      assert (∀ Q, Q ⊂ P → (Q ∈ prem (nb R a) ↔ Q ∈ prem R)) as HQ.
      { intros Q HQ. rewrite nb_prem. split; [|by left]. intros [?|[-> _]]; [done|]. exfalso.
        eapply lectic_sub; [apply HQ|done]. }
      unfold exact_at. rewrite nb_prem. split.
      + intros [[H1 H2]%Hex1|[? _]]; [|done]. split; [done|]. intros Q HQ1 HQ2. apply H2; [|done]. by apply HQ.
      + intros [H1 H2]. destruct Hex2 as [H|(Q & HQ1 & HQ2)]; [|by left; left|].
        * split; [done|]. intros Q HQ1 HQ2. apply H2; [|done]. by apply HQ.
        * right. exists Q. split; [|done]. apply nb_prem. by left.
    - unfold exact_at. rewrite nb_prem. split.
      + intros [H|[_ H]]; [exfalso; eapply lectic_irrefl, Hlt, H|]. split; [done|].
        intros Q [HQ|[-> _]]%nb_prem HQa; [|exfalso; apply HQa; done].
        apply prem_elem in HQ; [|done]. apply model_of_app in Hm as [Hm _].
        apply (Hm _ HQ). apply HQa.
      + intros [H _]. left. by right.
  Qed.
  (** A set beyond [a] satisfying the condition is a model. *)
  Lemma beyond_model R a i P : inv R a i → model_of L0 P → lectic ms a P → pseudo_at (nb R a) P →
    model_of (nb R a ++ L0) P.
  Proof.
    intros HI HPm HaP [_ HP]. pose proof (nb_basis _ _ _ HI) as Hb. apply model_of_app. split; [|done].
    intros [Q C] HQ HQP. cbn in *. destruct Hb as [Hb _]. destruct (Hb _ HQ) as (_ & E & _). simpl in E. subst C.
    assert (Q ∈ prem (nb R a)) as HQ' by (apply elem_of_list_fmap; by exists (Q, cl Q)).
    apply HP; [done|]. split; [done|]. intros HPQ. assert (Q = P) as -> by (apply set_eq; intros x; split; [apply HQP|apply HPQ]).
    apply nb_prem in HQ' as [H|[-> _]].
    - apply (inv_lt _ _ _ HI) in H. by eapply lectic_asym.
    - by eapply lectic_irrefl.
  Qed.
  Lemma beyond_not_prem R a i P : inv R a i → lectic ms a P → P ∉ prem (nb R a).
  Proof.
    intros HI HaP [H|[-> _]]%nb_prem; [|by eapply lectic_irrefl].
    apply (inv_lt _ _ _ HI) in H. by eapply lectic_asym.
  Qed.
  (** If [P] is beyond [a], a model, and differs from [a] only from position [i] on, it contains [cl a]. *)
  Lemma beyond_contains R a i P k x : inv R a i → P ⊆ M → model_of (nb R a ++ L0) P →
    ms !! k = Some x → x ∈ P → x ∉ a → agree ms k a P → i ≤ k → a ⊆ P ∧ (a ≠ cl a → cl a ⊆ P).
  Proof.
    intros HI HP HPm Hk HxP Hxa Hag Hik.
    assert (k < n) as Hkn by (by eapply lookup_lt_Some).
    assert (a ⊆ P) as HaP.
    { destruct (inv_i _ _ _ HI) as [->|(m & Hm & Hma & Hc)]; [lia|].
      assert (k ≠ i) by (intros ->; congruence).
      destruct Hc as (_ & _ & Hc). apply Hc.
      - intros y [Hy1 Hy2]%elem_of_intersection. apply elem_of_pre in Hy2 as (l & Hl & Hy).
        apply (Hag l y); [lia|done|done].
      - intros j Hj. apply HPm. apply elem_of_app in Hj as [Hj|Hj]; apply elem_of_app; [left|by right].
        unfold next_basis. case_match; [apply elem_of_app; by left|done]. }
    split; [done|]. intros Hne. apply (HPm (a, cl a)); [|done].
    apply elem_of_app. left. unfold next_basis. rewrite bool_decide_true by done. simpl.
    apply elem_of_app. right. by left.
  Qed.

  (** What the inner loop finds is lectically minimal. *)
  Lemma inner_min R a1 i b j P k x : basis_like R → i ≤ n → a1 ⊆ M → inner_res ms close L0 R a1 i b j →
    P ⊆ M → model_of (R ++ L0) P → ms !! k = Some x → x ∈ P → x ∉ a1 → agree ms k a1 P → k < i →
    ¬ lectic ms P b.
  Proof.
    intros HR Hi Ha1 Hin HP HPm Hk HxP Hxa Hag Hki.
    destruct (inner_progress ms close L0 R a1 i b j (basis_close_ok R HR) Hi Ha1 Hin) as (Hj & Hb & Hab & m & Hm & Hmb & Hma).
    destruct Hin as (m' & Hji & Hm' & _ & Hcl' & Hb0 & Hrej). assert (m' = m) as -> by congruence.
    assert (∀ l y, l ≤ k → ms !! l = Some y → y ∈ P → a1 ∩ pre ms l ∪ {[y]} ⊆ P) as Hsub.
    { intros l y Hl Hy HyP z [[Hz1 Hz2]%elem_of_intersection| ->%elem_of_singleton]%elem_of_union; [|done].
      apply elem_of_pre in Hz2 as (o & Ho & Hz). apply (Hag o z); [lia|done|done]. }
    assert (∀ l y, ms !! l = Some y → a1 ∩ pre ms l ∪ {[y]} ⊆ M) as HsubM.
    { intros l y Hy. assert (y ∈ M) by (apply elem_of_list_to_set; by eapply elem_of_list_lookup_2).
      clear -Ha1 H. set_solver. }
    destruct (Nat.lt_trichotomy k j) as [Hkj|[->|Hkj]].
    - intros H. apply (lectic_asym ms _ _ H). exists k, x. split; [done|]. split; [done|]. split.
      + intros Hxb. apply Hxa. by apply (Hab k x).
      + eapply agree_trans; [|done]. apply agree_sym. eapply agree_le; [|done]. lia.
    - assert (x = m) as -> by congruence. apply lectic_sub.
      destruct (Hclose R _ HR (HsubM j m Hm)) as (C & HC & Hc). rewrite Hcl' in HC. injection HC as <-.
      destruct Hc as (_ & _ & Hc). apply Hc; [|done]. by apply Hsub.
    - exfalso. destruct (Hrej k x) as (b' & Hb' & Hne); [lia|done|done|].
      destruct (Hclose R _ HR (HsubM k x Hk)) as (C & HC & Hc). rewrite Hb' in HC. injection HC as <-.
      destruct Hc as (_ & _ & Hc). assert (b' ⊆ P) as HbP by (apply Hc; [by apply Hsub|done]).
      apply Hne. apply set_eq. intros y. split; [|by intros ?%elem_of_empty].
      intros [[Hy1 Hy2]%elem_of_difference Hy3]%elem_of_intersection. exfalso. apply Hy2, elem_of_intersection.
      split; [|done]. apply elem_of_pre in Hy3 as (l & Hl & Hy). apply (Hag l y); [done|done|]. by apply HbP.
  Qed.

  (** The parts of the invariant that only depend on the inner loop. *)
  Lemma inv_next R a i a1 i1 b j : inv R a i → i1 ≤ n → a1 ⊆ M → inner_res ms close L0 (nb R a) a1 i1 b j →
    lectic ms a b →
    (∀ P, P ⊆ M → model_of L0 P → lectic ms a P → lectic ms P b →
      pseudo_at (nb R a) P → ∃ Q, Q ∈ prem (nb R a) ∧ P = cl Q) →
    inv (nb R a) b j.
  Proof.
    intros HI Hi1 Ha1 Hin Hab Hmin. pose proof (nb_basis _ _ _ HI) as HR.
    destruct (inner_progress ms close L0 _ a1 i1 b j (basis_close_ok _ HR) Hi1 Ha1 Hin) as (Hj & Hb & Hag & m & Hm & Hmb & Hma).
    assert (is_closure (nb R a ++ L0) (a1 ∩ pre ms j ∪ {[m]}) b) as Hcb.
    { destruct Hin as (m' & _ & Hm' & _ & Hc & _). assert (m' = m) as -> by congruence.
      destruct (Hclose (nb R a) (a1 ∩ pre ms j ∪ {[m]})) as (C & HC & HCc).
      - done.
      - assert (m ∈ M) by (apply elem_of_list_to_set; by eapply elem_of_list_lookup_2). clear -Ha1 H. set_solver.
      - rewrite Hc in HC. injection HC as <-. done. }
    constructor.
    - done.
    - intros P [HP|[-> _]]%nb_prem; [|done]. eapply lectic_trans; [|done]. by apply (inv_lt _ _ _ HI).
    - intros P HP HPm HPb. destruct (lectic_total ms P a) as [->|[H|H]]; [done|apply (inv_sub _ _ _ HI)|..].
      + apply (nb_exact R a i); auto.
      + apply (nb_exact R a i); auto.
      + split; [|intros ?%Hmin; [by right|done..]]. intros H'. by eapply beyond_not_prem in H'.
    - done.
    - apply Hcb.
    - right. exists m. split; [done|]. split; [done|].
      assert (b ∩ pre ms (S j) = a1 ∩ pre ms j ∪ {[m]}) as ->; [|done].
      apply set_eq. intros x. rewrite elem_of_union, !elem_of_intersection, elem_of_singleton, !elem_of_pre. split.
      + intros [Hxb (k & Hk & Hx)]. destruct (decide (k = j)) as [->|]; [right; congruence|]. left.
        split; [|exists k; split; [lia|done]]. apply (Hag k x); [lia|done|done].
      + intros [[Hx1 (k & Hk & Hx)]| ->].
        * split; [by apply (Hag k x)|]. exists k. split; [lia|done].
        * split; [done|]. exists j. split; [lia|done].
  Qed.

  Lemma inv_step1 R a i b j : i ≤ n → inv R a i → (cl a ∖ a) ∩ pre ms i ≠ ∅ →
    inner_res ms close L0 (nb R a) (a ∩ pre ms i) i b j → inv (nb R a) b j.
  Proof.
    intros Hin HI Hne Hinner. pose proof (nb_basis _ _ _ HI) as HR. pose proof (inv_sub _ _ _ HI) as Ha.
    assert (a ∩ pre ms i ⊆ M) as Hai by (clear -Ha; set_solver).
    pose proof Hinner as (m & Hji & Hm & Hma & _).
    destruct (inner_progress ms close L0 _ _ i b j (basis_close_ok _ HR) Hin Hai Hinner) as (Hj & Hb & Hag & m' & Hm' & Hmb & _).
    assert (m' = m) as -> by congruence.
    assert (∀ k, k ≤ i → agree ms k a (a ∩ pre ms i)) as Hagi.
    { intros k Hk. apply (agree_pre ms). intros x (l & Hl & Hx)%elem_of_pre. rewrite elem_of_intersection, elem_of_pre.
      split; [intros; split; [done|exists l; split; [lia|done]]|tauto]. }
    apply (inv_next R a i _ _ b j HI Hin Hai Hinner).
    - exists j, m. split; [done|]. split; [done|]. split.
      + intros Hm2. apply Hma. apply elem_of_intersection. split; [done|]. apply elem_of_pre. eauto.
      + eapply agree_trans; [|done]. apply Hagi. lia.
    - intros P HP HPm HaP HPb Hps. exfalso. pose proof (beyond_model R a i P HI HPm HaP Hps) as HPM.
      pose proof HaP as (k & x & Hk & HxP & Hxa & Hagk). destruct (decide (k < i)) as [Hki|Hki].
      + eapply (inner_min _ _ _ _ _ P k x HR Hin Hai Hinner); try done.
        * clear -Hxa. set_solver.
        * eapply agree_trans; [|done]. apply agree_sym, Hagi. lia.
      + destruct (beyond_contains R a i P k x HI HP HPM Hk HxP Hxa Hagk ltac:(lia)) as [_ Hcon].
        apply set_choose_L in Hne as [y Hy]. apply elem_of_intersection in Hy as [[Hy1 Hy2]%elem_of_difference Hy3].
        assert (a ≠ cl a) as Hac by (intros E; by rewrite <-E in Hy1). specialize (Hcon Hac).
        apply elem_of_pre in Hy3 as (l & Hl & Hy). apply Hy2, (Hagk l y); [lia|done|auto].
  Qed.

  Lemma inv_step2 R a i b j : i ≤ n → inv R a i → (cl a ∖ a) ∩ pre ms i = ∅ →
    inner_res ms close L0 (nb R a) (cl a) n b j → inv (nb R a) b j.
  Proof.
    intros Hin HI He Hinner. pose proof (nb_basis _ _ _ HI) as HR. pose proof (inv_sub _ _ _ HI) as Ha.
    pose proof (gr_sub _ _ Hcl a Ha) as Hac. pose proof (gr_ext _ _ Hcl a Ha) as Haac.
    destruct (inner_progress ms close L0 _ _ n b j (basis_close_ok _ HR) (le_n _) Hac Hinner) as (Hj & Hb & Hag & m & Hm & Hmb & Hma).
    assert (lectic ms (cl a) b) as Hlt by (by exists j, m).
    apply (inv_next R a i _ _ b j HI (le_n _) Hac Hinner).
    - destruct (lectic_total ms a (cl a)) as [E|[H|H]]; [done|done|by rewrite E|by eapply lectic_trans|].
      destruct (lectic_sub ms _ _ Haac H).
    - intros P HP HPm HaP HPb Hps. pose proof (beyond_model R a i P HI HPm HaP Hps) as HPM.
      destruct (lectic_total ms P (cl a)) as [->|[H|H]]; [done|done|..].
      + exists a. split; [|done]. apply nb_prem. right. split; [done|]. intros E. rewrite <-E in HaP. by eapply lectic_irrefl.
      + exfalso. pose proof HaP as (k & x & Hk & HxP & Hxa & Hagk).
        assert (∀ l y, l < i → ms !! l = Some y → (y ∈ a ↔ y ∈ cl a)) as Hagi.
        { intros l y Hl Hy. split; [by apply Haac|]. intros Hy'. destruct (decide (y ∈ a)); [done|]. exfalso.
          assert (y ∈ (cl a ∖ a) ∩ pre ms i) as Hy2.
          { apply elem_of_intersection. split; [by apply elem_of_difference|]. apply elem_of_pre. eauto. }
          rewrite He in Hy2. by apply elem_of_empty in Hy2. }
        destruct (decide (k < i)) as [Hki|Hki].
        * apply (lectic_asym ms _ _ H). exists k, x. split; [done|]. split; [done|]. split.
          -- intros Hx. apply Hxa. by apply (Hagi k x).
          -- intros l y Hl Hy. rewrite <-(Hagi l y); [|lia|done]. by apply (Hagk l y).
        * destruct (beyond_contains R a i P k x HI HP HPM Hk HxP Hxa Hagk ltac:(lia)) as [_ Hcon].
          destruct (decide (a = cl a)) as [E|Hne].
          -- rewrite <-E in H. by eapply lectic_asym.
          -- apply (lectic_sub ms _ _ (Hcon Hne) H).
      + exfalso. pose proof H as (k & x & Hk & HxP & Hxa & Hagk).
        eapply (inner_min _ _ _ _ _ P k x HR (le_n _) Hac Hinner); try done. by eapply lookup_lt_Some.
  Qed.

  Lemma post_end1 R i : inv R M i → weak_post R.
  Proof.
    intros HI. split; [apply (inv_basis _ _ _ HI)|]. intros P HP HPm.
    destruct (lectic_total ms P M) as [->|[H|H]]; [done|done|..].
    - split.
      + intros H%(inv_lt _ _ _ HI). exfalso. by eapply lectic_irrefl.
      + intros [H _]. exfalso. apply H. apply set_eq. intros x. split.
        * apply (gr_ext _ _ Hcl). done.
        * apply (gr_sub _ _ Hcl). done.
    - by apply (inv_exact _ _ _ HI).
    - destruct (lectic_sub ms _ _ HP H).
  Qed.
  Lemma post_end2 R a i : inv R a i → a ≠ M → (cl a ∖ a) ∩ pre ms i = ∅ → cl a = M → weak_post (nb R a).
  Proof.
    intros HI HaM He HclM. pose proof (inv_sub _ _ _ HI) as Ha.
    split; [by eapply nb_basis|]. intros P HP HPm.
    destruct (lectic_total ms P a) as [E|[H|H]]; [done|done|..].
    1,2: apply (nb_exact R a i); auto.
    split; [intros H'; by eapply beyond_not_prem in H'|]. intros Hps. exfalso.
    pose proof (beyond_model R a i P HI HPm H Hps) as HPM.
    pose proof H as (k & x & Hk & HxP & Hxa & Hagk). destruct (decide (k < i)) as [Hki|Hki].
    - assert (x ∈ (cl a ∖ a) ∩ pre ms i) as Hx.
      { apply elem_of_intersection. split; [|apply elem_of_pre; eauto]. apply elem_of_difference.
        split; [|done]. rewrite HclM. by apply HP. }
      rewrite He in Hx. by apply elem_of_empty in Hx.
    - destruct (beyond_contains R a i P k x HI HP HPM Hk HxP Hxa Hagk ltac:(lia)) as [_ Hcon].
      assert (a ≠ cl a) as Hne by congruence. specialize (Hcon Hne). rewrite HclM in Hcon.
      assert (P = M) as -> by (apply set_eq; intros y; split; [apply HP|apply Hcon]). destruct Hps as [Hps _]. apply Hps.
      apply set_eq. intros y. split; [by apply (gr_ext _ _ Hcl)|by apply (gr_sub _ _ Hcl)].
  Qed.

  Theorem dg_weak_spec : (∃ C, close ∅ (Some L0) = Ok C ∧ is_closure L0 ∅ C) →
    ∃ R, generalized_compute_dg_basis ms aclose close (Some L0) (λ _, true) = Ok R ∧ weak_post R.
  Proof.
    intros (C & HC & HCc). unfold generalized_compute_dg_basis. rewrite HC. cbn [mbind res_bind].
    assert (basis_like []) as Hnil.
    { split; [by intros ? ?%elem_of_nil|]. constructor. }
    apply (dg_loop_rule ms Hms cl Hcl aclose Haclose close L0 (λ _, true) (λ R a i, inv R a i ∧ i ≤ n) weak_post).
    - intros R a i [HI Hi]. split; [apply (inv_sub _ _ _ HI)|done].
    - intros R a i [HI Hi]. apply basis_close_ok. by eapply nb_basis.
    - intros R a i b j [HI Hi] HaM Hne Hin. split; [by eapply inv_step1|].
      destruct Hin as (_ & ? & _). lia.
    - intros R a i b j [HI Hi] HaM He Hclne Hin. split; [by eapply inv_step2|].
      destruct Hin as (_ & ? & _). lia.
    - intros R i [HI _]. by eapply post_end1.
    - intros R a i [HI _] ???. by eapply post_end2.
    - split; [|done]. constructor.
      + done.
      + by intros P ?%elem_of_nil.
      + intros P HP HPm HPC. exfalso. eapply lectic_sub; [|apply HPC]. apply HCc; [|done]. clear. set_solver.
      + apply (basis_close_sub [] ∅); [done|clear; set_solver|done].
      + apply HCc.
      + by left.
    - lia.
  Qed.
End main.

Lemma weak_post_post ms cl L0 R : closure_op (list_to_set ms) cl → weak_post ms cl L0 R → post ms cl L0 R.
Proof.
  intros Hcl [HR H]. split; [done|]. intros P HP HPm. destruct (H P HP HPm) as [H1 H2]. split; [done|].
  intros Hps. destruct (H2 Hps) as [?|(Q & HQ & ->)]; [done|]. exfalso. destruct Hps as [Hps _]. apply Hps. symmetry.
  apply (cl_idem _ _ Hcl). apply elem_of_list_fmap in HQ as (i & -> & Hi). by apply HR.
Qed.
Theorem dg_basis_spec ms : NoDup ms → ∀ cl, closure_op (list_to_set ms) cl →
  ∀ aclose, (∀ X, X ⊆ list_to_set ms → aclose X = Ok (cl X)) → ∀ close L0, (∀ i, i ∈ L0 → i.2 ⊆ list_to_set ms) →
  (∀ R X, basis_like ms cl L0 R → X ⊆ list_to_set ms → ∃ C, close X (Some (R ++ L0)) = Ok C ∧ is_closure (R ++ L0) X C) →
  (∃ C, close ∅ (Some L0) = Ok C ∧ is_closure L0 ∅ C) →
  ∃ R, generalized_compute_dg_basis ms aclose close (Some L0) (λ _, true) = Ok R ∧ post ms cl L0 R.
Proof.
  intros Hms cl Hcl aclose Ha close L0 HL0 Hclose Hi.
  destruct (dg_weak_spec ms Hms cl (closure_growing _ _ Hcl) aclose Ha close L0 HL0 Hclose Hi) as (R & HR & Hp).
  exists R. split; [done|]. by apply weak_post_post.
Qed.
