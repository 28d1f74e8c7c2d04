(** * The Duquenne-Guigues basis of a context *)
From Verif Require Import Py Spec PyFacts SpecFacts DgSpec ContextModel ContextSpec ContextOps ContextFacts ContextReduce
  ClosureModel ClosureFacts DgModel DgFacts DgMain DgCons.

Lemma acl_closure_op K : closure_op (fM K) (acl K).
Proof.
  constructor.
  - apply acl_ext.
  - intros X Y HXY _. by apply acl_mono.
  - apply acl_idem.
  - intros X _. apply acl_sub.
Qed.

Lemma comparable_sub l k : (∀ x, x ∈ k → x ∈ l) → comparable l = true → comparable k = true.
Proof. rewrite !comparable_spec. intros H [H'|H']; [left|right]; auto. Qed.

Lemma list_to_set_nil (l : list name) : (list_to_set l : gset name) = ∅ → l = [].
Proof. destruct l as [|x l]; [done|]. intros E. exfalso. apply (not_elem_of_empty (C:=gset name) x). rewrite <-E. simpl. set_solver. Qed.

Section cxt.
  Context (c : context) (Hg : good c) (Hcmp : comparable (atts c) = true).
  Local Notation K := (abs c).
  Local Notation M := (list_to_set (atts c) : gset name).

  Lemma sub_elements X : X ⊆ M → ∀ x, x ∈ elements X → x ∈ atts c.
  Proof. intros HX x Hx%elem_of_elements%HX. by apply elem_of_list_to_set in Hx. Qed.
  Lemma py_sorted_set X : X ⊆ M → ∃ k, py_sorted (elements X) = Ok k ∧ list_to_set k = X.
  Proof.
    intros HX. destruct (py_sorted_final (elements X)) as [H _].
    destruct H as (k & Hk & Hp & _); [by eapply comparable_sub, Hcmp; apply sub_elements|].
    exists k. split; [done|]. apply set_eq. intros x. rewrite elem_of_list_to_set, Hp. apply elem_of_elements.
  Qed.
  Lemma cxt_aclose_spec X : objs c ≠ [] → X ⊆ M → cxt_aclose c X = Ok (acl K X).
  Proof.
    intros Hne HX. unfold cxt_aclose.
    destruct (fn_aclosure_sorted c (elements X) Hg Hne (sub_elements X HX)) as (Y & HY & ->).
    rewrite aclosure_spec in HY; [|apply Hg..|by apply sub_elements]. rewrite list_to_set_elements_L in HY.
    injection HY as <-. destruct (py_sorted_set (acl K X)) as (k & -> & Hk); [apply acl_sub|].
    simpl. by rewrite Hk.
  Qed.
  (** Works without objects too. *)
  Lemma cxt_aclose_empty : cxt_aclose c ∅ = Ok (acl K ∅).
  Proof.
    unfold cxt_aclose, fn_aclosure. rewrite elements_empty, fn_aprime_nil. cbn [mbind res_bind].
    rewrite fn_oprime_spec; [|done|].
    2: { intros x Hx%elem_of_elements. by apply elem_of_list_to_set in Hx. }
    cbn [mbind res_bind]. rewrite list_to_set_elements_L.
    assert (acl K ∅ = up K (list_to_set (objs c))) as ->.
    { unfold acl. by rewrite down_empty. }
    destruct (py_sorted_set (up K (list_to_set (objs c)))) as (k & -> & Hk); [apply up_sub|]. simpl. by rewrite Hk.
  Qed.

  Lemma hashable_sub (i : fimp) : i.1 ⊆ M → i.2 ⊆ M → hashable i = true.
  Proof.
    intros H1 H2. apply hashable_final. apply comparable_spec in Hcmp.
    assert (∀ x, x ∈ M → x ∈ atts c) as H by (intros x; by rewrite elem_of_list_to_set).
    destruct Hcmp as [Hc|Hc].
    - split; left; eauto.
    - split; right; eauto.
  Qed.

  Context (L0 : list fimp) (HL0 : ∀ i, i ∈ L0 → i.2 ⊆ M) (Hh0 : ∀ i, i ∈ L0 → hashable i = true).
  Definition imps_over (R : list fimp) : Prop := ∀ i, i ∈ R → i.1 ⊆ M ∧ i.2 ⊆ M.
  Lemma over_hashable R : imps_over R → ∀ i, i ∈ R ++ L0 → hashable i = true.
  Proof.
    intros HR i [Hi|Hi]%elem_of_app; [|by apply Hh0]. destruct (HR i Hi). by apply hashable_sub.
  Qed.
  Lemma basis_over R : basis_like (atts c) (acl K) L0 R → imps_over R.
  Proof. intros [HR _] i Hi. destruct (HR i Hi) as (H1 & -> & _). split; [done|]. apply acl_sub. Qed.

  Lemma simple_close_ok R X : imps_over R →
    ∃ C, simple_close X (Some (R ++ L0)) = Ok C ∧ is_closure (R ++ L0) X C.
  Proof. intros HR. apply simple_closure_spec, over_hashable, HR. Qed.
  Context (ords : gset name → list fimp → nat → gset name → list name)
          (Hords : ∀ s L k X, ords s L k X ≡ₚ elements X).
  Lemma lin_close_ok R X : NoDup (map ikey L0) → basis_like (atts c) (acl K) L0 R →
    ∃ C, lin_close ords X (Some (R ++ L0)) = Ok C ∧ is_closure (R ++ L0) X C.
  Proof.
    intros Hnd HR. apply lin_closure_spec; [intros k Y; apply Hords| |by apply over_hashable, basis_over].
    pose proof HR as [HR1 HR2].
    rewrite map_app. apply NoDup_app. split; [|split; [|done]].
    - assert (NoDup (map fst R)) as Hnd'.
      { clear -HR2. induction HR2 as [|P l HS IH HP]; [constructor|]. constructor; [|done].
        intros H. rewrite Forall_forall in HP. by eapply lectic_irrefl, HP. }
      apply (NoDup_fmap_1 fst). change (fst <$> map ikey R) with (map fst (map ikey R)). rewrite map_map. exact Hnd'.
    - intros k (i & -> & Hi)%elem_of_list_fmap (j & E & Hj)%elem_of_list_fmap.
      destruct (HR1 i Hi) as (H1 & H2 & H3 & H4). injection E as E1 E2. unfold conclusion in E2.
      apply H3. apply set_eq. intros x. split; [by apply acl_ext|]. intros Hx.
      destruct (decide (x ∈ i.1)); [done|]. assert (x ∈ i.2 ∖ i.1) as Hx'.
      { rewrite H2. by apply elem_of_difference. }
      rewrite E2 in Hx'. apply elem_of_difference in Hx' as [Hx' _].
      apply (H4 j Hj); [by rewrite E1|done].
  Qed.

  (** A context without objects: the loop body runs once. *)
  Lemma dg_no_objects aclose (close : closer) cond : aclose ∅ = Ok M → cond ∅ = true → atts c ≠ [] →
    close ∅ (Some []) = Ok ∅ →
    (∀ X, X ⊆ M → ∃ C, close X (Some [(∅, M) : fimp]) = Ok C ∧ is_closure [(∅, M)] X C) →
    generalized_compute_dg_basis (atts c) aclose close (Some []) cond = Ok [(∅, M)].
  Proof.
    intros Ha Hc Hne Hcl0 Hcl. assert (NoDup (atts c)) as Hnd by apply Hg.
    unfold generalized_compute_dg_basis. rewrite Hcl0. cbn [mbind res_bind].
    assert (0 < length (atts c)) as Hlen by (destruct (atts c); [done|simpl; lia]).
    assert (M ≠ ∅) as HM. { intros E. by apply Hne, list_to_set_nil. }
    assert (∀ X C, X ⊆ M → is_closure [(∅, M)] X C → C = M) as HCM.
    { intros X C HX (H1 & H2 & H3). apply set_eq. intros x. split.
      - apply H3; [done|]. intros i ->%elem_of_list_singleton _. done.
      - apply (H2 (∅, M)); [by left|]. clear. set_solver. }
    pose proof (rank_lt (atts c) ∅) as Hpow.
    destruct (2 ^ length (atts c)) as [|fuel]; [lia|].
    cbn [dg_loop]. rewrite size_empty, (proj2 (Nat.ltb_lt _ _) Hlen). rewrite Ha. cbn [mbind res_bind].
    rewrite !(bool_decide_true (∅ ≠ list_to_set (atts c))) by done. rewrite Hc. cbn [andb app].
    rewrite (pre_all (atts c)).
    rewrite bool_decide_true by (intros E; apply HM; rewrite <-E; clear; set_solver).
    destruct (dg_inner_spec (atts c) Hnd close [] [(∅, M)] ∅ (∅ ∖ suf (atts c) (length (atts c))) (length (atts c)))
      as (b & j & -> & Hin).
    - intros X HX. simpl. destruct (Hcl X HX) as (C & HC & HCc). exists C. split; [done|].
      rewrite (HCM X C HX HCc). done.
    - done.
    - clear. set_solver.
    - clear. set_solver.
    - exists 0. destruct (atts c) as [|m l] eqn:E; [done|]. exists m. split; [simpl; lia|]. split; [done|].
      clear. set_solver.
    - cbn [mbind res_bind].
      assert (b = M) as ->.
      { destruct Hin as (m & _ & Hm & _ & Hb & _).
        assert (∅ ∩ pre (atts c) j ∪ {[m]} ⊆ M) as HX.
        { assert (m ∈ M) by (apply elem_of_list_to_set; by eapply elem_of_list_lookup_2). clear -H. set_solver. }
        destruct (Hcl _ HX) as (C & HC & HCc). simpl in Hb. rewrite HC in Hb. injection Hb as <-.
        by eapply HCM. }
      destruct fuel; cbn [dg_loop]; rewrite size_M, Nat.ltb_irrefl by done; done.
  Qed.

  Lemma dg_cxt_spec (close : closer) : (objs c ≠ [] ∨ L0 = []) →
    (∀ R X, basis_like (atts c) (acl K) L0 R → X ⊆ M →
       ∃ C, close X (Some (R ++ L0)) = Ok C ∧ is_closure (R ++ L0) X C) →
    ∃ R, generalized_compute_dg_basis (atts c) (cxt_aclose c) close (Some L0) (λ _, true) = Ok R ∧
         post (atts c) (acl K) L0 R.
  Proof.
    intros Hno Hclose. assert (NoDup (atts c)) as Hnd by apply Hg.
    assert (∃ C, close ∅ (Some L0) = Ok C ∧ is_closure L0 ∅ C) as Hinit.
    { apply (Hclose [] ∅); [|clear; set_solver]. split; [by intros ? ?%elem_of_nil|constructor]. }
    destruct (decide (objs c = [])) as [He|Hne].
    - destruct Hno as [?|EL0]; [done|].
      destruct (dg_basis_spec (atts c) Hnd (acl K) (acl_closure_op K) (λ X, Ok (acl K X)) (λ _ _, eq_refl) close L0 HL0 Hclose Hinit)
        as (R & HR & Hpost).
      exists R. split; [|done]. rewrite <-HR. rewrite EL0 in Hinit, Hclose |- *. clear HR Hpost.
      assert (∀ X, X ⊆ M → acl K X = M) as HaclM.
      { intros X HX. unfold acl. assert (down K X = ∅) as ->.
        { apply set_eq. intros g. rewrite elem_of_down, elem_of_fG, He, elem_of_nil. clear. set_solver. }
        rewrite up_empty. done. }
      destruct Hinit as (C & HC & HCc).
      assert (C = ∅) as ->.
      { apply (is_closure_unique _ _ _ _ HCc). apply is_closure_model. by intros ? ?%elem_of_nil. }
      destruct (decide (atts c = [])) as [Ea|Ea].
      { unfold generalized_compute_dg_basis. rewrite HC, Ea. done. }
      assert (M ≠ ∅) as HM. { intros E. by apply Ea, list_to_set_nil. }
      assert (∀ X, X ⊆ M → ∃ C, close X (Some [(∅, M) : fimp]) = Ok C ∧ is_closure [(∅, M)] X C) as Hcl1.
      { intros X HX. apply (Hclose [(∅, M)] X); [|done]. split.
        - intros i ->%elem_of_list_singleton. cbn. rewrite HaclM by (clear; set_solver).
          split; [clear; set_solver|]. split; [done|]. split; [done|]. by intros ? ?%elem_of_nil.
        - constructor; constructor. }
      rewrite !dg_no_objects; try done.
      + by rewrite HaclM by (clear; set_solver).
      + rewrite cxt_aclose_empty. by rewrite HaclM by (clear; set_solver).
    - apply (dg_basis_spec (atts c) Hnd (acl K) (acl_closure_op K)); [|done|done|done].
      intros X HX. by apply cxt_aclose_spec.
  Qed.
End cxt.

(** ** An arbitrary filter *)
Section filter.
  Context (ms : list name) (Hms : NoDup ms).
  Local Notation M := (list_to_set ms : gset name).
  Context (cl : gset name → gset name) (Hcl : growing_op M cl).
  Context (aclose : gset name → res (gset name)) (Haclose : ∀ X, X ⊆ M → aclose X = Ok (cl X)).
  Context (close : closer) (L0 : list fimp) (cond : gset name → bool).
  Definition filtered (R : list fimp) : Prop :=
    (∀ i, i ∈ R → i.1 ⊆ M ∧ i.2 = cl i.1 ∧ i.1 ≠ cl i.1 ∧ cond i.1 = true) ∧
    StronglySorted (lectic ms) (map fst R).
  Context (Hclose : ∀ R, filtered R → close_ok ms close L0 R).
  Definition inv_filtered (R : list fimp) (a : gset name) (i : nat) : Prop :=
    filtered R ∧ (∀ P, P ∈ map fst R → lectic ms P a) ∧ a ⊆ M ∧ i ≤ length ms.

  Lemma filtered_next R a i : inv_filtered R a i → filtered (next_basis cl cond R a) ∧
    ∀ P, P ∈ map fst (next_basis cl cond R a) → lectic ms P a ∨ P = a.
  Proof.
    intros ([HR HS] & Hlt & Ha & Hi). unfold next_basis.
    destruct (bool_decide (a ≠ cl a)) eqn:E1, (cond a) eqn:E2; cbn [andb].
    2,3,4: split; [done|]; intros P HP; left; by apply Hlt.
    apply bool_decide_eq_true in E1. split; [split|].
    - intros j [Hj| ->%elem_of_list_singleton]%elem_of_app; [by apply HR|]. done.
    - rewrite map_app. by apply StronglySorted_snoc.
    - intros P. rewrite map_app. intros [HP| ->%elem_of_list_singleton]%elem_of_app; [left; by apply Hlt|by right].
  Qed.
  Lemma filtered_step R a i b j : inv_filtered R a i → lectic ms a b → b ⊆ M → j < length ms →
    inv_filtered (next_basis cl cond R a) b j.
  Proof.
    intros HI Hab Hb Hj. destruct (filtered_next _ _ _ HI) as [Hf Hp]. split; [done|]. split; [|split; [done|lia]].
    intros P HP. destruct (Hp P HP) as [H| ->]; [by eapply lectic_trans|done].
  Qed.
  Lemma dg_filtered : (∃ C, close ∅ (Some L0) = Ok C ∧ C ⊆ M) →
    ∃ R, generalized_compute_dg_basis ms aclose close (Some L0) cond = Ok R ∧ filtered R.
  Proof.
    intros (C & HC & HCM). unfold generalized_compute_dg_basis. rewrite HC. cbn [mbind res_bind].
    apply (dg_loop_rule ms Hms cl Hcl aclose Haclose close L0 cond inv_filtered filtered).
    - intros R a i (_ & _ & ? & ?). done.
    - intros R a i HI. apply Hclose. by apply (filtered_next _ _ _ HI).
    - intros R a i b j HI HaM Hne Hin. pose proof HI as (_ & _ & Ha & Hi).
      assert (a ∩ pre ms i ⊆ M) as Hai by (clear -Ha; set_solver).
      destruct (filtered_next _ _ _ HI) as [Hf _].
      destruct (inner_progress ms close L0 _ _ _ _ _ (Hclose _ Hf) Hi Hai Hin) as (Hj & Hbm & Hag & m & Hm & Hmb & Hma).
      assert (j < i) as Hji by (destruct Hin as (? & ? & _); done).
      apply (filtered_step R a i); [done| |done|done].
      exists j, m. split; [done|]. split; [done|]. split.
      * intros Hm'. apply Hma, elem_of_intersection. split; [done|]. by apply (pre_index ms Hms j m).
      * intros k x Hk Hx. rewrite <-(Hag k x Hk Hx), elem_of_intersection, (pre_index ms Hms k x i Hx).
        split; [intros; split; [done|lia]|tauto].
    - intros R a i b j HI HaM He Hne Hin. pose proof HI as (_ & _ & Ha & Hi).
      pose proof (gr_sub _ _ Hcl a Ha) as Hac.
      destruct (filtered_next _ _ _ HI) as [Hf _].
      destruct (inner_progress ms close L0 _ _ _ _ _ (Hclose _ Hf) (le_n _) Hac Hin) as (Hj & Hbm & Hag & m & Hm & Hmb & Hma).
      apply (filtered_step R a i); [done| |done|done].
      assert (lectic ms (cl a) b) as Hlt by (by exists j, m).
      destruct (lectic_total ms a (cl a)) as [E|[H|H]]; [done|done|by rewrite E|by eapply lectic_trans|].
      destruct (lectic_sub ms _ _ (gr_ext _ _ Hcl a Ha) H).
    - by intros R i (HR & _).
    - intros R a i HI _ _ _. by apply (filtered_next _ _ _ HI).
    - split; [split; [by intros ? ?%elem_of_nil|constructor]|]. split; [by intros ? ?%elem_of_nil|done].
    - lia.
  Qed.
End filter.

(** ** The iterator yields what the function returns *)
Section iter.
  Context (ms : list name) (aclose : gset name → res (gset name)) (close : closer)
          (L0 : option (list fimp)) (cond : gset name → bool).
  Lemma dg_iter_loop_spec fuel R a i out e : dg_iter_loop ms aclose close L0 cond fuel R a i = (out, e) →
    dg_loop ms aclose close L0 cond fuel R a i = match e with Ok _ => Ok (R ++ out) | Err e => Err e end.
  Proof.
    revert R a i out e. induction fuel as [|fuel IH]; intros R a i out e; cbn [dg_iter_loop dg_loop].
    { destruct (size a <? length ms); intros [= <- <-]; [done|]. by rewrite app_nil_r. }
    destruct (size a <? length ms); [|intros [= <- <-]; by rewrite app_nil_r].
    destruct (aclose a) as [ac|err]; cbn [mbind res_bind]; [|by intros [= <- <-]].
    set (o := if bool_decide (a ≠ ac) && cond a then [(a, ac)] else []).
    assert ((if bool_decide (a ≠ ac) && cond a then R ++ [(a, ac)] else R) = R ++ o) as ->.
    { unfold o. destruct (bool_decide (a ≠ ac) && cond a); [done|]. by rewrite app_nil_r. }
    assert (∀ a1 i1, match dg_inner ms close L0 (R ++ o) a1 i1 with
       | Err e => (o, Err e)
       | Ok (a2, oj) => let '(rest, e) := dg_iter_loop ms aclose close L0 cond fuel (R ++ o) a2 (default i1 oj) in (o ++ rest, e)
       end = (out, e) →
       ('(a2, oj) ← dg_inner ms close L0 (R ++ o) a1 i1;
        dg_loop ms aclose close L0 cond fuel (R ++ o) a2 (default i1 oj)) =
       match e with Ok _ => Ok (R ++ out) | Err e => Err e end) as Hnext.
    { intros a1 i1. destruct (dg_inner ms close L0 (R ++ o) a1 i1) as [[a2 oj]|err]; cbn [mbind res_bind].
      - destruct (dg_iter_loop _ _ _ _ _ _ _ a2 _) as [rest e'] eqn:E. intros [= <- <-].
        apply IH in E. rewrite E. destruct e'; [|done]. by rewrite app_assoc.
      - by intros [= <- <-]. }
    case_bool_decide; [apply Hnext|].
    destruct (size ac =? length ms); [by intros [= <- <-]|]. apply Hnext.
  Qed.
  Lemma dg_iter_spec out e : generalized_dg_basis_iter ms aclose close L0 cond = (out, e) →
    generalized_compute_dg_basis ms aclose close L0 cond = match e with Ok _ => Ok out | Err e => Err e end.
  Proof.
    unfold generalized_dg_basis_iter, generalized_compute_dg_basis.
    destruct (close ∅ L0) as [a|err]; cbn [mbind res_bind]; [|by intros [= <- <-]].
    intros H%dg_iter_loop_spec. rewrite H. done.
  Qed.
End iter.
