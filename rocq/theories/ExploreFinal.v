(** * Attribute exploration with an expert: final lemmas *)
From Verif Require Import Py Spec PyFacts SpecFacts DgSpec ContextModel ContextSpec ContextOps ContextFacts ContextInit ContextMut ContextMisc ContextEffects
  ContextFinal ClosureModel ClosureFacts DgModel DgFacts DgMain DgCons DgCxt DgFinal AiModel ExplModel ExplSpec ExplFacts ExplDb ExplFinal FilterFacts
  ExploreModel ExploreSpec ExploreFacts.

Section start.
  Context (c0 : context) (Hg : good c0) (Hc : comparable (atts c0) = true).
  Local Notation M := (fM (abs c0)).
  Context (cl : gset name → gset name) (Hcl : closure_op M cl).
  Context (Hrows : ∀ g, g ∈ objs c0 → cl (up (abs c0) {[g]}) = up (abs c0) {[g]}).
  Context (L0 : list fimp) (HL0 : ∀ i, i ∈ L0 → i.1 ⊆ M ∧ i.2 ⊆ M) (HLs : ∀ i, i ∈ L0 → i.2 ⊆ cl i.1) (Hno : no_repeats L0).
  Context (Hob : objs c0 ≠ [] ∨ L0 = []).
  Local Lemma EM : M = list_to_set (atts c0).
  Proof. apply fM_ms. done. Qed.
  Local Lemma Hcl' : closure_op (list_to_set (atts c0)) cl.
  Proof. by rewrite <-EM. Qed.
  Local Lemma HL0' : ∀ i, i ∈ L0 → i.1 ⊆ list_to_set (atts c0) ∧ i.2 ⊆ (list_to_set (atts c0) : gset name).
  Proof. by rewrite <-EM. Qed.
  Local Lemma Hnd : NoDup (atts c0).
  Proof. apply Hg. Qed.
  Local Lemma start_inv : einv (atts c0) cl L0 c0 [].
  Proof. by apply start_einv. Qed.
  Local Lemma start_comp : computable (atts c0) c0 L0.
  Proof. destruct Hob; [by left|by right; left]. Qed.
  Lemma start_db ords : lists_sets ords → ∃ d, new_db ords c0 L0 (λ _, true) = Ok d ∧ dcxt d = c0 ∧ dstate (atts c0) cl L0 d [].
  Proof.
    intros Ho. destruct (comp_post (atts c0) Hnd Hc cl Hcl' L0 HL0' HLs ords c0 L0 Hg eq_refl HL0' Hno Ho start_comp) as (R & E & HR).
    unfold new_db. rewrite E. eexists. split; [done|]. split; [done|]. split; cbn; try done.
    - apply start_inv.
    - by rewrite app_nil_r.
    - apply start_comp.
  Qed.
  Lemma final_basis c Lc : good c → atts c = atts c0 → (objs c0 ≠ [] → objs c ≠ []) → post (atts c0) (acl (abs c)) L0 Lc →
    compute_dg_basis_simple c (Some L0) (λ _, true) = Ok Lc.
  Proof.
    intros Hg' Ha Hne Hp. destruct (dg_simple_post c Hg') with (L0 := L0) as (R & -> & HR).
    - by rewrite Ha.
    - intros i Hi. rewrite (fM_ms (atts c0) c Ha). by apply HL0'.
    - destruct Hob as [H|H]; [left; by apply Hne|by right].
    - f_equal. rewrite Ha in HR. by eapply post_unique.
  Qed.
  Definition keeps (c c' : context) : Prop :=
    ∃ es, objs c' = objs c ++ es ∧ ∀ g, g ∈ objs c → up (abs c') {[g]} = up (abs c) {[g]}.
  Lemma keeps_objs c c' : keeps c c' → objs c ≠ [] → objs c' ≠ [].
  Proof. intros (es & -> & _). by destruct (objs c). Qed.
  Lemma db_end d Lc : keeps c0 (dcxt d) → dstate (atts c0) cl L0 d Lc → dopen d = [] →
    good (dcxt d) ∧ atts (dcxt d) = atts c0 ∧ (∀ X, X ⊆ M → acl (abs (dcxt d)) X = cl X) ∧ dimps d = L0 ++ Lc ∧ (∀ i, i ∈ Lc → i.2 = cl i.1) ∧
    pseudo_family M cl L0 (λ P, P ∈ map fst Lc) ∧ StronglySorted (lectic (atts c0)) (map fst Lc) ∧
    compute_dg_basis_simple (dcxt d) (Some L0) (λ _, true) = Ok Lc.
  Proof.
    intros Hk [he hi _ _ _ hp] Ho. rewrite hi, Ho in hp.
    destruct (finished_exact (atts c0) cl Hcl' L0 HLs (dcxt d) Lc he hp) as (H1 & H2 & H3 & H4 & H5).
    rewrite EM. split; [apply he|]. split; [apply he|]. do 5 (split; [done|]). apply final_basis; [apply he|apply he|by apply keeps_objs|done].
  Qed.
  Lemma expert_exploration ords0 ords expert : lists_sets ords0 → (∀ k n, lists_sets (ords k n)) → truthful M cl expert →
    ∃ d d' R, new_db ords0 c0 L0 (λ _, true) = Ok d ∧
      (∀ fuel, 2 * 2 ^ length (atts c0) ≤ fuel → explore fuel 0 expert ords d = (d', Ok tt)) ∧
      dopen d' = [] ∧ keeps c0 (dcxt d') ∧
      good (dcxt d') ∧ atts (dcxt d') = atts c0 ∧ (∀ X, X ⊆ M → acl (abs (dcxt d')) X = cl X) ∧ dimps d' = L0 ++ R ∧ (∀ i, i ∈ R → i.2 = cl i.1) ∧
      pseudo_family M cl L0 (λ P, P ∈ map fst R) ∧ StronglySorted (lectic (atts c0)) (map fst R) ∧
      compute_dg_basis_simple (dcxt d') (Some L0) (λ _, true) = Ok R.
  Proof.
    intros Ho0 Ho Ht. destruct (start_db ords0 Ho0) as (d & E & Ec & Hs).
    destruct (explore_loop (atts c0) Hnd Hc cl Hcl' L0 HL0' HLs expert ords Ho (λ _, True)) with (n := 2 * 2 ^ length (atts c0)) (k := 0) (d := d) (Lc := @nil fimp)
      as (d' & Lc & E' & Ho' & Hs' & Hk); [|done|done|apply openness_bound; done|].
    - intros k d1 Lc P C R Hs1 _ E1.
      pose proof (dstate_question (atts c0) Hnd Hc cl Hcl' L0 HL0' _ _ _ _ _ Hs1 E1) as Hq.
      destruct (Ht k d1 (P, C)) as (a & Ea & Ha).
      + rewrite EM. apply Hq.
      + change (C ⊆ M). rewrite (q_cl _ _ _ _ _ _ Hq). rewrite EM, <-(fM_ms (atts c0) (dcxt d1)); [apply acl_sub|apply Hs1].
      + exists a. split; [done|]. split; [by rewrite <-EM|]. by destruct a.
    - exists d, d', Lc. split; [done|]. split; [done|]. split; [done|]. rewrite Ec in Hk. split; [exact Hk|]. by apply db_end.
  Qed.

  Lemma session_exploration x s person intent ords : xcxt x = c0 → xcur x = Some s → xbases x !! s = Some L0 →
    (∀ k n, lists_sets (ords k n)) → truthful_person M cl intent person →
    ∃ x' R, (∀ fuel, 2 * 2 ^ length (atts c0) ≤ fuel → x_explore fuel 0 person intent ords s x = (x', Ok tt)) ∧
      (∀ ords, lists_sets ords → x_candidates ords s x' = Ok []) ∧ keeps c0 (xcxt x') ∧
      (∀ t, t ≠ s → xbases x' !! t = xbases x !! t) ∧
      good (xcxt x') ∧ atts (xcxt x') = atts c0 ∧ (∀ X, X ⊆ M → acl (abs (xcxt x')) X = cl X) ∧ xbases x' !! s = Some (L0 ++ R) ∧ (∀ i, i ∈ R → i.2 = cl i.1) ∧
      pseudo_family M cl L0 (λ P, P ∈ map fst R) ∧ StronglySorted (lectic (atts c0)) (map fst R) ∧
      compute_dg_basis_simple (xcxt x') (Some L0) (λ _, true) = Ok R.
  Proof.
    intros Ec Hcur Hb Ho Ht. assert (xstate (atts c0) cl L0 s x []) as Hs.
    { split; rewrite ?Ec, ?app_nil_r; try done; [apply start_inv|apply start_comp]. }
    destruct (x_explore_loop (atts c0) Hnd Hc cl Hcl' L0 HL0' HLs person intent ords Ho) with (n := 2 * 2 ^ length (atts c0)) (k := 0) (s := s) (x := x) (Lc := @nil fimp)
      as (x' & Lc & E' & Hs' & Hp & Hbs & Hk); [by rewrite <-EM|done|apply openness_bound; done|].
    exists x', Lc. split; [done|]. split.
    { intros ords' Ho'. destruct (session_questions _ Hnd Hc _ Hcl' _ HL0' HLs _ _ _ _ Ho' Hs') as (R & -> & HR). f_equal. by eapply post_unique. }
    rewrite Ec in Hk. split; [exact Hk|]. split; [done|].
    destruct (finished_exact (atts c0) cl Hcl' L0 HLs (xcxt x') Lc (t_inv _ _ _ _ _ _ Hs') Hp) as (H1 & H2 & H3 & H4 & H5).
    rewrite EM. split; [apply Hs'|]. split; [apply Hs'|]. split; [done|]. split; [apply Hs'|]. do 3 (split; [done|]).
    apply final_basis; [apply Hs'|apply Hs'|by apply keeps_objs|done].
  Qed.

  (** The expert that knows a list of implications. *)
  Section generic.
    Context (E : list fimp) (HE : ∀ X, X ⊆ M → simple_closure X E = Ok (cl X)).
    Context (nm : nat → gset name → name) (Hinj : ∀ k k' X X', X ⊆ M → X' ⊆ M → nm k X = nm k' X' → X = X') (Hfresh : ∀ k X, X ⊆ M → nm k X ∉ objs c0).
    Lemma generic_exploration ords0 ords : lists_sets ords0 → (∀ k n, lists_sets (ords k n)) →
      ∃ d d' R, new_db ords0 c0 L0 (λ _, true) = Ok d ∧
        (∀ fuel, 2 * 2 ^ length (atts c0) ≤ fuel → explore fuel 0 (generic_expert nm E) ords d = (d', Ok tt)) ∧
        dopen d' = [] ∧ keeps c0 (dcxt d') ∧
        good (dcxt d') ∧ atts (dcxt d') = atts c0 ∧ (∀ X, X ⊆ M → acl (abs (dcxt d')) X = cl X) ∧ dimps d' = L0 ++ R ∧ (∀ i, i ∈ R → i.2 = cl i.1) ∧
        pseudo_family M cl L0 (λ P, P ∈ map fst R) ∧ StronglySorted (lectic (atts c0)) (map fst R) ∧
        compute_dg_basis_simple (dcxt d') (Some L0) (λ _, true) = Ok R.
    Proof.
      intros Ho0 Ho. destruct (start_db ords0 Ho0) as (d & Ed & Ec & Hs).
      set (J := λ d : edb, ∀ o, o ∈ objs (dcxt d) → o ∈ objs c0 ∨ ∃ k P, o = nm k P ∧ P ⊆ M ∧ acl (abs (dcxt d)) P ⊆ cl P).
      destruct (explore_loop (atts c0) Hnd Hc cl Hcl' L0 HL0' HLs (generic_expert nm E) ords Ho J) with (n := 2 * 2 ^ length (atts c0)) (k := 0) (d := d) (Lc := @nil fimp)
        as (d' & Lc & E' & Ho' & Hs' & Hk); [|done| |apply openness_bound; done|].
      - intros k d1 Lc P C R Hs1 HJ E1. pose proof (dstate_question (atts c0) Hnd Hc cl Hcl' L0 HL0' _ _ _ _ _ Hs1 E1) as Hq.
        assert (P ⊆ M) as HP by (rewrite EM; apply Hq). unfold generic_expert. cbn [fst]. rewrite (HE P HP). cbn [mbind res_bind].
        destruct (bool_decide (conclusion (P, C) ⊆ cl P)) eqn:B; [apply bool_decide_eq_true in B|apply bool_decide_eq_false in B].
        + exists Valid. split; [done|]. split.
          * cbn. intros m Hm. destruct (decide (m ∈ P)); [by apply (cl_ext _ _ Hcl)|]. apply B. by apply elem_of_difference.
          * intros d2 E2 o Hobj. rewrite E2 in *. by apply HJ.
        + exists (Counter [nm k P] [cl P]). split; [done|].
          assert (cl P ∩ list_to_set (atts c0) = cl P) as Ei.
          { rewrite <-EM. pose proof (cl_sub _ _ Hcl P HP). set_solver. }
          split.
          * split; [apply NoDup_singleton|]. split.
            { intros o ->%elem_of_list_singleton Hn. destruct (HJ _ Hn) as [H|(k' & P' & E2 & HP' & H)]; [by apply (Hfresh k P)|].
              apply Hinj in E2 as <-; [|done|done]. apply B. intros m [Hm _]%elem_of_difference. apply H. cbn in Hm. by rewrite <-(q_cl _ _ _ _ _ _ Hq). }
            split; [done|]. split.
            { intros X ->%elem_of_list_singleton. rewrite Ei. by apply (cl_idem _ _ Hcl). }
            eexists _, []. split; [done|]. intros Hr. apply B. intros m [Hm _]%elem_of_difference. apply (Hr (cl_ext _ _ Hcl P HP)). done.
          * intros d2 Hx o Hobj. rewrite (x_objs _ _ _ _ _ Hx) in Hobj. assert (atts (dcxt d1) = atts c0) as Ha1 by apply Hs1.
            assert (∀ Q, Q ⊆ M → acl (abs (dcxt d2)) Q ⊆ acl (abs (dcxt d1)) Q) as Hshrink.
            { intros Q HQ. eapply (extends_acl (atts c0)); [done|done|by rewrite <-EM]. }
            apply elem_of_app in Hobj as [Hobj|Hobj]; [|apply elem_of_list_singleton in Hobj as ->].
            { destruct (HJ o Hobj) as [H|(k' & P' & E2 & HP' & H)]; [by left|]. right. exists k', P'. split; [done|]. split; [done|].
              etrans; [by apply Hshrink|done]. }
            right. exists k, P. split; [done|]. split; [done|]. intros m Hm.
            apply (elem_of_acl (atts c0)) in Hm as [_ Hm]; [|apply Hx|by rewrite <-EM].
            assert (up (abs (dcxt d2)) {[nm k P]} = cl P) as Eup.
            { rewrite (x_new _ _ _ _ _ Hx 0 (nm k P) (cl P) eq_refl eq_refl). apply Ei. }
            rewrite <-Eup. apply Hm; [rewrite (x_objs _ _ _ _ _ Hx); apply elem_of_app; right; left|]. rewrite Eup. by apply (cl_ext _ _ Hcl).
      - intros o Hobj. left. by rewrite <-Ec.
      - exists d, d', Lc. split; [done|]. split; [done|]. split; [done|]. rewrite Ec in Hk. split; [exact Hk|]. by apply db_end.
    Qed.
  End generic.
End start.

(** ** Entailment instead of closures *)
Definition cl_of (E : list fimp) (X : gset name) : gset name := match simple_closure X E with Ok C => C | Err _ => X end.
Section implications.
  Context (M : gset name) (E : list fimp) (HE : ∀ i, i ∈ E → i.1 ⊆ M ∧ i.2 ⊆ M) (Hh : ∀ i, i ∈ E → hashable i = true).
  Lemma cl_of_spec X : simple_closure X E = Ok (cl_of E X) ∧ is_closure E X (cl_of E X).
  Proof. unfold cl_of. destruct (simple_closure_spec X E Hh) as (C & -> & HC). done. Qed.
  Lemma cl_of_op : closure_op M (cl_of E).
  Proof.
    split.
    - intros X _. apply cl_of_spec.
    - intros X Y HXY _. destruct (cl_of_spec X) as [_ (_ & _ & H)], (cl_of_spec Y) as [_ (h1 & h2 & _)]. apply H; [set_solver|done].
    - intros X _. destruct (cl_of_spec (cl_of E X)) as [_ (h1 & _ & H)], (cl_of_spec X) as [_ (_ & h2 & _)].
      apply (anti_symm (⊆)); [by apply H|done].
    - intros X HX. destruct (cl_of_spec X) as [_ (_ & _ & H)]. apply H; [done|]. intros i Hi _. by apply HE.
  Qed.
  Lemma entails_cl_of i : entails E i ↔ i.2 ⊆ cl_of E i.1.
  Proof.
    destruct (cl_of_spec i.1) as [_ (h1 & h2 & h3)]. split.
    - intros H. apply (H (cl_of E i.1)); done.
    - intros H X HX Hi. etrans; [exact H|]. by apply h3.
  Qed.
  Lemma model_cl_of X : cl_of E X = X ↔ model_of E X.
  Proof.
    destruct (cl_of_spec X) as [_ (h1 & h2 & h3)]. split; [by intros <-|]. intros H. apply (anti_symm (⊆)); [by apply h3|done].
  Qed.
End implications.
Lemma holds_acl K i : i.1 ⊆ fM K → i.2 ⊆ fM K → holds K i ↔ i.2 ⊆ acl K i.1.
Proof.
  intros H1 H2. unfold acl. split.
  - intros H m Hm. apply elem_of_up. split; [by apply H2|]. intros g [Hg HgX]%elem_of_down. apply (H g Hg); [|done]. intros m' Hm'. by apply HgX.
  - intros H g Hg Hp m Hm. apply H, elem_of_up in Hm as [_ Hm]. apply Hm. apply elem_of_down. split; [done|]. intros m' Hm'. by apply Hp.
Qed.
Lemma basis_entails M cl L R i : closure_op M cl → (∀ j, j ∈ L → j.1 ⊆ M ∧ j.2 ⊆ M) → (∀ j, j ∈ L → j.2 ⊆ cl j.1) → (∀ j, j ∈ R → j.2 = cl j.1) →
  pseudo_family M cl L (λ P, P ∈ map fst R) → i.1 ⊆ M → i.2 ⊆ M → entails (L ++ R) i ↔ i.2 ⊆ cl i.1.
Proof.
  intros Hcl HL HLs HR HF H1 H2. split.
  - intros H. assert (cl i.1 ⊆ M) by by apply (cl_sub _ _ Hcl). apply (H (cl i.1)); [|by apply (cl_ext _ _ Hcl)].
    intros j Hj Hp. rewrite <-(cl_idem _ _ Hcl i.1 H1). assert (j.2 ⊆ cl j.1) as Hc.
    { apply elem_of_app in Hj as [Hj|Hj]; [by apply HLs|]. by rewrite (HR j Hj). }
    etrans; [exact Hc|]. by apply (cl_mono _ _ Hcl).
  - intros H X HX Hi. (* the closed sets within M are the models *)
    assert (∀ Y, Y ⊆ M → (∀ j, j ∈ L ++ R → respects Y j) → cl Y = Y) as Hmod.
    { intros Y HY Hm. destruct (decide (Y = cl Y)) as [|Hne]; [done|]. exfalso. assert (Y ∈ map fst R) as HP.
      { apply HF. split; [done|]. split; [intros j Hj; apply Hm, elem_of_app; by left|]. split; [done|]. intros Q HQ HQY.
        apply elem_of_list_fmap in HQ as ([Q' C] & -> & HQ). cbn in *. pose proof (HR _ HQ) as E. cbn in E. rewrite <-E.
        apply (Hm (Q', C)); [apply elem_of_app; by right|]. cbn. set_solver. }
      apply elem_of_list_fmap in HP as ([Q' C] & -> & HQ). pose proof (HR _ HQ) as E. cbn in *. apply Hne. apply (anti_symm (⊆)); [by apply (cl_ext _ _ Hcl)|].
      rewrite <-E. apply (Hm (Q', C)); [apply elem_of_app; by right|]. done. }
    assert (cl (X ∩ M) = X ∩ M) as Ecl.
    { apply Hmod; [set_solver|]. intros j Hj Hp. assert (j.2 ⊆ M) as HjM.
      { apply elem_of_app in Hj as [Hj|Hj]; [by apply HL|]. rewrite (HR j Hj). apply (cl_sub _ _ Hcl). set_solver. }
      assert (j.2 ⊆ X) by (apply (HX j Hj); set_solver). set_solver. }
    assert (cl i.1 ⊆ cl (X ∩ M)) by (apply (cl_mono _ _ Hcl); set_solver). rewrite Ecl in *. set_solver.
Qed.

Lemma generic_expert_exploration c0 E L0 nm ords0 ords : good c0 → comparable (atts c0) = true → objs c0 ≠ [] ∨ L0 = [] →
  (∀ i, i ∈ E → i.1 ⊆ fM (abs c0) ∧ i.2 ⊆ fM (abs c0)) → (∀ i, i ∈ E → holds (abs c0) i) →
  (∀ i, i ∈ L0 → i.1 ⊆ fM (abs c0) ∧ i.2 ⊆ fM (abs c0)) → (∀ i, i ∈ L0 → entails E i) → no_repeats L0 →
  (∀ k k' X X', X ⊆ fM (abs c0) → X' ⊆ fM (abs c0) → nm k X = nm k' X' → X = X') → (∀ k X, X ⊆ fM (abs c0) → nm k X ∉ objs c0) →
  lists_sets ords0 → (∀ k n, lists_sets (ords k n)) →
  ∃ d d' R, new_db ords0 c0 L0 (λ _, true) = Ok d ∧
    (∀ fuel, 2 * 2 ^ length (atts c0) ≤ fuel → explore fuel 0 (generic_expert nm E) ords d = (d', Ok tt)) ∧
    dopen d' = [] ∧ keeps c0 (dcxt d') ∧ good (dcxt d') ∧ atts (dcxt d') = atts c0 ∧ dimps d' = L0 ++ R ∧
    (∀ i, i.1 ⊆ fM (abs c0) → i.2 ⊆ fM (abs c0) → (holds (abs (dcxt d')) i ↔ entails E i) ∧ (entails (dimps d') i ↔ entails E i)) ∧
    (∀ S, (∀ i, i ∈ S → i.1 ⊆ fM (abs c0) ∧ i.2 ⊆ fM (abs c0) ∧ entails E i) →
       (∀ i, i ∈ E → entails (S ++ L0) i) → length R ≤ length S).
Proof.
  intros Hg Hc Hob HE Hrows HL0 HLs Hno Hinj Hfr Ho0 Ho.
  assert (∀ i, i ∈ E → hashable i = true) as Hh.
  { intros i Hi. destruct (HE i Hi). by apply (hashable_sub c0 Hc). }
  pose proof (cl_of_op (fM (abs c0)) E HE Hh) as Hcl.
  assert (∀ i, i ∈ L0 → i.2 ⊆ cl_of E i.1) as HLs'.
  { intros i Hi. by apply entails_cl_of, HLs. }
  destruct (generic_exploration c0 Hg Hc (cl_of E) Hcl) with (L0 := L0) (E := E) (nm := nm) (ords0 := ords0) (ords := ords)
    as (d & d' & R & H1 & H2 & H3 & H4 & Hg' & H5 & H6 & H7 & H8 & H9 & H10 & H11); try done.
  - intros g Hgo. apply model_cl_of; [done|]. intros i Hi Hp m Hm. destruct (HE i Hi) as [_ HM]. apply elem_of_up. split; [by apply HM|].
    intros g' ->%elem_of_singleton. apply (Hrows i Hi g); [by apply in_objs| |done]. intros m' Hm'. apply Hp, elem_of_up in Hm' as [_ Hm'].
    apply Hm'. by apply elem_of_singleton.
  - intros X _. by apply cl_of_spec.
  - exists d, d', R. do 7 (split; [done|]). assert (fM (abs (dcxt d')) = fM (abs c0)) as EM'.
    { by rewrite (fM_ms _ _ H5), (fM_ms _ c0 eq_refl). }
    assert (∀ i, i.1 ⊆ fM (abs c0) → i.2 ⊆ fM (abs c0) → holds (abs (dcxt d')) i ↔ entails E i) as Hh1.
    { intros i h1 h2. rewrite holds_acl by by rewrite EM'. rewrite H6 by done. by rewrite entails_cl_of. }
    split.
    + intros i h1 h2. split; [by apply Hh1|]. rewrite H7, (entails_cl_of E Hh i). by eapply basis_entails.
    + intros S HS HC. apply (dg_minimum (dcxt d')) with (L0 := L0).
      * done.
      * by rewrite H5.
      * by rewrite EM'.
      * destruct Hob as [H|H]; [left; by eapply keeps_objs|by right].
      * done.
      * rewrite EM'. intros i Hi. destruct (HS i Hi) as (h1 & h2 & h3). split; [done|]. split; [done|]. by apply Hh1.
      * rewrite EM'. intros i h1 h2 Hi X HX. apply Hh1 in Hi; [|done|done]. apply Hi. intros j Hj. by apply (HC j Hj).
Qed.
