(** * Consequences of the exact characterisation: completeness, irredundancy, minimality *)
From Verif Require Import Py Spec PyFacts SpecFacts DgSpec ContextModel ClosureModel ClosureFacts DgModel DgFacts DgMain.

Section cons.
  Context (ms : list name).
  Local Notation M := (list_to_set ms : gset name).
  Context (cl : gset name → gset name) (Hcl : closure_op M cl) (L0 : list fimp) (R : list fimp).
  Context (Hpost : post ms cl L0 R).
  Local Notation prem := (map fst R).

  Lemma post_elem i : i ∈ R → i.1 ⊆ M ∧ i.2 = cl i.1 ∧ i.1 ≠ cl i.1 ∧ model_of L0 i.1.
  Proof. destruct Hpost as [[H _] _]. apply H. Qed.
  Lemma post_prem P : P ∈ prem ↔ (P, cl P) ∈ R.
  Proof.
    rewrite elem_of_list_fmap. split.
    - intros ([P' C] & -> & Hi). destruct (post_elem _ Hi) as (_ & E & _). simpl in *. by subst C.
    - intros Hi. by exists (P, cl P).
  Qed.
  Lemma post_pseudo P : P ∈ prem ↔
    P ⊆ M ∧ model_of L0 P ∧ P ≠ cl P ∧ ∀ Q, Q ∈ prem → Q ⊂ P → cl Q ⊆ P.
  Proof.
    destruct Hpost as [_ H]. split.
    - intros HP. pose proof HP as HP'%post_prem. destruct (post_elem _ HP') as (H1 & _ & _ & H3).
      split; [done|]. split; [done|]. by apply H.
    - intros (H1 & H2 & H3). by apply H.
  Qed.
  Lemma post_family : pseudo_family M cl L0 (λ P, P ∈ prem).
  Proof. exact post_pseudo. Qed.
  Lemma post_complete X : X ⊆ M → model_of (R ++ L0) X → X = cl X.
  Proof.
    intros HX Hm. destruct (decide (X = cl X)) as [|Hne]; [done|].
    apply model_of_app in Hm as [Hm Hm0].
    assert (X ∈ prem) as HXp.
    { apply post_pseudo. split; [done|]. split; [done|]. split; [done|].
      intros Q HQ%post_prem [HQX _]. by apply (Hm (Q, cl Q)). }
    apply post_prem in HXp. apply set_eq. intros x. split; [by apply (cl_ext _ _ Hcl)|].
    by apply (Hm (X, cl X)).
  Qed.
  Lemma post_entails P C : P ⊆ M → C ⊆ cl P → (∀ i, i ∈ L0 → i.2 ⊆ M) → entails (R ++ L0) (P, C).
  Proof.
    intros HP HC HL0 X HX HPX. cbn in *.
    assert (X ∩ M = cl (X ∩ M)) as E.
    { apply post_complete; [clear; set_solver|]. intros i Hi Hi1.
      assert (i.2 ⊆ X) as H1. { apply (HX i Hi). clear -Hi1. set_solver. }
      assert (i.2 ⊆ M) as H2.
      { apply elem_of_app in Hi as [Hi|Hi]; [|by apply HL0]. destruct (post_elem _ Hi) as (? & -> & _).
        by apply (cl_sub _ _ Hcl). }
      clear -H1 H2. set_solver. }
    assert (cl P ⊆ cl (X ∩ M)) as Hsub.
    { apply (cl_mono _ _ Hcl); [clear -HP HPX; set_solver|clear; set_solver]. }
    rewrite <-E in Hsub. clear -HC Hsub. set_solver.
  Qed.
  Lemma post_NoDup : NoDup prem.
  Proof.
    destruct Hpost as [[_ HS] _]. clear -HS. induction HS as [|P l HS IH HP]; [constructor|].
    constructor; [|done]. intros H. rewrite Forall_forall in HP. by eapply lectic_irrefl, HP.
  Qed.
  (** The premise of an element respects all other elements and the background. *)
  Lemma post_irredundant R1 i R2 : R = R1 ++ i :: R2 → ¬ entails (R1 ++ R2 ++ L0) i.
  Proof.
    intros HR He.
    assert (i ∈ R) as Hi. { rewrite HR. apply elem_of_app. right. by left. }
    destruct (post_elem _ Hi) as (H1 & H2 & H3 & H4).
    assert (i.2 ⊆ i.1) as H5.
    { apply (He i.1); [|done]. intros j Hj Hji. rewrite app_assoc in Hj. apply elem_of_app in Hj as [Hj|Hj]; [|by apply H4].
      assert (j ∈ R) as Hj'. { rewrite HR. set_solver. }
      destruct (post_elem _ Hj') as (_ & -> & _).
      assert (i.1 ∈ prem) as Hip by (by apply elem_of_list_fmap_1).
      apply post_pseudo in Hip as (_ & _ & _ & Hip).
      apply Hip; [by apply elem_of_list_fmap_1|]. split; [done|]. intros Hij.
      assert (j.1 = i.1) as E by (apply set_eq; intros x; split; [apply Hji|apply Hij]).
      pose proof post_NoDup as Hnd. rewrite HR, map_app in Hnd. simpl in Hnd.
      apply NoDup_app in Hnd as (_ & Hd & Hnd). apply NoDup_cons in Hnd as [Hn _].
      apply elem_of_app in Hj as [Hj|Hj].
      - apply (Hd i.1); [|by left]. rewrite <-E. by apply elem_of_list_fmap_1.
      - apply Hn. rewrite <-E. by apply elem_of_list_fmap_1. }
    rewrite H2 in H5. apply H3, set_eq. intros x. split; [by apply (cl_ext _ _ Hcl)|apply H5].
  Qed.

  (** No smaller set of valid implications completes the background. *)
  Section minimum.
    Context (S : list fimp).
    Context (HS : ∀ i X, i ∈ S → X ⊆ M → X = cl X → respects X i).
    Context (HC : ∀ X, X ⊆ M → model_of (S ++ L0) X → X = cl X).

    Lemma violated P : P ∈ prem → ∃ i, i ∈ S ∧ i.1 ⊆ P ∧ ¬ i.2 ⊆ P.
    Proof.
      intros HP. apply post_pseudo in HP as (H1 & H2 & H3 & _).
      destruct (decide (Exists (λ i : fimp, i.1 ⊆ P ∧ ¬ i.2 ⊆ P) S)) as [(i & ? & ?)%Exists_exists|Hno]; [eauto|].
      exfalso. apply H3, HC; [done|]. apply model_of_app. split; [|done]. intros i Hi Hp.
      destruct (decide (i.2 ⊆ P)); [done|]. exfalso. apply Hno, Exists_exists. eauto.
    Qed.
    Lemma violated_inj P Q i : P ∈ prem → Q ∈ prem → i ∈ S →
      i.1 ⊆ P → ¬ i.2 ⊆ P → i.1 ⊆ Q → ¬ i.2 ⊆ Q → P = Q.
    Proof.
      intros HP HQ Hi HiP HiP' HiQ HiQ'. destruct (decide (P = Q)) as [|Hne]; [done|]. exfalso.
      pose proof HP as (P1 & P2 & P3 & P4)%post_pseudo. pose proof HQ as (Q1 & Q2 & Q3 & Q4)%post_pseudo.
      assert (∀ A B, A ⊆ M → B ⊆ M → A ∈ prem → (∀ U, U ∈ prem → U ⊂ B → cl U ⊆ B) → A ⊆ B → A ≠ B →
        i.1 ⊆ A → ¬ i.2 ⊆ B → False) as Hsub.
      { intros A B HA HB HAp HBp HAB HABne HiA HiB. apply HiB.
        trans (cl A); [|apply HBp; [done|]].
        - apply (HS i (cl A) Hi); [by apply (cl_sub _ _ Hcl)|symmetry; by apply (cl_idem _ _ Hcl)|].
          trans A; [done|]. by apply (cl_ext _ _ Hcl).
        - split; [done|]. intros HBA. apply HABne, set_eq. intros x. split; [apply HAB|apply HBA]. }
      destruct (decide (P ⊆ Q)) as [HPQ|HPQ]; [by eapply (Hsub P Q)|].
      destruct (decide (Q ⊆ P)) as [HQP|HQP]; [by eapply (Hsub Q P)|].
      assert (P ∩ Q = cl (P ∩ Q)) as E.
      { apply post_complete; [clear -P1; set_solver|]. apply model_of_app. split; [|by apply model_of_inter].
        intros j Hj Hj1. destruct (post_elem _ Hj) as (_ & -> & _).
        assert (j.1 ∈ prem) as Hjp by (by apply elem_of_list_fmap_1).
        assert (cl j.1 ⊆ P) as A1.
        { apply P4; [done|]. split; [clear -Hj1; set_solver|]. intros H. apply HPQ. clear -H Hj1. set_solver. }
        assert (cl j.1 ⊆ Q) as A2.
        { apply Q4; [done|]. split; [clear -Hj1; set_solver|]. intros H. apply HQP. clear -H Hj1. set_solver. }
        clear -A1 A2. set_solver. }
      assert (i.2 ⊆ P ∩ Q) as H.
      { apply (HS i (P ∩ Q) Hi); [clear -P1; set_solver|done|clear -HiP HiQ; set_solver]. }
      apply HiP'. clear -H. set_solver.
    Qed.
    Lemma post_minimum : length R ≤ length S.
    Proof.
      set (f := λ P : gset name, default (∅, ∅) (snd <$> list_find (λ i : fimp, i.1 ⊆ P ∧ ¬ i.2 ⊆ P) S)).
      assert (∀ P, P ∈ prem → f P ∈ S ∧ (f P).1 ⊆ P ∧ ¬ (f P).2 ⊆ P) as Hf.
      { intros P (i & Hi & Hv)%violated. unfold f.
        destruct (list_find_elem_of (λ i : fimp, i.1 ⊆ P ∧ ¬ i.2 ⊆ P) S i Hi Hv) as [[k j] E].
        rewrite E. apply list_find_Some in E as (E1 & E2 & _). simpl. split; [by eapply elem_of_list_lookup_2|done]. }
      assert (NoDup (map f prem)) as Hnd.
      { apply NoDup_fmap_2_strong; [|apply post_NoDup]. intros P Q HP HQ E.
        destruct (Hf P HP) as (A1 & A2 & A3). destruct (Hf Q HQ) as (B1 & B2 & B3). rewrite E in *.
        by eapply violated_inj. }
      assert (length (map f prem) ≤ length S) as Hle.
      { apply (submseteq_length (map f prem) S), NoDup_submseteq; [done|].
        intros x (P & -> & HP)%elem_of_list_fmap. by apply Hf. }
      by rewrite !map_length in Hle.
    Qed.
  End minimum.
End cons.

(** There is exactly one pseudo-closed family. *)
Lemma pseudo_family_unique M cl L0 F G P :
  pseudo_family M cl L0 F → pseudo_family M cl L0 G → F P ↔ G P.
Proof.
  intros HF HG. induction (set_wf P) as [P _ IH].
  rewrite (HF P), (HG P). split; intros (H1 & H2 & H3 & H4); (split; [done|]; split; [done|]; split; [done|]).
  - intros Q HQ HQP. apply H4; [|done]. by apply IH.
  - intros Q HQ HQP. apply H4; [|done]. by apply IH.
Qed.
