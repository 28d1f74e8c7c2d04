(** * Stability in a subcontext *)
From Coq Require Import QArith Qcanon.
From Verif Require Import Py Spec PyFacts SpecFacts LatticeSpec.
Local Open Scope nat_scope.

Section sub.
  Context (K K' : fctx) (Hwf : fwf K).
  Context (HG : fG K ⊆ fG K') (HM : fM K' = fM K) (HI : ∀ g m, g ∈ fG K → (g, m) ∈ fI K' ↔ (g, m) ∈ fI K).
  Lemma sub_up S : S ⊆ fG K → up K' S = up K S.
  Proof.
    intros HS. apply set_eq. intros m. rewrite !elem_of_up, HM. split; intros [Hm H]; (split; [done|]); intros g Hg; apply HI; auto.
  Qed.
  Lemma sub_down B g : g ∈ down K B ↔ g ∈ down K' B ∧ g ∈ fG K.
  Proof.
    rewrite !elem_of_down. split.
    - intros [Hg H]. split; [|done]. split; [auto|]. intros m Hm. apply HI; auto.
    - intros [[_ H] Hg]. split; [done|]. intros m Hm. apply HI; auto.
  Qed.
  Lemma sub_concept A B : is_concept K A B → is_concept K' (down K' B) B.
  Proof.
    intros (h1 & h2 & h3 & h4). split_and!; [intros g [? _]%elem_of_down; done|by rewrite HM| |done].
    apply set_eq. intros m. split.
    - intros [Hm H]%elem_of_up. rewrite <-h3, <-sub_up by done. apply elem_of_up. split; [done|]. intros g Hg. apply H.
      rewrite <-h4 in Hg. by apply sub_down in Hg as [? _].
    - intros Hm. apply elem_of_up. rewrite HM. split; [auto|]. intros g [_ H]%elem_of_down. auto.
  Qed.
  Lemma sub_back A B : is_concept K' A B → A ⊆ fG K → is_concept K A B.
  Proof.
    intros (h1 & h2 & h3 & h4) HA. split_and!; [done|by rewrite <-HM|by rewrite <-sub_up|].
    apply set_eq. intros g. rewrite sub_down, h4. split; [tauto|auto].
  Qed.
  Lemma sub_same A B n n' : A ⊆ fG K → is_card (λ S, S ⊆ A ∧ up K S = B) n → is_card (λ S, S ⊆ A ∧ up K' S = B) n' → n' = n.
  Proof.
    intros HA (l & H1 & H2 & <-) (l' & H1' & H2' & <-). apply Permutation_length, NoDup_Permutation; [done..|].
    intros S. rewrite H2, H2'. split; (intros [HS <-]; split; [done|]); [symmetry|]; apply sub_up; clear -HS HA; set_solver.
  Qed.
  Lemma sub_grow A B n n' : is_concept K A B → is_card (λ S, S ⊆ A ∧ up K S = B) n →
    is_card (λ S, S ⊆ down K' B ∧ up K' S = B) n' → A ⊆ down K' B ∧ n * 2 ^ (size (down K' B ∖ A)) ≤ n'.
  Proof.
    intros (h1 & h2 & h3 & h4) (l & H1 & H2 & <-) (l' & H1' & H2' & <-).
    assert (A ⊆ down K' B) as HA. { rewrite <-h4. intros g Hg. by apply sub_down in Hg as [? _]. }
    split; [done|].
    assert (∀ E : gset name, E ⊆ down K' B → E ## A → ∃ k, NoDup k ∧ length k = length l * 2 ^ size E ∧
      ∀ S, S ∈ k → S ⊆ A ∪ E ∧ up K' S = B) as H.
    { intros E. induction E as [|x E Hx IH] using set_ind_L; intros HE Hd.
      - exists l. rewrite size_empty. split; [done|]. split; [cbn; lia|]. intros S [HS Hu]%H2. split; [clear -HS; set_solver|]. rewrite sub_up; [done|clear -HS h1; set_solver].
      - destruct IH as (k & K1 & K2 & K3); [clear -HE Hd; set_solver..|]. exists (k ++ map (λ S, {[x]} ∪ S) k).
        assert (∀ S, S ∈ k → x ∉ S) as Hxk by (intros S [HS _]%K3; clear -HS Hx Hd; set_solver). split; [|split].
        + apply NoDup_app. split; [done|]. split.
          * intros S HS (T & -> & _)%elem_of_list_fmap. apply Hxk in HS. clear -HS. set_solver.
          * apply NoDup_fmap_2_strong; [|done]. intros S T HS HT ET. apply Hxk in HS, HT. clear -HS HT ET. set_solver.
        + rewrite app_length, map_length, K2, size_union, size_singleton by (clear -Hx; set_solver). cbn. lia.
        + intros S [HS|(T & -> & HT)%elem_of_list_fmap]%elem_of_app.
          * apply K3 in HS as [HS1 HS2]. split; [clear -HS1; set_solver|done].
          * apply K3 in HT as [HT1 HT2]. split; [clear -HT1; set_solver|]. apply set_eq. intros m. rewrite <-HT2 at 1. rewrite !elem_of_up. split.
            -- intros [Hm H]. split; [done|]. intros g Hg. apply H. clear -Hg. set_solver.
            -- intros [Hm H]. split; [done|]. intros g [->%elem_of_singleton|Hg]%elem_of_union; [|auto].
               assert (m ∈ B) as HmB by (rewrite <-HT2; apply elem_of_up; done).
               assert (x ∈ down K' B) as [_ Hd']%elem_of_down by (clear -HE; set_solver). auto. }
    destruct (H (down K' B ∖ A)) as (k & K1 & K2 & K3); [clear; set_solver..|]. rewrite <-K2.
    apply submseteq_length, NoDup_submseteq; [done|]. intros S [HS Hu]%K3. apply H2'. split; [clear -HS HA; set_solver|done].
  Qed.
  (** The other stability. *)
  Lemma sub_dual_le A B n n' : is_concept K A B → is_card (λ T, T ⊆ B ∧ down K T = A) n →
    is_card (λ T, T ⊆ B ∧ down K' T = down K' B) n' → n' ≤ n ∧ ((∀ g, g ∈ fG K' → g ∉ fG K → g ∈ down K' B) → n' = n).
  Proof.
    intros (h1 & h2 & h3 & h4) (l & H1 & H2 & <-) (l' & H1' & H2' & <-).
    assert (∀ T, T ∈ l' → T ∈ l) as Hsub.
    { intros T [HT E]%H2'. apply H2. split; [done|]. rewrite <-h4. apply set_eq. intros g. by rewrite !sub_down, E. }
    split; [by apply submseteq_length, NoDup_submseteq|]. intros Hall. apply Permutation_length, NoDup_Permutation; [done..|].
    intros T. split; [apply Hsub|]. intros [HT E]%H2. apply H2'. split; [done|]. apply set_eq. intros g.
    destruct (decide (g ∈ fG K)) as [Hg|Hg].
    - pose proof (sub_down T g) as X1. pose proof (sub_down B g) as X2. rewrite E in X1. rewrite h4 in X2. tauto.
    - split; [|intros [Hg' H]%elem_of_down; apply elem_of_down; split; [done|]; intros m Hm; apply H; auto].
      intros [Hg' _]%elem_of_down. by apply Hall.
  Qed.
End sub.

(** The quotients. *)
Lemma stab_le n n' a a' : a ≤ a' → n * 2 ^ (a' - a) ≤ n' →
  (Q2Qc (inject_Z (Z.of_nat n) / inject_Z (2 ^ Z.of_nat a)) <= Q2Qc (inject_Z (Z.of_nat n') / inject_Z (2 ^ Z.of_nat a')))%Qc.
Proof.
  intros Ha Hn. unfold Qcle. cbn [this Q2Qc]. rewrite !Qred_correct.
  assert (0 < 2 ^ Z.of_nat a)%Z as P1 by (apply Z.pow_pos_nonneg; lia).
  assert (0 < 2 ^ Z.of_nat a')%Z as P2 by (apply Z.pow_pos_nonneg; lia).
  apply Qle_shift_div_l; [by rewrite <-(Zlt_Qlt 0)|].
  setoid_replace (inject_Z (Z.of_nat n) / inject_Z (2 ^ Z.of_nat a) * inject_Z (2 ^ Z.of_nat a'))%Q
    with (inject_Z (Z.of_nat n * 2 ^ Z.of_nat (a' - a)))%Q.
  - rewrite <-Zle_Qle. rewrite <-(Nat2Z.inj_pow 2), <-Nat2Z.inj_mul. lia.
  - assert (2 ^ Z.of_nat a' = 2 ^ Z.of_nat a * 2 ^ Z.of_nat (a' - a))%Z as ->.
    { rewrite <-Z.pow_add_r by lia. f_equal. lia. }
    rewrite !inject_Z_mult. field. intros E. change (inject_Z (2 ^ Z.of_nat a) == inject_Z 0)%Q in E. apply (proj1 (inject_Z_injective _ _)) in E. lia.
Qed.
Lemma stab_same_le n n' a : n' ≤ n →
  (Q2Qc (inject_Z (Z.of_nat n') / inject_Z (2 ^ Z.of_nat a)) <= Q2Qc (inject_Z (Z.of_nat n) / inject_Z (2 ^ Z.of_nat a)))%Qc.
Proof. intros H. apply stab_le; [done|]. rewrite Nat.sub_diag. cbn. lia. Qed.
