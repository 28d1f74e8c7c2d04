(** * Facts on contexts restricted to some objects *)
From Verif Require Import Py Spec PyFacts SpecFacts.

Section restricted.
  Context (K K' : fctx) (Hwf : ∀ g m, (g, m) ∈ fI K → g ∈ fG K ∧ m ∈ fM K).
  Context (HM : fM K' = fM K) (HI : ∀ g m, (g, m) ∈ fI K' ↔ g ∈ fG K' ∧ (g, m) ∈ fI K).
  Lemma restricted_row g m : g ∈ fG K' → (g, m) ∈ fI K' ↔ (g, m) ∈ fI K.
  Proof. intros H. rewrite HI. tauto. Qed.
  Lemma restricted_up A : A ⊆ fG K' → up K' A = up K A.
  Proof.
    intros HA. apply set_eq. intros m. rewrite !elem_of_up, HM.
    split; intros [H1 H2]; (split; [done|]); intros g Hg; apply (restricted_row g m); auto.
  Qed.
  Lemma restricted_intent A B : fG K' ⊆ fG K → is_concept K' A B → is_concept K (down K B) B ∧ A = down K B ∩ fG K'.
  Proof.
    intros HG (H1 & H2 & H3 & H4). rewrite restricted_up in H3 by done. split.
    - split_and!; [intros g [? _]%elem_of_down; done|by rewrite <-HM| |done]. rewrite <-H3. apply (anti_symm (⊆)).
      + intros m [Hm H]%elem_of_up. apply elem_of_up. split; [done|]. intros g Hg. apply H, elem_of_down.
        split; [by apply HG, H1|]. intros m' [_ Hm']%elem_of_up. by apply Hm'.
      + intros m Hm. apply elem_of_up. split; [by apply elem_of_up in Hm as [? _]|]. intros g [_ Hg]%elem_of_down. by apply Hg.
    - rewrite <-H4 at 1. apply set_eq. intros g. rewrite elem_of_intersection, !elem_of_down. split.
      + intros [Hg HB]. split; [|done]. split; [by apply HG|]. intros m Hm. apply (restricted_row g m Hg), HB, Hm.
      + intros [[Hg HB] Hg']. split; [done|]. intros m Hm. apply (restricted_row g m Hg'), HB, Hm.
  Qed.
  Section conj.
    Context (N : gset name) (HN : N ⊆ fM K) (HG : ∀ g, g ∈ fG K' ↔ g ∈ fG K ∧ ∀ m, m ∈ N → (g, m) ∈ fI K).
    Lemma conj_down B : down K' B = down K (B ∪ N).
    Proof.
      apply set_eq. intros g. rewrite !elem_of_down. split.
      - intros [H1 H2]. pose proof (proj1 (HG g) H1) as [H3 H4]. split; [done|]. intros m [Hm|Hm]%elem_of_union; [|by apply H4].
        by apply (restricted_row g m H1), H2.
      - intros [H1 H2]. assert (g ∈ fG K') as Hg. { apply HG. split; [done|]. intros m Hm. apply H2, elem_of_union. by right. }
        split; [done|]. intros m Hm. apply (restricted_row g m Hg), H2, elem_of_union. by left.
    Qed.
    Lemma conj_down_sub B : down K (B ∪ N) ⊆ fG K'.
    Proof. intros g Hg. rewrite <-conj_down in Hg. by apply elem_of_down in Hg as [? _]. Qed.
    Lemma conj_acl B : acl K' B = acl K (B ∪ N).
    Proof. unfold acl. rewrite conj_down, restricted_up; [done|]. apply conj_down_sub. Qed.
    Lemma conj_concept A B : is_concept K' A B ↔ is_concept K A B ∧ N ⊆ B.
    Proof.
      split.
      - intros (H1 & H2 & H3 & H4). rewrite restricted_up in H3 by done. rewrite conj_down in H4.
        assert (N ⊆ B) as HNB.
        { rewrite <-H3. intros m Hm. apply elem_of_up. split; [by apply HN|]. intros g Hg. apply H1, HG in Hg as [_ Hg]. by apply Hg. }
        split; [|done]. replace (B ∪ N) with B in H4 by (clear -HNB; set_solver). split_and!; [|by rewrite <-HM|done|done].
        intros g Hg. by apply H1, HG in Hg as [? _].
      - intros [(H1 & H2 & H3 & H4) HNB]. assert (B ∪ N = B) as E by (clear -HNB; set_solver).
        assert (A ⊆ fG K') as HA. { rewrite <-H4, <-E. apply conj_down_sub. }
        split_and!; [done|by rewrite HM|by rewrite restricted_up|by rewrite conj_down, E].
    Qed.
    Lemma conj_holds (i : fimp) : holds K' i ↔ holds K (i.1 ∪ N, i.2).
    Proof.
      unfold holds. cbn [fst snd]. split; intros H g Hg HP m Hm.
      - assert (g ∈ fG K') as Hg'. { apply HG. split; [done|]. intros m' Hm'. apply HP, elem_of_union. by right. }
        apply (restricted_row g m Hg'), (H g Hg'); [|done]. intros m' Hm'. apply (restricted_row g m' Hg'), HP, elem_of_union. by left.
      - pose proof (proj1 (HG g) Hg) as [H1 H2]. apply (restricted_row g m Hg), (H g H1); [|done].
        intros m' [Hm'|Hm']%elem_of_union; [|by apply H2]. by apply (restricted_row g m' Hg), HP.
    Qed.
  End conj.
  Section disj.
    Context (N : gset name) (HG : ∀ g, g ∈ fG K' ↔ g ∈ fG K ∧ ∃ m, m ∈ N ∧ (g, m) ∈ fI K).
    Lemma disj_acl B m : m ∈ acl K' B ↔ m ∈ fM K ∧ ∀ n, n ∈ N → m ∈ acl K (B ∪ {[n]}).
    Proof.
      unfold acl. rewrite elem_of_up, HM. split; intros [H1 H2]; (split; [done|]).
      - intros n Hn. apply elem_of_up. split; [done|]. intros g [Hg HB]%elem_of_down.
        assert (g ∈ fG K') as Hg'. { apply HG. split; [done|]. exists n. split; [done|]. apply HB, elem_of_union. right. by apply elem_of_singleton. }
        apply (restricted_row g m Hg'), H2, elem_of_down. split; [done|]. intros m' Hm'.
        apply (restricted_row g m' Hg'), HB, elem_of_union. by left.
      - intros g [Hg HB]%elem_of_down. pose proof (proj1 (HG g) Hg) as (H3 & n & Hn & H4). apply (restricted_row g m Hg).
        specialize (H2 n Hn). apply elem_of_up in H2 as [_ H2]. apply H2, elem_of_down. split; [done|].
        intros m' [Hm'| ->%elem_of_singleton]%elem_of_union; [|done]. by apply (restricted_row g m' Hg), HB.
    Qed.
    Lemma disj_holds (i : fimp) : holds K' i ↔ ∀ n, n ∈ N → holds K (i.1 ∪ {[n]}, i.2).
    Proof.
      unfold holds. cbn [fst snd]. split.
      - intros H n Hn g Hg HP m Hm.
        assert (g ∈ fG K') as Hg'. { apply HG. split; [done|]. exists n. split; [done|]. apply HP, elem_of_union. right. by apply elem_of_singleton. }
        apply (restricted_row g m Hg'), (H g Hg'); [|done]. intros m' Hm'. apply (restricted_row g m' Hg'), HP, elem_of_union. by left.
      - intros H g Hg HP m Hm. pose proof (proj1 (HG g) Hg) as (H3 & n & Hn & H4). apply (restricted_row g m Hg), (H n Hn g H3); [|done].
        intros m' [Hm'| ->%elem_of_singleton]%elem_of_union; [|done]. by apply (restricted_row g m' Hg), HP.
    Qed.
  End disj.
End restricted.
