(** * The number predicates of the example exploration *)
From Coq Require Import Znumtheory Lia.
From Verif Require Import Py Spec ContextModel ExplModel ExploreModel ExploreSpec.
Local Open Scope Z_scope.

Lemma is_prime_spec n : is_prime n = true ↔ n ≤ 1 ∨ prime n.
Proof.
  unfold is_prime. rewrite forallb_forall. setoid_rewrite <-in_rev. setoid_rewrite <-elem_of_list_In.
  assert (∀ m, m ∈ seqZ 2 (n - 2) ↔ 2 ≤ m < n) as Hm by (intros m; rewrite elem_of_seqZ; lia).
  split.
  - intros H. destruct (decide (n ≤ 1)); [by left|]. right. apply prime_intro; [lia|]. intros d Hd. apply Zgcd_1_rel_prime.
    destruct (decide (d = 1)) as [->|]; [by rewrite Z.gcd_1_l|].
    pose proof (Z.gcd_nonneg d n). pose proof (Z.gcd_divide_l d n) as Hl. pose proof (Z.gcd_divide_r d n) as Hr.
    set (g := Z.gcd d n) in *. assert (g ≤ d) by (apply Z.divide_pos_le; [lia|done]).
    destruct (decide (g = 0)) as [E|]; [rewrite E in Hl; apply Z.divide_0_l in Hl; lia|].
    destruct (decide (g = 1)) as [|]; [done|]. exfalso.
    specialize (H g). rewrite Hm in H. feed specialize H; [lia|]. apply negb_true_iff, Z.eqb_neq in H. apply H. by apply Z.mod_divide.
  - intros Hn m Hmm. apply Hm in Hmm. apply negb_true_iff, Z.eqb_neq. intros E. apply Z.mod_divide in E; [|lia].
    destruct Hn as [|Hn]; [lia|]. destruct (prime_divisors n Hn m E) as [?|[?|[?|?]]]; lia.
Qed.

Lemma factorial_S k : factorial_of (S k) = factorial_of k * Z.of_nat (S k).
Proof.
  unfold factorial_of. rewrite seq_S, foldr_app. cbn [foldr]. change (1 + k)%nat with (S k).
  assert (∀ l a, foldr (λ m f, Z.of_nat m * f) a l = foldr (λ m f, Z.of_nat m * f) 1 l * a) as H.
  { induction l as [|x l IH]; intros a; cbn [foldr]; [lia|]. rewrite IH. ring. }
  rewrite H. lia.
Qed.
Lemma factorial_pos k : 1 ≤ factorial_of k.
Proof. induction k as [|k IH]; [done|]. rewrite factorial_S. nia. Qed.
Lemma factorial_mono j k : (j ≤ k)%nat → factorial_of j ≤ factorial_of k.
Proof.
  intros H. induction H as [|k H IH]; [lia|]. rewrite factorial_S. pose proof (factorial_pos k). nia.
Qed.
Lemma factorial_ge k : Z.of_nat k ≤ factorial_of k.
Proof. destruct k as [|k]; [done|]. rewrite factorial_S. pose proof (factorial_pos k). nia. Qed.
Lemma factorial_loop n len k : 0 < n → Z.of_nat k + Z.of_nat len = n → (k = O ∨ factorial_of k < n) →
  (∀ j, (1 ≤ j ≤ k)%nat → factorial_of j ≠ n) →
  ∃ b, is_factorial_loop n (factorial_of k) (seqZ (Z.of_nat k + 1) (Z.of_nat len)) = Some b ∧ (b = true ↔ ∃ j, (1 ≤ j)%nat ∧ factorial_of j = n).
Proof.
  revert k. induction len as [|len IH]; intros k Hn Hk Hlt Hne.
  { exfalso. pose proof (factorial_ge k). destruct Hlt as [->|]; lia. }
  rewrite seqZ_cons by lia. cbn [is_factorial_loop].
  replace (factorial_of k * (Z.of_nat k + 1)) with (factorial_of (S k)) by (rewrite factorial_S; lia).
  destruct (Z.eqb_spec (factorial_of (S k)) n) as [E|E].
  { exists true. split; [done|]. split; [|done]. intros _. exists (S k). split; [lia|done]. }
  assert (∀ j, (1 ≤ j ≤ S k)%nat → factorial_of j ≠ n) as Hne'.
  { intros j Hj. destruct (decide (j = S k)) as [->|]; [done|]. apply Hne. lia. }
  rewrite Z.gtb_ltb. destruct (Z.ltb_spec n (factorial_of (S k))) as [Hl|Hl].
  { exists false. split; [done|]. split; [done|]. intros (j & Hj & Ej). exfalso.
    destruct (decide (j ≤ S k)%nat) as [Hjk|Hjk]; [by apply (Hne' j)|]. pose proof (factorial_mono (S k) j). lia. }
  replace (Z.succ (Z.of_nat k + 1)) with (Z.of_nat (S k) + 1) by lia. replace (Z.pred (Z.of_nat (S len))) with (Z.of_nat len) by lia.
  apply IH; [done|lia|right; lia|done].
Qed.
Lemma is_factorial_spec n : (n ≤ 0 → is_factorial n = None) ∧
  (0 < n → ∃ b, is_factorial n = Some b ∧ (b = true ↔ ∃ j, (1 ≤ j)%nat ∧ factorial_of j = n)).
Proof.
  split.
  - intros H. unfold is_factorial. by rewrite seqZ_nil.
  - intros H. unfold is_factorial. destruct (factorial_loop n (Z.to_nat n) 0) as (b & E & Hb); [done|lia|by left|lia|].
    exists b. split; [|done]. rewrite <-E. rewrite Z2Nat.id by lia. done.
Qed.
