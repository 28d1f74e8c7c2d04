From Coq Require Import QArith.
From Verif Require Import Py PyFacts Spec ContextModel ContextSpec ContextFacts ContextInit ContextFinal RandomModel.
Local Open Scope nat_scope.

Lemma numbered_NoDup (p : string) n : NoDup (map (fun i : nat => NStr (p ++ pretty i)) (seq 0 n)).
Proof.
  apply NoDup_fmap_2; [|apply NoDup_seq]. intros i j H. injection H as H.
  apply (inj (String.append p)) in H. by apply (inj pretty) in H.
Qed.
Lemma numbered_lookup (p : string) n i : i < n →
  map (fun i : nat => NStr (p ++ pretty i)) (seq 0 n) !! i = Some (NStr (p ++ pretty i)).
Proof. intros H. rewrite list_lookup_fmap. by rewrite (proj2 (lookup_seq 0 n i i)). Qed.
Lemma random_context_spec n k d rnd :
  ∃ c, make_random_context n k d rnd = Ok c ∧ good c ∧ length (objs c) = n ∧ length (atts c) = k ∧
    (∀ i, i < n → objs c !! i = Some (NStr ("g" ++ pretty i))) ∧
    (∀ j, j < k → atts c !! j = Some (NStr ("m" ++ pretty j))) ∧
    (∀ i j, i < n → j < k →
      (incident c (NStr ("g" ++ pretty i)) (NStr ("m" ++ pretty j)) ↔ (rnd (i * k + j)%nat < d)%Q)) ∧
    ((∀ x, 0 <= rnd x < 1)%Q → (1 <= d)%Q → ∀ g m, g ∈ objs c → m ∈ atts c → incident c g m) ∧
    ((∀ x, 0 <= rnd x < 1)%Q → (d <= 0)%Q → ∀ g m, ¬ incident c g m).
Proof.
  unfold make_random_context.
  destruct (proj1 (mk_context_final (map (fun i => map (fun j => if Qlt_le_dec (rnd (i * k + j)%nat) d then true else false)
                                (seq 0 k)) (seq 0 n)) (map (fun i : nat => NStr ("g" ++ pretty i)) (seq 0 n)) (map (fun i : nat => NStr ("m" ++ pretty i)) (seq 0 k))))
    as (c & E & Ho & Ha & Hi).
  - apply numbered_NoDup.
  - apply numbered_NoDup.
  - by rewrite !map_length.
  - intros r (i & -> & _)%elem_of_list_fmap. by rewrite !map_length.
  - exists c. split; [done|].
    destruct (mk_context_good _ _ _ _ _ E (numbered_NoDup _ _) (numbered_NoDup _ _)) as (Hg & _); [done|].
    split; [done|]. rewrite Ho, Ha, !map_length, !seq_length. split; [done|]. split; [done|].
    split; [apply numbered_lookup|]. split; [apply numbered_lookup|].
    assert (∀ i j, i < n → j < k →
      (incident c (NStr ("g" ++ pretty i)) (NStr ("m" ++ pretty j)) ↔ (rnd (i * k + j)%nat < d)%Q)) as Hij.
    { intros i j Hin Hjk. rewrite (Hi i j) by (by apply numbered_lookup). split.
      - intros (r & Hr & Hb). rewrite list_lookup_fmap, (proj2 (lookup_seq 0 n i i)) in Hr by done.
        injection Hr as <-. rewrite list_lookup_fmap, (proj2 (lookup_seq 0 k j j)) in Hb by done.
        simpl in Hb. by destruct (Qlt_le_dec _ _).
      - intros Hd. eexists. split.
        + rewrite list_lookup_fmap, (proj2 (lookup_seq 0 n i i)) by done. reflexivity.
        + rewrite list_lookup_fmap, (proj2 (lookup_seq 0 k j j)) by done. simpl.
          destruct (Qlt_le_dec _ _) as [|H]; [done|]. exfalso. by apply (Qlt_not_le _ _ Hd). }
    split; [done|]. split.
    + intros Hr Hd g m (i & -> & Hin%elem_of_seq)%elem_of_list_fmap (j & -> & Hjk%elem_of_seq)%elem_of_list_fmap.
      apply Hij; [lia|lia|]. eapply Qlt_le_trans; [apply Hr|done].
    + intros Hr Hd g m Hinc. pose proof Hinc as (i & j & row & Hgi & Hmj & _).
      rewrite Ho in Hgi. rewrite Ha in Hmj.
      apply elem_of_list_lookup_2 in Hgi, Hmj.
      apply elem_of_list_fmap in Hgi as (i' & -> & Hin%elem_of_seq). apply elem_of_list_fmap in Hmj as (j' & -> & Hjk%elem_of_seq).
      apply Hij in Hinc; [|lia|lia]. apply (Qlt_not_le _ _ Hinc). eapply Qle_trans; [done|apply Hr].
Qed.
