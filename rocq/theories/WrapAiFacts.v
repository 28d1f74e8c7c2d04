(** * Facts on the incremental basis computed through the memoising wrappers *)
From Verif Require Import Py Spec PyFacts SpecFacts ContextModel ContextSpec ContextOps ContextFacts ContextMisc
  ClosureModel ClosureFacts MemoModel MemoFacts AiModel WrapModel WrapSpec WrapFacts WrapAiModel.

Section answers.
  Context (c c0 : context) (vi ve : nat → res (gset name)).
  Context (Ho : objs c = objs c0) (Ha : atts c = atts c0).
  Context (Hvi : ∀ i, i < length (objs c0) → vi i = get_object_intent_by_index c0 i).
  Context (Hve : ∀ j, j < length (atts c0) → ve j = get_attribute_extent_by_index c0 j).
  Context (exs : list (gset name)) (Hexs : examples c0 = Ok exs).
  Lemma exs_read i o : exs !! i = Some o → vi i = Ok o ∧ i < length (objs c0).
  Proof.
    intros Hi. destruct (mapM_lookup_r _ _ _ _ _ Hexs Hi) as (i' & Hs & Hr). apply lookup_seq in Hs as [-> Hlt]. cbn in Hr. by rewrite Hvi.
  Qed.
  Lemma exs_length : length exs = length (objs c0).
  Proof. pose proof Hexs as H. apply mapM_Ok_Forall2, Forall2_length in H. by rewrite seq_length in H. Qed.
  Lemma answered_kclosure {A} s cl n (k : res (gset name) → prog A) :
    n ≤ length exs →
    answered vi ve (p_kclosure s cl (seq (length exs - n) n) k) =
    answered vi ve (k (Ok (kclosure_loop s cl (drop (length exs - n) exs)))).
  Proof.
    revert cl. induction n as [|n IH]; intros cl Hn; cbn [seq p_kclosure].
    - rewrite drop_ge by lia. done.
    - destruct (lookup_lt_is_Some_2 exs (length exs - S n)) as [o Hlo]; [lia|].
      destruct (exs_read _ _ Hlo) as [E _]. cbn [answered]. rewrite E. rewrite (drop_S exs o) by done. cbn [kclosure_loop].
      case_bool_decide; [done|]. replace (S (length exs - S n)) with (length exs - n) by lia. apply IH. lia.
  Qed.
  Lemma answered_stable {A} j X B m E st (k : res ustate → prog A) :
    answered vi ve (p_stable_concept c j X B m E st k) =
    answered vi ve (k (stable_concept X B m E (λ s, kclosure s (S j) c0) st)).
  Proof.
    unfold p_stable_concept, stable_concept. destruct (forallb _ _); [|done]. unfold kclosure. rewrite Hexs. cbn [mbind res_bind].
    pose proof (answered_kclosure (B ∪ {[m]}) (list_to_set (take (S j) (atts c))) (length exs)
      (λ r, match r with Err e => k (Err e) | Ok C => k (Ok (
          if bool_decide (C = B ∪ {[m]})
          then UState (old_stable st) (new_stable st) (min_mod st) (non_min st) (mod_extra st) (new_pre st ++ [PConcept (X ∩ E) (B ∪ {[m]})])
          else UState (old_stable st) (new_stable st ++ [(B ∪ {[m]}, C)]) (min_mod st) (non_min st) (mod_extra st)
                 (new_pre st ++ [PImp (X ∩ E) (B ∪ {[m]}, C)]))) end) ltac:(lia)) as H.
    rewrite Nat.sub_diag, drop_0 in H. rewrite exs_length in H. rewrite Ho, H. by rewrite Ha.
  Qed.
  Lemma answered_update_loop {A} j m E ps st (k : res ustate → prog A) :
    answered vi ve (p_update_loop c j m E ps st k) = answered vi ve (k (update_loop m E (λ s, kclosure s (S j) c0) ps st)).
  Proof.
    revert st. induction ps as [|p ps IH]; intros st; [done|]. cbn [p_update_loop update_loop]. unfold update_one.
    destruct (bool_decide (pext p ⊆ E)).
    - destruct p; cbn [mbind res_bind]; apply IH.
    - destruct p as [X B|X i]; [|cbn [mbind res_bind]; apply IH]. rewrite answered_stable.
      destruct (stable_concept _ _ _ _ _ _) as [st'|e]; cbn [mbind res_bind]; [apply IH|done].
  Qed.
  Lemma answered_canonical_loop srt js ps basis : (∀ j, j ∈ js → j < length (atts c0)) →
    answered vi ve (p_canonical_loop srt c js ps basis) = canonical_loop srt c0 js ps basis.
  Proof.
    revert ps basis. induction js as [|j js IH]; intros ps basis Hjs; [done|]. cbn [p_canonical_loop canonical_loop].
    unfold p_update_preclosed, update_preclosed. assert (aname c j = aname c0 j) as -> by (unfold aname; by rewrite Ha).
    destruct (aname c0 j) as [m|e]; [|done]. cbn [answered mbind res_bind]. rewrite Hve by (apply Hjs; left).
    destruct (get_attribute_extent_by_index c0 j) as [E|e]; [|done]. cbn [mbind res_bind]. rewrite answered_update_loop.
    destruct (update_loop _ _ _ _ _) as [st|e]; [|done]. cbn [mbind res_bind].
    destruct (close_loop _ _ _ _) as [[r1 r2]|e]; [|done]. cbn [mbind res_bind fst snd]. apply IH. intros j' Hj'. apply Hjs. by right.
  Qed.
  Lemma answered_canonical srt : answered vi ve (p_canonical_basis srt c) = compute_canonical_basis srt c0.
  Proof.
    unfold p_canonical_basis, compute_canonical_basis. rewrite Ho, Ha. apply answered_canonical_loop.
    intros j [_ Hj]%elem_of_seq. lia.
  Qed.
End answers.

(** What the getters show by name they show by index. *)
Lemma sees_intent_index m c0 i : wf (mc m) → distinct (mc m) → wf c0 → distinct c0 → sees m c0 → i < length (objs c0) →
  (read_intent m i).2 = get_object_intent_by_index c0 i.
Proof.
  intros Hw Hd Hw0 Hd0 Hs Hi. destruct (lookup_lt_is_Some_2 _ _ Hi) as [o Hlo].
  pose proof (sees_intent m c0 o Hw Hw0 Hs) as E.
  assert (o ∈ objs c0) as Hin by by eapply elem_of_list_lookup_2.
  destruct (oind_Ok c0 Hw0 o Hin) as [i0 E0]. assert (o ∈ objs (mc m)) as Hin' by by rewrite (proj1 Hs).
  destruct (oind_Ok (mc m) Hw o Hin') as [i1 E1].
  unfold get_object_intent in E. rewrite E0, E1 in E. cbn [mbind res_bind] in E.
  apply oind_lt in E0; [|done]. apply oind_lt in E1; [|done]. rewrite (proj1 Hs) in E1.
  assert (i0 = i) as -> by (eapply (NoDup_lookup (objs c0)); [apply Hd0|done..]).
  assert (i1 = i) as -> by (eapply (NoDup_lookup (objs c0)); [apply Hd0|done..]). done.
Qed.
Lemma sees_extent_index m c0 i : wf (mc m) → distinct (mc m) → wf c0 → distinct c0 → sees m c0 → i < length (atts c0) →
  (read_extent m i).2 = get_attribute_extent_by_index c0 i.
Proof.
  intros Hw Hd Hw0 Hd0 Hs Hi. destruct (lookup_lt_is_Some_2 _ _ Hi) as [o Hlo].
  pose proof (sees_extent m c0 o Hw Hw0 Hs) as E.
  assert (o ∈ atts c0) as Hin by by eapply elem_of_list_lookup_2.
  destruct (aind_Ok c0 Hw0 o Hin) as [i0 E0]. assert (o ∈ atts (mc m)) as Hin' by by rewrite (proj1 (proj2 Hs)).
  destruct (aind_Ok (mc m) Hw o Hin') as [i1 E1].
  unfold get_attribute_extent in E. rewrite E0, E1 in E. cbn [mbind res_bind] in E.
  apply aind_lt in E0; [|done]. apply aind_lt in E1; [|done]. rewrite (proj1 (proj2 Hs)) in E1.
  assert (i0 = i) as -> by (eapply (NoDup_lookup (atts c0)); [apply Hd0|done..]).
  assert (i1 = i) as -> by (eapply (NoDup_lookup (atts c0)); [apply Hd0|done..]). done.
Qed.
Lemma examples_some c0 : good c0 → ∃ exs, examples c0 = Ok exs.
Proof.
  intros Hg. unfold examples. apply mapM_is_ok. intros i [_ Hi]%elem_of_seq.
  destruct (lookup_lt_is_Some_2 (objs c0) i) as [o Ho]; [lia|]. eexists. by apply get_object_intent_by_index_spec.
Qed.
Lemma canonical_sees m c0 srt : wf (mc m) → distinct (mc m) → good c0 → sees m c0 →
  (get_attribute_canonical_basis m srt).2 = compute_canonical_basis srt c0 ∧
  same_view m (get_attribute_canonical_basis m srt).1 ∧
  ∃ n, n = (if is_ok (compute_canonical_basis srt c0) then 0 else 1) ∧
    length (ilayers (get_attribute_canonical_basis m srt).1) = n + length (ilayers m) ∧
    length (elayers (get_attribute_canonical_basis m srt).1) = n + length (elayers m).
Proof.
  intros Hw Hd Hg Hs. pose proof (good_wf c0 Hg) as Hw0. pose proof (good_distinct c0 Hg) as Hd0. unfold get_attribute_canonical_basis, basis_computation.
  pose proof (inside_exec (p_canonical_basis srt (mc (push m))) m (push m) (inside_push m)) as Hin.
  pose proof (proj1 (exec_view (p_canonical_basis srt (mc (push m))) (push m))) as E.
  pose proof (sees_view m (push m) c0 Hs (push_view m)) as Hs'.
  destruct (examples_some c0 Hg) as [exs Hexs].
  rewrite (answered_canonical (mc (push m)) c0 (λ i, (read_intent (push m) i).2) (λ j, (read_extent (push m) j).2)
    (proj1 Hs') (proj1 (proj2 Hs')) ltac:(intros; by apply sees_intent_index) ltac:(intros; by apply sees_extent_index) exs Hexs) in E.
  destruct (exec _ (push m)) as [m' r]. cbn [fst snd] in E, Hin.
  rewrite <-E. destruct Hin as (H1 & H2 & H3 & H4). destruct r as [R|e]; cbn [fst snd is_ok].
  - split; [done|]. split; [done|]. exists 0. split; [done|]. cbn. destruct (ilayers m'), (elayers m'); cbn in *; lia.
  - split; [done|]. split; [done|]. exists 1. split; [done|]. lia.
Qed.
Lemma canonical_bare m srt : good (mc m) → bare m →
  (get_attribute_canonical_basis m srt).2 = compute_canonical_basis srt (mc m) ∧
  (is_ok (compute_canonical_basis srt (mc m)) = true → (get_attribute_canonical_basis m srt).1 = m).
Proof.
  intros Hg Hb. destruct (canonical_sees m (mc m) srt (good_wf _ Hg) (good_distinct _ Hg) Hg (bare_sees m Hb)) as (H1 & H2 & n & -> & H3 & H4).
  split; [done|]. intros Hok. rewrite Hok in H3, H4. destruct H2 as (E1 & E2 & _). destruct Hb as [B1 B2].
  destruct (get_attribute_canonical_basis m srt) as [[c1 il el ob] r]. cbn in *. rewrite B1 in H3. rewrite B2 in H4.
  destruct m; cbn in *; subst. destruct il, el; cbn in *; congruence.
Qed.
