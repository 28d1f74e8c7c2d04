(** * Proofs about the memoising wrappers *)
From Verif Require Import Py Spec PyFacts SpecFacts ContextModel ContextSpec ContextOps ContextFacts ContextMisc
  ClosureModel ClosureFacts DgModel DgSpec DgCxt MemoModel.

(** ** Coherent layers: every stored value is the current one *)
Definition coherent (base : nat → res (gset name)) (ls : list cache) : Prop :=
  ∀ l i v, l ∈ ls → l !! i = Some v → base i = Ok v.
Lemma memo_read_coherent base ls i : coherent base ls →
  (memo_read (base i) ls i).1 = base i ∧ coherent base (memo_read (base i) ls i).2 ∧
  length (memo_read (base i) ls i).2 = length ls.
Proof.
  induction ls as [|l ls IH]; intros H; [done|]. simpl.
  assert (coherent base ls) as H' by (intros l' j v Hl; apply H; by right).
  destruct (l !! i) as [v|] eqn:E.
  - simpl. split; [|done]. symmetry. apply (H l i v); [by left|done].
  - destruct (IH H') as (H1 & H2 & H3). destruct (memo_read (base i) ls i) as [[v|e] ls']; simpl in *.
    + split; [done|]. split; [|by rewrite H3]. intros l' j w [->|Hl]%elem_of_cons Hj.
      * destruct (decide (i = j)) as [<-|Hij].
        -- rewrite lookup_insert in Hj. by injection Hj as <-.
        -- rewrite lookup_insert_ne in Hj by done. apply (H l j w); [by left|done].
      * by apply (H2 l' j w).
    + split; [done|]. split; [|by rewrite H3]. intros l' j w [->|Hl]%elem_of_cons Hj.
      * apply (H l j w); [by left|done].
      * by apply (H2 l' j w).
Qed.
Definition coh (m : mcxt) : Prop :=
  coherent (get_object_intent_by_index (mc m)) (ilayers m) ∧
  coherent (get_attribute_extent_by_index (mc m)) (elayers m).
Lemma read_intent_coh m i : coh m → (read_intent m i).2 = get_object_intent_by_index (mc m) i ∧
  coh (read_intent m i).1 ∧ mc (read_intent m i).1 = mc m ∧ obasis (read_intent m i).1 = obasis m ∧
  length (ilayers (read_intent m i).1) = length (ilayers m) ∧ elayers (read_intent m i).1 = elayers m.
Proof.
  intros [Hi He]. destruct (memo_read_coherent _ _ i Hi) as (H1 & H2 & H3). unfold read_intent.
  destruct (memo_read _ _ i) as [r ls]. simpl in *. done.
Qed.
Lemma read_extent_coh m i : coh m → (read_extent m i).2 = get_attribute_extent_by_index (mc m) i ∧
  coh (read_extent m i).1 ∧ mc (read_extent m i).1 = mc m ∧ obasis (read_extent m i).1 = obasis m ∧
  length (elayers (read_extent m i).1) = length (elayers m) ∧ ilayers (read_extent m i).1 = ilayers m.
Proof.
  intros [Hi He]. destruct (memo_read_coherent _ _ i He) as (H1 & H2 & H3). unfold read_extent.
  destruct (memo_read _ _ i) as [r ls]. simpl in *. done.
Qed.
(** What the computation gives when every read goes to the table. *)
Fixpoint direct {A} (p : prog A) (c : context) : res A :=
  match p with
  | Ret r => r
  | ReadI i k => direct (k (get_object_intent_by_index c i)) c
  | ReadE j k => direct (k (get_attribute_extent_by_index c j)) c
  end.
Lemma exec_coh {A} (p : prog A) m : coh m → (exec p m).2 = direct p (mc m) ∧
  coh (exec p m).1 ∧ mc (exec p m).1 = mc m ∧ obasis (exec p m).1 = obasis m ∧
  length (ilayers (exec p m).1) = length (ilayers m) ∧ length (elayers (exec p m).1) = length (elayers m).
Proof.
  revert m. induction p as [r|i k IH|j k IH]; intros m Hm; [done| |]; simpl.
  - destruct (read_intent_coh m i Hm) as (H1 & H2 & H3 & H4 & H5 & H6).
    destruct (read_intent m i) as [m' r]. simpl in *. rewrite <-H1.
    destruct (IH r m' H2) as (G1 & G2 & G3 & G4 & G5 & G6). rewrite G1, G3, G4, G5, G6, H3, H4, H5, H6. done.
  - destruct (read_extent_coh m j Hm) as (H1 & H2 & H3 & H4 & H5 & H6).
    destruct (read_extent m j) as [m' r]. simpl in *. rewrite <-H1.
    destruct (IH r m' H2) as (G1 & G2 & G3 & G4 & G5 & G6). rewrite G1, G3, G4, G5, G6, H3, H4, H5, H6. done.
Qed.

(** ** A basis computation on a context without left-over wrappers *)
Lemma coh_push m : coh m → coh (push m).
Proof. intros [Hi He]. split; intros l i v [->|Hl]%elem_of_cons Hv; [done|by eapply Hi|done|by eapply He]. Qed.
Definition bare (m : mcxt) : Prop := ilayers m = [] ∧ elayers m = [].
Lemma bare_coh m : bare m → coh m.
Proof. intros [H1 H2]. unfold coh. rewrite H1, H2. split; intros ? ? ? ?%elem_of_nil; done. Qed.
Lemma basis_bare {A} m (p : prog A) : bare m →
  (basis_computation m (exec p)).2 = direct p (mc m) ∧
  mc (basis_computation m (exec p)).1 = mc m ∧ obasis (basis_computation m (exec p)).1 = obasis m ∧
  (is_ok (direct p (mc m)) = true → (basis_computation m (exec p)).1 = m) ∧
  (is_ok (direct p (mc m)) = false → length (ilayers (basis_computation m (exec p)).1) = 1 ∧ length (elayers (basis_computation m (exec p)).1) = 1).
Proof.
  intros Hb. pose proof (coh_push m (bare_coh m Hb)) as Hc. destruct Hb as [Hb1 Hb2].
  destruct (exec_coh p (push m) Hc) as (H1 & H2 & H3 & H4 & H5 & H6). unfold basis_computation.
  destruct (exec p (push m)) as [m' r]. simpl in *. rewrite <-H1. rewrite Hb1 in H5. rewrite Hb2 in H6. simpl in *.
  destruct r as [a|e]; simpl; [|done]. split; [done|]. split; [done|]. split; [done|]. split; [|done]. intros _.
  destruct m' as [c' il el ob], m as [c il0 el0 ob0]; simpl in *; subst. unfold pop; simpl.
  destruct il as [|? [|? ?]], el as [|? [|? ?]]; simpl in *; try done.
Qed.

(** ** get_object_implications with the default argument *)
Lemma compute_dg_basis_None t ords : good t → atts t ≠ [] → compute_dg_basis t ords None (λ _, true) = Err TypeError.
Proof.
  intros Hg Hne. unfold compute_dg_basis, generalized_compute_dg_basis. cbn [lin_close mbind res_bind].
  destruct (atts t) as [|a0 ms'] eqn:Ems; [done|]. rewrite <-Ems.
  assert (0 < length (atts t)) as Hlen by (rewrite Ems; simpl; lia).
  assert (∃ f, 2 ^ length (atts t) = S f) as [f ->].
  { exists (2 ^ length (atts t) - 1). assert (2 ^ length (atts t) ≠ 0) by (apply Nat.pow_nonzero; lia). lia. }
  assert (∀ R, dg_inner (atts t) (lin_close ords) None R ∅ (length (atts t)) = Err TypeError) as Hin.
  { intros R. destruct (length (atts t)) as [|n] eqn:En; [lia|]. simpl.
    destruct (atts t !! n) as [m|] eqn:Em; [|apply lookup_ge_None in Em; lia]. cbn.
    rewrite bool_decide_false by (clear; set_solver). done. }
  cbn [dg_loop]. rewrite size_empty. rewrite (proj2 (Nat.ltb_lt _ _) Hlen).
  assert (∃ ac, cxt_aclose t ∅ = (if comparable (elements (ac : gset name)) then Ok ac else Err TypeError) ∧ ac ⊆ list_to_set (atts t)) as (ac & Hac & Hsub).
  { unfold cxt_aclose, fn_aclosure. rewrite elements_empty. unfold fn_aprime at 1. simpl.
    rewrite fn_oprime_spec; [|done|].
    2: { intros x Hx%elem_of_elements. by apply elem_of_list_to_set in Hx. }
    simpl. rewrite list_to_set_elements_L. exists (up (abs t) (list_to_set (objs t))). split; [|apply up_sub].
    unfold py_sorted. destruct (comparable _); [|done]. simpl. f_equal. rewrite isort_Permutation. apply list_to_set_elements_L. }
  rewrite Hac. destruct (comparable _); [|done]. cbn [mbind res_bind].
  assert (∅ ∖ suf (atts t) (length (atts t)) = ∅) as -> by (clear; set_solver).
  assert ((ac ∖ ∅) ∩ pre (atts t) (length (atts t)) = ac) as ->.
  { unfold pre. rewrite take_ge by lia. clear -Hsub. set_solver. }
  case_bool_decide as Hn.
  - rewrite Hin. done.
  - subst ac. rewrite size_empty. rewrite (proj2 (Nat.eqb_neq _ _)) by lia. rewrite Hin. done.
Qed.
Lemma object_implications_default m ords : good (mc m) → objs (mc m) ≠ [] → obasis m = [] →
  get_object_implications m ords None = (push m, Err TypeError).
Proof.
  intros Hg Hne Ho. unfold get_object_implications, basis_computation. cbn [push mc obasis].
  destruct (transpose_spec (mc m)) as (t & -> & Hgt & _ & Hat & _); [apply Hg..|]. rewrite Ho.
  rewrite compute_dg_basis_None; [done|done|]. by rewrite Hat.
Qed.

(** ** Pinned reads *)
Definition pinned (ls : list cache) (i : nat) (v : gset name) : Prop := ∀ base, (memo_read base ls i).1 = Ok v.
Lemma memo_read_other base base' ls i j : i ≠ j →
  (memo_read base' (memo_read base ls i).2 j).1 = (memo_read base' ls j).1.
Proof.
  intros Hij. induction ls as [|l ls IH]; [done|]. simpl. destruct (l !! i); [done|].
  destruct (memo_read base ls i) as [[v|e] ls']; simpl in *.
  - rewrite lookup_insert_ne by done. destruct (l !! j); [done|].
    destruct (memo_read base' ls' j) as [[?|?] ?], (memo_read base' ls j) as [[?|?] ?]; simpl in *; by simplify_eq.
  - destruct (l !! j); [done|].
    destruct (memo_read base' ls' j) as [[?|?] ?], (memo_read base' ls j) as [[?|?] ?]; simpl in *; by simplify_eq.
Qed.
Lemma memo_read_tail base ls i : tail (memo_read base ls i).2 = tail ls ∨
  tail (memo_read base ls i).2 = (memo_read base (tail ls) i).2.
Proof.
  destruct ls as [|l ls]; [by left|]. simpl. destruct (l !! i); [by left|].
  destruct (memo_read base ls i) as [[?|?] ?]; by right.
Qed.
Lemma memo_read_pins base ls i v : ls ≠ [] → (memo_read base ls i).1 = Ok v → pinned (memo_read base ls i).2 i v.
Proof.
  destruct ls as [|l ls]; [done|]. intros _. simpl. destruct (l !! i) as [w|] eqn:E.
  - simpl. intros [= ->] b. simpl. by rewrite E.
  - destruct (memo_read base ls i) as [[w|e] ls']; simpl; [|done]. intros [= ->] b. simpl. by rewrite lookup_insert.
Qed.
Lemma pinned_nonempty ls i v : pinned ls i v → ls ≠ [].
Proof. intros H ->. by specialize (H (Err KeyError)). Qed.
Lemma pinned_read ls j v base i : pinned ls j v → pinned (memo_read base ls i).2 j v.
Proof.
  intros H. destruct (decide (i = j)) as [<-|Hij].
  - apply memo_read_pins; [by eapply pinned_nonempty|apply H].
  - intros b. rewrite memo_read_other by done. apply H.
Qed.
Lemma pinned_push ls j v : pinned ls j v → pinned (∅ :: ls) j v.
Proof. intros H b. simpl. rewrite lookup_empty. specialize (H b). destruct (memo_read b ls j) as [[?|?] ?]; done. Qed.
Lemma pinned_tail_read ls j v base i : pinned (tail ls) j v → pinned (tail (memo_read base ls i).2) j v.
Proof. intros H. destruct (memo_read_tail base ls i) as [-> | ->]; [done|by apply pinned_read]. Qed.

Section pin.
  Context (j : nat) (v : gset name).
  Lemma read_intent_pin m i (f : list cache → list cache) : (∀ base ls k, pinned (f ls) j v → pinned (f (memo_read base ls k).2) j v) →
    (pinned (f (ilayers m)) j v → pinned (f (ilayers (read_intent m i).1)) j v) ∧
    (pinned (f (elayers m)) j v → pinned (f (elayers (read_intent m i).1)) j v) ∧
    (pinned (f (ilayers m)) j v → pinned (f (ilayers (read_extent m i).1)) j v) ∧
    (pinned (f (elayers m)) j v → pinned (f (elayers (read_extent m i).1)) j v).
  Proof.
    intros Hf. unfold read_intent, read_extent.
    pose proof (Hf (get_object_intent_by_index (mc m) i) (ilayers m) i) as H1.
    pose proof (Hf (get_attribute_extent_by_index (mc m) i) (elayers m) i) as H2.
    destruct (memo_read _ (ilayers m) i), (memo_read _ (elayers m) i). simpl in *. done.
  Qed.
  Lemma exec_pin {A} (p : prog A) m (f : list cache → list cache) : (∀ base ls k, pinned (f ls) j v → pinned (f (memo_read base ls k).2) j v) →
    (pinned (f (ilayers m)) j v → pinned (f (ilayers (exec p m).1)) j v) ∧
    (pinned (f (elayers m)) j v → pinned (f (elayers (exec p m).1)) j v).
  Proof.
    intros Hf. revert m. induction p as [r|i k IH|i k IH]; intros m; [done| |]; simpl.
    - destruct (read_intent_pin m i f Hf) as (H1 & H2 & _). destruct (read_intent m i) as [m' r]. simpl in *.
      destruct (IH r m'). split; auto.
    - destruct (read_intent_pin m i f Hf) as (_ & _ & H1 & H2). destruct (read_extent m i) as [m' r]. simpl in *.
      destruct (IH r m'). split; auto.
  Qed.
  Lemma basis_pin {A} (p : prog A) m :
    (pinned (ilayers m) j v → pinned (ilayers (basis_computation m (exec p)).1) j v) ∧
    (pinned (elayers m) j v → pinned (elayers (basis_computation m (exec p)).1) j v).
  Proof.
    destruct (exec_pin p (push m) id (λ b ls k, pinned_read ls j v b k)) as [H1 H2].
    destruct (exec_pin p (push m) tail (λ b ls k, pinned_tail_read ls j v b k)) as [H3 H4].
    unfold basis_computation. destruct (exec p (push m)) as [m' [a|e]]; simpl in *.
    - split; auto.
    - split; intros H; [apply H1|apply H2]; by apply pinned_push.
  Qed.
  Lemma objimps_layers m ords conf :
    let m' := (get_object_implications m ords conf).1 in
    mc m' = mc m ∧ ((ilayers m' = ilayers m ∧ elayers m' = elayers m ∧ is_ok (get_object_implications m ords conf).2 = true) ∨
     (ilayers m' = ∅ :: ilayers m ∧ elayers m' = ∅ :: elayers m ∧ is_ok (get_object_implications m ords conf).2 = false)).
  Proof.
    unfold get_object_implications, basis_computation. cbn [push mc obasis].
    destruct (transpose (mc m)) as [t|e]; [|simpl; auto]. destruct (obasis m); [|simpl; auto].
    destruct (compute_dg_basis t ords conf _); simpl; auto.
  Qed.
  Lemma mstep_pin m o :
    (pinned (ilayers m) j v → pinned (ilayers (mstep m o).1) j v) ∧
    (pinned (elayers m) j v → pinned (elayers (mstep m o).1) j v).
  Proof.
    destruct o as [o|i|i|p|ords conf]; simpl.
    - done.
    - destruct (read_intent_pin m i id (λ b ls k, pinned_read ls j v b k)) as (H1 & H2 & _). by destruct (read_intent m i).
    - destruct (read_intent_pin m i id (λ b ls k, pinned_read ls j v b k)) as (_ & _ & H1 & H2). by destruct (read_extent m i).
    - pose proof (basis_pin p m) as [H1 H2]. by destruct (basis_computation m (exec p)).
    - pose proof (objimps_layers m ords conf) as [_ H]. destruct (get_object_implications m ords conf) as [m' r]. simpl in *.
      destruct H as [(-> & -> & _)|(-> & -> & _)]; [done|]. split; apply pinned_push.
  Qed.
  Lemma mrun_pin m l :
    (pinned (ilayers m) j v → pinned (ilayers (mrun m l)) j v) ∧
    (pinned (elayers m) j v → pinned (elayers (mrun m l)) j v).
  Proof.
    revert m. induction l as [|o l IH]; intros m; [done|]. simpl.
    destruct (mstep_pin m o), (IH (mstep m o).1). split; auto.
  Qed.
End pin.
Lemma stale_forever m i v l : ilayers m ≠ [] → (read_intent m i).2 = Ok v →
  (read_intent (mrun (read_intent m i).1 l) i).2 = Ok v.
Proof.
  intros Hne Hr. assert (pinned (ilayers (read_intent m i).1) i v) as Hp.
  { unfold read_intent in *. pose proof (memo_read_pins (get_object_intent_by_index (mc m) i) (ilayers m) i v Hne) as H.
    destruct (memo_read _ _ i) as [r ls]. simpl in *. auto. }
  apply (proj1 (mrun_pin i v _ l)) in Hp. set (m' := mrun _ l) in *. unfold read_intent.
  pose proof (Hp (get_object_intent_by_index (mc m') i)) as H. destruct (memo_read _ _ i). done.
Qed.
Lemma stale_forever_extent m i v l : elayers m ≠ [] → (read_extent m i).2 = Ok v →
  (read_extent (mrun (read_extent m i).1 l) i).2 = Ok v.
Proof.
  intros Hne Hr. assert (pinned (elayers (read_extent m i).1) i v) as Hp.
  { unfold read_extent in *. pose proof (memo_read_pins (get_attribute_extent_by_index (mc m) i) (elayers m) i v Hne) as H.
    destruct (memo_read _ _ i) as [r ls]. simpl in *. auto. }
  apply (proj2 (mrun_pin i v _ l)) in Hp. set (m' := mrun _ l) in *. unfold read_extent.
  pose proof (Hp (get_attribute_extent_by_index (mc m') i)) as H. destruct (memo_read _ _ i). done.
Qed.

(** ** Histories without failed basis computations *)
Definition is_basis (o : mop) : bool := match o with MBasis _ | MObjImps _ _ => true | _ => false end.
(** No basis computation of the history raised. *)
Fixpoint calm (m : mcxt) (l : list mop) : Prop :=
  match l with
  | [] => True
  | o :: l' => (is_basis o = true → (mstep m o).2 = false) ∧ calm (mstep m o).1 l'
  end.
(** The mutating calls of a history. *)
Fixpoint mutators (l : list mop) : list op :=
  match l with [] => [] | MMutate o :: l' => o :: mutators l' | _ :: l' => mutators l' end.
Lemma calm_bare m l : bare m → calm m l → bare (mrun m l) ∧ mc (mrun m l) = run (mc m) (mutators l).
Proof.
  revert m. induction l as [|o l IH]; intros m Hb; [done|]. intros [Ho Hc].
  destruct o as [o|i|i|p|ords conf]; cbn [mutators run mrun].
  - destruct (IH (mstep m (MMutate o)).1) as [H1 H2]; [done|done|]. split; [done|]. by rewrite H2.
  - pose proof (bare_coh m Hb) as Hcoh. destruct (read_intent_coh m i Hcoh) as (_ & _ & H3 & _ & H5 & H6).
    cbn [mstep] in *. destruct (read_intent m i) as [m' r]. cbn [fst] in *. destruct Hb as [Hb1 Hb2].
    rewrite <-H3. apply IH; [|done]. split; [|by rewrite H6]. apply nil_length_inv. by rewrite H5, Hb1.
  - pose proof (bare_coh m Hb) as Hcoh. destruct (read_extent_coh m i Hcoh) as (_ & _ & H3 & _ & H5 & H6).
    cbn [mstep] in *. destruct (read_extent m i) as [m' r]. cbn [fst] in *. destruct Hb as [Hb1 Hb2].
    rewrite <-H3. apply IH; [|done]. split; [by rewrite H6|]. apply nil_length_inv. by rewrite H5, Hb2.
  - destruct (basis_bare m p Hb) as (H1 & H2 & H3 & H4 & H5). cbn [mstep] in *.
    destruct (basis_computation m (exec p)) as [m' r]. cbn [fst snd] in *. specialize (Ho eq_refl).
    rewrite <-H1 in H4. apply negb_false_iff in Ho. rewrite (H4 Ho) in *. by apply IH.
  - pose proof (objimps_layers m ords conf) as [H1 H2]. cbn [mstep] in *.
    destruct (get_object_implications m ords conf) as [m' r]. cbn [fst snd] in *. specialize (Ho eq_refl).
    apply negb_false_iff in Ho. destruct H2 as [(H2 & H3 & _)|(_ & _ & H2)]; [|congruence].
    destruct Hb. rewrite <-H1. apply IH; [split; congruence|done].
Qed.
Lemma calm_reads c l : calm (fresh c) l →
  let m := mrun (fresh c) l in
  mc m = run c (mutators l) ∧
  (∀ o, (m_object_intent m o).2 = get_object_intent (run c (mutators l)) o) ∧
  (∀ a, (m_attribute_extent m a).2 = get_attribute_extent (run c (mutators l)) a) ∧
  (∀ A (p : prog A), (basis_computation m (exec p)).2 = direct p (run c (mutators l))).
Proof.
  intros Hc m. destruct (calm_bare (fresh c) l) as [Hb Hm]; [done|done|]. fold m in Hb, Hm. simpl in Hm.
  split; [done|]. pose proof (bare_coh m Hb) as Hcoh. split; [|split].
  - intros o. unfold m_object_intent, get_object_intent. rewrite <-Hm. destruct (oind (mc m) o) as [i|]; [|done].
    apply read_intent_coh, Hcoh.
  - intros o. unfold m_attribute_extent, get_attribute_extent. rewrite <-Hm. destruct (aind (mc m) o) as [i|]; [|done].
    apply read_extent_coh, Hcoh.
  - intros A p. rewrite <-Hm. by apply basis_bare.
Qed.

(** ** Every value read is the value of some past table *)
Definition sourced (P : nat → gset name → Prop) (ls : list cache) : Prop := ∀ l i v, l ∈ ls → l !! i = Some v → P i v.
Lemma memo_read_sourced (P : nat → gset name → Prop) base ls i : (∀ v, base = Ok v → P i v) → sourced P ls →
  (∀ v, (memo_read base ls i).1 = Ok v → P i v) ∧ sourced P (memo_read base ls i).2.
Proof.
  intros Hb. induction ls as [|l ls IH]; intros H; [done|]. simpl.
  assert (sourced P ls) as H' by (intros l' j v Hl; apply H; by right).
  destruct (l !! i) as [v|] eqn:E.
  - simpl. split; [|done]. intros w [= <-]. apply (H l i v); [by left|done].
  - destruct (IH H') as [H1 H2]. destruct (memo_read base ls i) as [[v|e] ls']; simpl in *.
    + split; [done|]. intros l' j w [->|Hl]%elem_of_cons Hj; [|by apply (H2 l' j w)].
      destruct (decide (i = j)) as [<-|Hij].
      * rewrite lookup_insert in Hj. injection Hj as <-. by apply H1.
      * rewrite lookup_insert_ne in Hj by done. apply (H l j w); [by left|done].
    + split; [done|]. intros l' j w [->|Hl]%elem_of_cons Hj; [|by apply (H2 l' j w)]. apply (H l j w); [by left|done].
Qed.
Section past.
  Context (PI PE : nat → gset name → Prop).
  Definition src (m : mcxt) : Prop := sourced PI (ilayers m) ∧ sourced PE (elayers m).
  Definition base_ok (c : context) : Prop :=
    (∀ i v, get_object_intent_by_index c i = Ok v → PI i v) ∧ (∀ i v, get_attribute_extent_by_index c i = Ok v → PE i v).
  Lemma reads_src m i : base_ok (mc m) → src m →
    (src (read_intent m i).1 ∧ mc (read_intent m i).1 = mc m ∧ ∀ v, (read_intent m i).2 = Ok v → PI i v) ∧
    (src (read_extent m i).1 ∧ mc (read_extent m i).1 = mc m ∧ ∀ v, (read_extent m i).2 = Ok v → PE i v).
  Proof.
    intros [HI HE] [SI SE]. unfold read_intent, read_extent.
    destruct (memo_read_sourced PI _ (ilayers m) i (HI i) SI) as [H1 H2].
    destruct (memo_read_sourced PE _ (elayers m) i (HE i) SE) as [H3 H4].
    destruct (memo_read _ (ilayers m) i), (memo_read _ (elayers m) i). done.
  Qed.
  Lemma exec_src {A} (p : prog A) m : base_ok (mc m) → src m → src (exec p m).1 ∧ mc (exec p m).1 = mc m.
  Proof.
    revert m. induction p as [r|i k IH|i k IH]; intros m Hb Hs; [done| |]; simpl.
    - destruct (reads_src m i Hb Hs) as [(H1 & H2 & _) _]. destruct (read_intent m i) as [m' r]. simpl in *.
      rewrite <-H2. apply IH; [by rewrite H2|done].
    - destruct (reads_src m i Hb Hs) as [_ (H1 & H2 & _)]. destruct (read_extent m i) as [m' r]. simpl in *.
      rewrite <-H2. apply IH; [by rewrite H2|done].
  Qed.
  Lemma push_src m : src m → src (push m).
  Proof. intros [HI HE]. split; intros l i v [->|Hl]%elem_of_cons Hv; [done|by eapply HI|done|by eapply HE]. Qed.
  Lemma pop_src m : src m → src (pop m).
  Proof.
    intros [HI HE]. split; simpl.
    - intros l i v Hl. apply HI. destruct (ilayers m); [done|by right].
    - intros l i v Hl. apply HE. destruct (elayers m); [done|by right].
  Qed.
  Lemma mstep_src m o : base_ok (mc m) → src m → src (mstep m o).1.
  Proof.
    intros Hb Hs. destruct o as [o|i|i|p|ords conf]; cbn [mstep].
    - done.
    - destruct (reads_src m i Hb Hs) as [(H1 & _) _]. by destruct (read_intent m i).
    - destruct (reads_src m i Hb Hs) as [_ (H1 & _)]. by destruct (read_extent m i).
    - unfold basis_computation. destruct (exec_src p (push m) Hb (push_src m Hs)) as [H1 _].
      destruct (exec p (push m)) as [m' [?|?]]; simpl in *; [by apply pop_src|done].
    - pose proof (objimps_layers m ords conf) as [_ H]. destruct (get_object_implications m ords conf) as [m' r]. simpl in *.
      destruct H as [(H1 & H2 & _)|(H1 & H2 & _)].
      + unfold src. by rewrite H1, H2.
      + unfold src. rewrite H1, H2. by apply push_src.
  Qed.
End past.
Lemma mrun_app m l k : mrun m (l ++ k) = mrun (mrun m l) k.
Proof. revert m. induction l as [|o l IH]; intros m; [done|]. apply IH. Qed.
Definition past_intent (c : context) (l : list mop) (i : nat) (v : gset name) : Prop :=
  ∃ l1 l2, l = l1 ++ l2 ∧ get_object_intent_by_index (mc (mrun (fresh c) l1)) i = Ok v.
Definition past_extent (c : context) (l : list mop) (i : nat) (v : gset name) : Prop :=
  ∃ l1 l2, l = l1 ++ l2 ∧ get_attribute_extent_by_index (mc (mrun (fresh c) l1)) i = Ok v.
Lemma src_mono (P P' Q Q' : nat → gset name → Prop) m : (∀ i v, P i v → P' i v) → (∀ i v, Q i v → Q' i v) → src P Q m → src P' Q' m.
Proof. intros H1 H2 [HI HE]. split; intros l i v Hl Hv; [apply H1; by eapply HI|apply H2; by eapply HE]. Qed.
Lemma base_ok_mono (P P' Q Q' : nat → gset name → Prop) c : (∀ i v, P i v → P' i v) → (∀ i v, Q i v → Q' i v) → base_ok P Q c → base_ok P' Q' c.
Proof. intros H1 H2 [HI HE]. split; auto. Qed.
Lemma past_base c l : base_ok (past_intent c l) (past_extent c l) (mc (mrun (fresh c) l)).
Proof. split; intros i v H; exists l, []; by rewrite app_nil_r. Qed.
Lemma mrun_src c l : src (past_intent c l) (past_extent c l) (mrun (fresh c) l).
Proof.
  induction l as [|o l IH] using rev_ind.
  - split; intros ? ? ? ?%elem_of_nil; done.
  - rewrite mrun_app. simpl. apply mstep_src.
    + eapply base_ok_mono; [| |apply past_base]; intros i v (l1 & l2 & -> & H); exists l1, (l2 ++ [o]); by rewrite app_assoc.
    + eapply src_mono; [| |apply IH]; intros i v (l1 & l2 & -> & H); exists l1, (l2 ++ [o]); by rewrite app_assoc.
Qed.
Lemma reads_past c l :
  (∀ i v, (read_intent (mrun (fresh c) l) i).2 = Ok v → past_intent c l i v) ∧
  (∀ i v, (read_extent (mrun (fresh c) l) i).2 = Ok v → past_extent c l i v).
Proof.
  split; intros i v.
  - apply (reads_src (past_intent c l) (past_extent c l) (mrun (fresh c) l) i); [apply past_base|apply mrun_src].
  - apply (reads_src (past_intent c l) (past_extent c l) (mrun (fresh c) l) i); [apply past_base|apply mrun_src].
Qed.

(** ** Object implications with an explicit empty background *)
From Verif Require Import ContextReduce DgFinal.
Lemma object_implications_spec m ords : good (mc m) → comparable (objs (mc m)) = true → good_ords ords → obasis m = [] →
  ∃ R, get_object_implications m ords (Some []) = (MCxt (mc m) (ilayers m) (elayers m) R, Ok R) ∧
    (∀ i, i ∈ R → i.2 = ocl (abs (mc m)) i.1) ∧
    pseudo_family (fG (abs (mc m))) (ocl (abs (mc m))) [] (λ P, P ∈ map fst R) ∧
    StronglySorted (lectic (objs (mc m))) (map fst R).
Proof.
  intros Hg Hc Ho Hb. destruct (transpose_spec (mc m)) as (t & Ht & Hgt & _ & Hat & _); [apply Hg..|].
  pose proof (transpose_abs (mc m) t (good_wf _ Hg) (good_distinct _ Hg) Ht) as Habs.
  assert (∀ i, i ∈ [] → i.1 ⊆ fM (abs t) ∧ i.2 ⊆ fM (abs t)) as H0 by by intros ? ?%elem_of_nil.
  rewrite <-Hat in Hc |- *.
  destruct (dg_exact t Hgt Hc [] H0 (or_intror eq_refl)) as (R & HR & H1 & H2 & H3).
  rewrite <-(dg_both t Hgt Hc [] H0 (or_intror eq_refl) ords Ho) in HR by done.
  exists R. unfold get_object_implications, basis_computation. cbn [push mc obasis]. rewrite Ht, Hb, HR.
  split; [done|]. assert (∀ X, acl (abs t) X = ocl (abs (mc m)) X) as E by (intros X; by rewrite ocl_ftrans, Habs).
  split; [intros i Hi; rewrite <-E; by apply H1|]. split; [|done].
  assert (fM (abs t) = fG (abs (mc m))) as EM by by rewrite Habs.
  rewrite <-EM. intros P. specialize (H2 P). rewrite H2. rewrite E. by setoid_rewrite E.
Qed.
Lemma object_implications_cached m ords conf : wf (mc m) → distinct (mc m) → obasis m ≠ [] →
  get_object_implications m ords conf = (m, Ok (obasis m)).
Proof.
  intros Hw Hd Hne. destruct (transpose_spec (mc m) Hw Hd) as (t & Ht & _).
  unfold get_object_implications, basis_computation. cbn [push mc obasis]. rewrite Ht.
  destruct m as [c il el [|R ob]]; done.
Qed.
