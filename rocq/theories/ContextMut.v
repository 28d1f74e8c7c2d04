(** * Mutators: invariant, atomicity, exact effects *)
From Verif Require Import Py Spec ContextModel ContextSpec ContextOps PyFacts SpecFacts ContextFacts ContextInit.

(** ** Lists with positions removed *)
Fixpoint keep_from {A} (k : nat) (inds : list nat) (l : list A) : list A :=
  match l with
  | [] => []
  | x :: l' => if decide (k ∈ inds) then keep_from (S k) inds l'
               else x :: keep_from (S k) inds l'
  end.
Lemma del_cols_keep inds r : del_cols inds r = keep_from 0 inds r.
Proof.
  unfold del_cols. 
  assert (∀ k, map snd (filter (λ p : nat * bool, p.1 ∉ inds) (imap (λ i b, (k + i, b)) r)) = keep_from k inds r) as H.
  { induction r as [|b r IH]; intros k; [done|]. cbn [imap keep_from]. rewrite filter_cons. simpl.
    rewrite Nat.add_0_r.
    assert (map snd (filter (λ p : nat * bool, p.1 ∉ inds) (imap ((λ (i : nat) (b0 : bool), (k + i, b0)) ∘ S) r)) = keep_from (S k) inds r) as HH.
    { rewrite <-IH. f_equal. f_equal. apply imap_ext. intros i x _. simpl. f_equal. lia. }
    destruct (decide (k ∈ inds)).
    - rewrite decide_False by (simpl; naive_solver). done.
    - rewrite decide_True by done. simpl. by rewrite HH. }
  apply (H 0).
Qed.
Lemma keep_from_all {A} k inds (l : list A) : (∀ p, p ∈ inds → p < k) → keep_from k inds l = l.
Proof.
  revert k; induction l as [|x l IH]; intros k H; simpl; [done|].
  rewrite decide_False by (intros ?%H; lia). f_equal. apply IH. intros p ?%H. lia.
Qed.
Lemma keep_from_cons_max {A} k i rest (l : list A) :
  k ≤ i → (∀ p, p ∈ rest → p < i) → keep_from k (i :: rest) l = keep_from k rest (delete (i - k) l).
Proof.
  revert k; induction l as [|x l IH]; intros k Hk Hrest; [by destruct (i - k)|].
  destruct (decide (k = i)) as [->|].
  - rewrite Nat.sub_diag. simpl. rewrite decide_True by left.
    rewrite !keep_from_all; [done|done|]. intros p [->|?%Hrest]%elem_of_cons; lia.
  - replace (i - k) with (S (i - S k)) by lia. simpl.
    destruct (decide (k ∈ rest)).
    + rewrite decide_True by by right. apply IH; [lia|done].
    + rewrite decide_False by (rewrite elem_of_cons; naive_solver). f_equal. apply IH; [lia|done].
Qed.
Lemma elem_of_keep_from {A} k inds (l : list A) x :
  x ∈ keep_from k inds l ↔ ∃ i, l !! i = Some x ∧ k + i ∉ inds.
Proof.
  revert k; induction l as [|y l IH]; intros k; simpl.
  - split; [by intros ?%elem_of_nil|]. intros (i & Hi & _). done.
  - assert (x ∈ keep_from (S k) inds l ↔ ∃ i, (y :: l) !! S i = Some x ∧ k + S i ∉ inds) as H.
    { rewrite IH. apply exist_proper. intros i. simpl. by replace (k + S i) with (S (k + i)) by lia. }
    destruct (decide (k ∈ inds)).
    + rewrite H. split; [naive_solver|]. intros ([|i] & Hi & Hn); [rewrite Nat.add_0_r in Hn; done|eauto].
    + rewrite elem_of_cons, H. split.
      * intros [->|(i & ? & ?)]; [exists 0; rewrite Nat.add_0_r; done|eauto].
      * intros ([|i] & Hi & Hn); [left; simpl in Hi; congruence|right; eauto].
Qed.
Lemma keep_from_length_eq {A B} k inds (l : list A) (l' : list B) :
  length l = length l' → length (keep_from k inds l) = length (keep_from k inds l').
Proof.
  revert k l'; induction l as [|x l IH]; intros k [|y l']; simpl; [done..|].
  intros H. destruct (decide _); simpl; [|f_equal]; apply IH; lia.
Qed.
Lemma zip_keep_from {A B} k inds (l : list A) (l' : list B) :
  zip (keep_from k inds l) (keep_from k inds l') = keep_from k inds (zip l l').
Proof.
  revert k l'; induction l as [|x l IH]; intros k [|y l']; simpl; [done..| |].
  - by destruct (if decide _ then _ else _).
  - destruct (decide _); simpl; [done|]. by rewrite IH.
Qed.
Lemma NoDup_keep_from {A} k inds (l : list A) : NoDup l → NoDup (keep_from k inds l).
Proof.
  intros H. revert k. induction H as [|x l Hx _ IH]; intros k; simpl; [constructor|].
  destruct (decide _); [done|]. constructor; [|done].
  intros (i & Hi & _)%elem_of_keep_from. apply Hx. by eapply elem_of_list_lookup_2.
Qed.
Lemma delete_keep_from {A} i (l : list A) : delete i l = keep_from 0 [i] l.
Proof. rewrite keep_from_cons_max; [|lia|by intros ? ?%elem_of_nil]. rewrite keep_from_all by by intros ? ?%elem_of_nil. by rewrite Nat.sub_0_r. Qed.
Lemma keep_from_filter (l : list name) (inds : list nat) (ns : list name) :
  (∀ i x, l !! i = Some x → i ∈ inds ↔ x ∈ ns) →
  keep_from 0 inds l = filter (λ x, x ∉ ns) l.
Proof.
  assert (∀ k, (∀ i x, l !! i = Some x → k + i ∈ inds ↔ x ∈ ns) →
    keep_from k inds l = filter (λ x, x ∉ ns) l) as H; [|apply (H 0)].
  induction l as [|y l IH]; intros k H; simpl; [done|].
  rewrite filter_cons.
  pose proof (H 0 y eq_refl) as H0. rewrite Nat.add_0_r in H0.
  assert (keep_from (S k) inds l = filter (λ x, x ∉ ns) l) as Hr.
  { apply IH. intros i x Hx. specialize (H (S i) x Hx). by rewrite Nat.add_succ_r in H. }
  destruct (decide (k ∈ inds)).
  - rewrite decide_False by naive_solver. done.
  - rewrite decide_True by naive_solver. by f_equal.
Qed.

(** Sorted descending, pairwise different. *)
Fixpoint desc (l : list nat) : Prop :=
  match l with [] => True | i :: l' => (∀ p, p ∈ l' → p < i) ∧ desc l' end.
Lemma isort_desc inds : NoDup inds → desc (isort (fun i j => (j <=? i)%nat) inds).
Proof.
  intros Hnd. assert (Sorted (λ i j, (j <=? i)%nat = true) (isort (fun i j => (j <=? i)%nat) inds)) as Hs.
  { apply isort_Sorted. intros x y. rewrite Nat.leb_gt, Nat.leb_le. lia. }
  rewrite <-(isort_Permutation (fun i j => (j <=? i)%nat)) in Hnd.
  apply Sorted_StronglySorted in Hs.
  2:{ intros x y z. rewrite !Nat.leb_le. lia. }
  revert Hnd. induction Hs as [|i l Hl IH Hi]; simpl; [done|].
  intros [Hn Hnd]%NoDup_cons. split; [|auto].
  intros p Hp. rewrite Forall_forall in Hi. pose proof (Hi p Hp) as Hle. apply Nat.leb_le in Hle.
  assert (p ≠ i) by (intros ->; done). lia.
Qed.
Lemma del_all_desc l inds : desc inds → (∀ i, i ∈ inds → i < length l) →
  del_all l inds = (keep_from 0 inds l, Ok tt).
Proof.
  revert l; induction inds as [|i inds IH]; intros l Hd Hl; simpl.
  - by rewrite keep_from_all by by intros ? ?%elem_of_nil.
  - destruct Hd as [Hlt Hd]. assert (i < length l) as Hi by (apply Hl; left).
    rewrite (proj2 (Nat.ltb_lt _ _) Hi).
    rewrite IH; [|done|].
    + rewrite keep_from_cons_max by (done || lia). by rewrite Nat.sub_0_r.
    + intros p Hp. specialize (Hlt _ Hp). rewrite length_delete by by apply lookup_lt_is_Some. lia.
Qed.
Lemma keep_from_elems {A} inds inds' (l : list A) k :
  (∀ p, p ∈ inds ↔ p ∈ inds') → keep_from k inds l = keep_from k inds' l.
Proof.
  intros H. revert k; induction l as [|x l IH]; intros k; simpl; [done|].
  rewrite IH. destruct (decide (k ∈ inds)) as [Hk|Hk]; destruct (decide (k ∈ inds')) as [Hk'|Hk']; naive_solver.
Qed.

(** ** Incidence through [zip] *)
Lemma elem_of_zip {A B} (l : list A) (k : list B) x y :
  (x, y) ∈ zip l k ↔ ∃ i, l !! i = Some x ∧ k !! i = Some y.
Proof.
  rewrite elem_of_lookup_zip_with. split.
  - intros (i & x' & y' & [= <- <-] & ? & ?). eauto.
  - intros (i & ? & ?). exists i, x, y. done.
Qed.
Lemma incident_zip c g m :
  incident c g m ↔ ∃ r, (g, r) ∈ zip (objs c) (np c) ∧ (m, true) ∈ zip (atts c) r.
Proof.
  unfold incident. setoid_rewrite elem_of_zip. naive_solver.
Qed.

(** ** Invariant *)
Lemma reinit_wf c t z os ats c' r :
  reinit c t z os ats = (c', r) → wf c → wf c'.
Proof.
  unfold reinit. destruct (mk_context t z os ats) eqn:E; intros [= <- <-]; [|done].
  intros _. by eapply mk_context_wf.
Qed.
Lemma reinit_Ok c t z os ats :
  length t = length os → (∀ r, r ∈ t → length r = length ats) →
  ∃ c', reinit c t z os ats = (c', Ok tt) ∧ mk_context t z os ats = Ok c'.
Proof.
  intros H1 H2. destruct (mk_context_ok t z os ats H1 H2) as [c' Hc'].
  exists c'. unfold reinit. by rewrite Hc'.
Qed.
Lemma reinit_shape c t z os ats c' r :
  length t = length os → (∀ r, r ∈ t → length r = length ats) → reinit c t z os ats = (c', r) → wf c' ∧ r = Ok tt.
Proof.
  intros H1 H2 Hr. destruct (reinit_Ok c t z os ats H1 H2) as (c'' & Hc & Hmk). rewrite Hc in Hr. injection Hr as <- <-.
  split; [by eapply mk_context_wf|done].
Qed.
Lemma rows_length c r : wf c → r ∈ np c → length r = length (atts c).
Proof. intros H [i Hi]%elem_of_list_lookup. by eapply wf_cols. Qed.

Lemma delete_object_ok c o : wf c → o ∈ objs c →
  ∃ i c', oind c o = Ok i ∧ objs c !! i = Some o ∧ delete_object c o = (c', Ok tt) ∧
    mk_context (delete i (np c)) None (delete i (objs c)) (atts c) = Ok c'.
Proof.
  intros Hwf Ho. destruct (oind_Ok c Hwf o Ho) as [i Hi].
  pose proof (oind_lt c Hwf o i Hi) as Hlk.
  assert (i < length (np c)) as Hlt by (rewrite (wf_rows c Hwf); by eapply lookup_lt_Some).
  unfold delete_object. rewrite Hi. rewrite (proj2 (Nat.ltb_lt _ _) Hlt).
  edestruct (reinit_Ok) as (c' & Hc' & Hmk); [| |exists i, c'; split; [done|]; split; [done|]; split; [exact Hc'|exact Hmk]].
  - rewrite !length_delete; [|by eauto|by apply lookup_lt_is_Some]. by rewrite (wf_rows c Hwf).
  - intros r Hr. apply rows_length; [done|]. apply elem_of_list_lookup in Hr as [k Hk].
    destruct (decide (k < i)).
    + rewrite lookup_delete_lt in Hk by done. by eapply elem_of_list_lookup_2.
    + rewrite lookup_delete_ge in Hk by lia. by eapply elem_of_list_lookup_2.
Qed.

Lemma np_delete_cols_ok c inds t z : wf c → np_delete_cols c inds = Ok (t, z) →
  t = map (keep_from 0 inds) (np c) ∧ (np c ≠ [] → ∀ i, i ∈ inds → i < length (atts c)).
Proof.
  intros Hwf. unfold np_delete_cols. destruct (np c) as [|r0 rs] eqn:E.
  - destruct (npz c) as [k|]; [|done]. case_match; [|done]. intros [= <- <-]. done.
  - case_match eqn:Hf; [|done]. intros [= <- <-]. split.
    + simpl. rewrite del_cols_keep. f_equal. apply list_fmap_ext. intros i r _. apply del_cols_keep.
    + intros _ i Hi. rewrite forallb_forall in Hf. specialize (Hf r0 (or_introl eq_refl)).
      rewrite forallb_forall in Hf. apply elem_of_list_In, Hf, Nat.ltb_lt in Hi.
      rewrite <-(rows_length c r0); [done|done|]. rewrite E. left.
Qed.
Lemma delete_attribute_ok c a c1 r : wf c → delete_attribute c a = (c1, r) →
  (∃ e, r = Err e ∧ c1 = c) ∨
  (∃ j, r = Ok tt ∧ aind c a = Ok j ∧
     mk_context (map (keep_from 0 [j]) (np c)) None (objs c) (delete j (atts c)) = Ok c1).
Proof.
  intros Hwf. unfold delete_attribute.
  destruct (aind c a) as [j|e] eqn:Hj; simpl; [|intros [= <- <-]; eauto].
  destruct (np_delete_cols c [j]) as [[t z]|e] eqn:Ht; simpl; [|intros [= <- <-]; eauto].
  apply np_delete_cols_ok in Ht as [-> Hne]; [|done].
  edestruct (reinit_Ok) as (c' & Hc' & Hmk); [| |rewrite Hc'; intros [= <- <-]; right; exists j; eauto].
  - rewrite map_length. apply wf_rows, Hwf.
  - intros r' (r0 & -> & Hr0)%elem_of_list_fmap. rewrite delete_keep_from.
    apply keep_from_length_eq. by apply rows_length.
Qed.
Lemma delete_attributes_ok c ns c1 r : wf c → NoDup ns → delete_attributes c ns = (c1, r) →
  (∃ e, r = Err e ∧ c1 = c) ∨
  (∃ inds, r = Ok tt ∧ mapM (aind c) ns = Ok inds ∧
     mk_context (map (keep_from 0 inds) (np c)) None (objs c) (keep_from 0 inds (atts c)) = Ok c1).
Proof.
  intros Hwf Hns. unfold delete_attributes.
  destruct (mapM (aind c) ns) as [inds|e] eqn:Hj; simpl; [|intros [= <- <-]; eauto].
  destruct (np_delete_cols c inds) as [[t z]|e] eqn:Ht; simpl; [|intros [= <- <-]; eauto].
  apply np_delete_cols_ok in Ht as [-> Hne]; [|done].
  assert (NoDup inds) as Hnd.
  { apply NoDup_alt. intros p q i Hp Hq.
    destruct (mapM_lookup_r _ _ _ _ _ Hj Hp) as (x & Hx & Hxi).
    destruct (mapM_lookup_r _ _ _ _ _ Hj Hq) as (y & Hy & Hyi).
    apply aind_lt in Hxi, Hyi; [|done..]. rewrite Hxi in Hyi. simplify_eq.
    by eapply NoDup_lookup. }
  assert (∀ i, i ∈ inds → i < length (atts c)) as Hlt.
  { intros i Hi. apply (mapM_elem _ _ _ _ Hj) in Hi as (x & _ & Hx). apply aind_lt in Hx; [|done].
    by eapply lookup_lt_Some. }
  rewrite del_all_desc.
  2:{ by apply isort_desc. }
  2:{ intros i Hi. apply elem_of_isort in Hi. auto. }
  rewrite (keep_from_elems _ inds) by (intros; apply elem_of_isort).
  edestruct (reinit_Ok) as (c' & Hc' & Hmk); [| |rewrite Hc'; intros [= <- <-]; right; exists inds; eauto].
  - rewrite map_length. apply wf_rows, Hwf.
  - intros r' (r0 & -> & Hr0)%elem_of_list_fmap.
    apply keep_from_length_eq. by apply rows_length.
Qed.

Lemma reinit_atomic c t z os ats c' e : reinit c t z os ats = (c', Err e) → c' = c.
Proof. unfold reinit. case_match; intros H'; by simplify_eq. Qed.

Lemma delete_object_wf c o c' r : wf c → delete_object c o = (c', r) →
  wf c' ∧ (r ≠ Ok tt → c' = c).
Proof.
  intros Hwf. destruct (decide (o ∈ objs c)) as [Ho|Ho].
  - destruct (delete_object_ok c o Hwf Ho) as (i & c'' & _ & _ & -> & Hmk). intros [= <- <-].
    split; [by eapply mk_context_wf|done].
  - unfold delete_object. assert (oind c o = Err KeyError) as -> by by apply oind_Err.
    intros [= <- <-]. done.
Qed.

Lemma np_set_col_shape c j col t : wf c → np_set_col c j col = Ok t →
  length t = length (objs c) ∧ ∀ r, r ∈ t → length r = length (atts c).
Proof.
  intros Hwf. unfold np_set_col. pose proof (wf_rows c Hwf) as Hl. pose proof (λ r, rows_length c r Hwf) as Hr. destruct (np c) as [|r0 rows] eqn:E.
  - destruct (npz c); [|done]. case_match; [|done]. intros [= <-]. split; [done|]. by intros r ?%elem_of_nil.
  - case_match; [|done]. case_match; [|done]. intros [= <-]. apply Nat.eqb_eq in H0. split.
    + change (length (zip_with (λ r b, <[j:=b]> r) (r0 :: rows) col) = length (objs c)). rewrite zip_with_length, H0. lia.
    + intros r Hin. change (r ∈ zip_with (λ r b, <[j:=b]> r) (r0 :: rows) col) in Hin. apply elem_of_lookup_zip_with in Hin as (k & x & y & -> & Hx & _). rewrite insert_length. apply Hr.
      by eapply elem_of_list_lookup_2.
Qed.
Lemma set_attribute_extent_wf c e a c' r : wf c → set_attribute_extent c e a = (c', r) → wf c' ∧ (r ≠ Ok tt → c' = c).
Proof.
  intros Hwf. unfold set_attribute_extent. destruct (mapM _ _); cbn [mbind res_bind]; [|by intros [= <- <-]].
  destruct (set_flags _ _) as [col|]; cbn [mbind res_bind]; [|by intros [= <- <-]].
  destruct (aind c a) as [j|]; cbn [mbind res_bind]; [|by intros [= <- <-]].
  destruct (np_set_col c j col) as [t|] eqn:E; [|by intros [= <- <-]].
  apply np_set_col_shape in E as [H1 H2]; [|done]. intros Hr. apply reinit_shape in Hr as [Hw ->]; done.
Qed.
Lemma set_flags_len n inds row : set_flags n inds = Ok row → length row = n.
Proof.
  unfold set_flags. case_match; [|done]. intros [= <-]. clear. assert (length (replicate n false) = n) as H by apply replicate_length.
  revert H. generalize (replicate n false). induction inds as [|i inds IH]; intros v Hv; [done|]. cbn. apply IH. by rewrite insert_length.
Qed.
Lemma set_object_intent_wf c e o c' r : wf c → set_object_intent c e o = (c', r) → wf c' ∧ (r ≠ Ok tt → c' = c).
Proof.
  intros Hwf. unfold set_object_intent. destruct (mapM _ _); cbn [mbind res_bind]; [|by intros [= <- <-]].
  destruct (set_flags _ _) as [row|] eqn:Ef; cbn [mbind res_bind]; [|by intros [= <- <-]].
  destruct (oind c o) as [j|]; cbn [mbind res_bind]; [|by intros [= <- <-]].
  destruct (j <? length (np c)); [|by intros [= <- <-]].
  intros Hr. apply reinit_shape in Hr as [Hw ->]; [done| |].
  - rewrite insert_length. apply (wf_rows c Hwf).
  - intros r' [k Hk]%elem_of_list_lookup. apply list_lookup_insert_Some in Hk as [(_ & <- & _)|(_ & Hk)]; [by eapply set_flags_len|by eapply wf_cols].
Qed.
Lemma rename_object_wf c a b c' r : wf c → rename_object c a b = (c', r) → wf c' ∧ (r ≠ Ok tt → c' = c).
Proof.
  intros Hwf. unfold rename_object. destruct (oind c a) as [i|]; [|by intros [= <- <-]]. case_match; [|by intros [= <- <-]].
  intros Hr. apply reinit_shape in Hr as [Hw ->]; [done| |].
  - rewrite insert_length. apply (wf_rows c Hwf).
  - intros r' Hr'. by apply rows_length.
Qed.
Lemma rename_attribute_wf c a b c' r : wf c → rename_attribute c a b = (c', r) → wf c' ∧ (r ≠ Ok tt → c' = c).
Proof.
  intros Hwf. unfold rename_attribute. destruct (aind c a) as [i|]; [|by intros [= <- <-]]. case_match; [|by intros [= <- <-]].
  intros Hr. apply reinit_shape in Hr as [Hw ->]; [done| |].
  - apply (wf_rows c Hwf).
  - intros r' Hr'. rewrite insert_length. by apply rows_length.
Qed.

Lemma delete_objects_loop_wf c l c' r : wf c → delete_objects_loop c l = (c', r) → wf c'.
Proof.
  revert c; induction l as [|o l IH]; intros c Hwf; simpl; [by intros [= <- <-]|].
  destruct (delete_object c o) as [c1 r1] eqn:E. apply delete_object_wf in E as [Hwf1 _]; [|done].
  destruct r1; [by apply IH|by intros [= <- <-]].
Qed.

Lemma step_wf c o c' r : wf c → op_ok o → step c o = (c', r) → wf c'.
Proof.
  intros Hwf Hok. destruct o; simpl.
  - unfold add_object. case_match; [intros Hr; by eapply reinit_wf|]. case_match; [by intros [= <- <-]|].
    intros Hr. by eapply reinit_wf.
  - unfold add_attribute. case_match; [by intros [= <- <-]|]. intros Hr. by eapply reinit_wf.
  - unfold add_object_with_intent, add_object. case_match.
    { intros Hr. by eapply reinit_wf. } case_match; [by intros [= <- <-]|].
    intros Hr. by eapply reinit_wf.
  - unfold add_attribute_with_extent, add_attribute. case_match; [by intros [= <- <-]|].
    intros Hr. by eapply reinit_wf.
  - intros H. by apply set_attribute_extent_wf in H as [? _].
  - intros H. by apply set_object_intent_wf in H as [? _].
  - intros H. by apply delete_object_wf in H as [? _].
  - intros H. apply delete_attribute_ok in H as [(e & -> & ->)|(j & -> & _ & Hmk)]; [done| |done].
    by eapply mk_context_wf.
  - intros H. apply delete_attributes_ok in H as [(e & -> & ->)|(j & -> & _ & Hmk)]; [done| |done|done].
    by eapply mk_context_wf.
  - intros H. by apply rename_object_wf in H as [? _].
  - intros H. by apply rename_attribute_wf in H as [? _].
  - unfold remove_empty_objects. case_match; [|by intros [= <- <-]].
    by apply delete_objects_loop_wf.
Qed.
Lemma run_wf c l : wf c → Forall op_ok l → wf (run c l).
Proof.
  intros Hwf Hl. revert c Hwf. induction Hl as [|o l Ho _ IH]; intros c Hwf; simpl; [done|].
  apply IH. destruct (step c o) as [c' r] eqn:E. by eapply step_wf.
Qed.

(** Failing calls change nothing ([remove_empty_objects] is a loop of calls and
    treated separately). *)
Lemma step_atomic c o c' e : wf c → op_ok o → o ≠ OpRemoveEmptyObjects →
  step c o = (c', Err e) → c' = c.
Proof.
  intros Hwf Hok Hre. destruct o; simpl.
  - unfold add_object. case_match; [apply reinit_atomic|]. case_match; [by intros [= <- <-]|].
    apply reinit_atomic.
  - unfold add_attribute. case_match; [by intros [= <- <-]|]. apply reinit_atomic.
  - unfold add_object_with_intent, add_object. case_match; [apply reinit_atomic|].
    case_match; [by intros [= <- <-]|]. apply reinit_atomic.
  - unfold add_attribute_with_extent, add_attribute. case_match; [by intros [= <- <-]|]. apply reinit_atomic.
  - intros H. apply set_attribute_extent_wf in H as [_ H]; [|done]. auto.
  - intros H. apply set_object_intent_wf in H as [_ H]; [|done]. auto.
  - intros H. apply delete_object_wf in H as [_ H]; [|done]. auto.
  - intros H. apply delete_attribute_ok in H as [(e' & ? & ->)|(j & ? & _)]; done.
  - intros H. apply delete_attributes_ok in H as [(e' & ? & ->)|(j & ? & _)]; done.
  - intros H. apply rename_object_wf in H as [_ H]; [|done]. auto.
  - intros H. apply rename_attribute_wf in H as [_ H]; [|done]. auto.
  - done.
Qed.
