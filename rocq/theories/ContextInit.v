(** * The constructor: validation and disambiguation of names *)
From Verif Require Import Py Spec ContextModel ContextSpec PyFacts SpecFacts ContextFacts.

(** ** Generated names *)
Fixpoint has_char (a : Ascii.ascii) (s : string) : bool :=
  match s with
  | EmptyString => false
  | String b s' => bool_decide (a = b) || has_char a s'
  end.
Definition underscore : Ascii.ascii := Ascii.ascii_of_nat 95.

Fixpoint after_last (s : string) : string :=
  match s with
  | EmptyString => EmptyString
  | String c s' => if has_char underscore s' then after_last s'
                   else if bool_decide (underscore = c) then s' else s
  end.
Lemma string_cons_app b s t : String b s +:+ t = String b (s +:+ t).
Proof. done. Qed.
Lemma has_char_app a s t : has_char a (s +:+ t) = has_char a s || has_char a t.
Proof. induction s as [|b s IH]; [done|]. rewrite string_cons_app. simpl. rewrite IH. by rewrite orb_assoc. Qed.
Lemma after_last_app s t :
  has_char underscore t = false → after_last (s +:+ "_" +:+ t) = t.
Proof.
  intros Ht. induction s as [|b s IH].
  - simpl. by rewrite Ht.
  - rewrite string_cons_app. simpl. rewrite !has_char_app. simpl. rewrite orb_true_r. apply IH.
Qed.
Lemma pretty_N_go_no_underscore x s :
  has_char underscore s = false → has_char underscore (pretty_N_go x s) = false.
Proof.
  revert s. induction (N.lt_wf_0 x) as [x _ IH]; intros s Hs.
  assert (x = 0 ∨ 0 < x)%N as [->|?] by lia; [by rewrite pretty_N_go_0|].
  rewrite pretty_N_go_step by done. apply IH.
  { apply N.div_lt; lia. }
  simpl. rewrite Hs, orb_false_r. unfold pretty_N_char.
  repeat case_match; done.
Qed.
Lemma pretty_nat_no_underscore (i : nat) : has_char underscore (pretty i) = false.
Proof.
  unfold pretty, pretty_nat, pretty, pretty_N. case_decide; [done|].
  by apply pretty_N_go_no_underscore.
Qed.
Lemma gen_name_inj a b i j : gen_name a i = gen_name b j → i = j.
Proof.
  unfold gen_name. intros [= H].
  apply (f_equal after_last) in H.
  change (pystr a ++ "_" ++ pretty i)%string with (pystr a +:+ "_" +:+ pretty i) in H.
  change (pystr b ++ "_" ++ pretty j)%string with (pystr b +:+ "_" +:+ pretty j) in H.
  rewrite !after_last_app in H by apply pretty_nat_no_underscore.
  by apply (inj pretty) in H.
Qed.

(** ** The renaming loop *)
Lemma count_gt1 {A} `{EqDecision A} (x : A) l :
  1 < py_count x l ↔ ∃ i j, i ≠ j ∧ l !! i = Some x ∧ l !! j = Some x.
Proof.
  induction l as [|y l IH].
  - unfold py_count; simpl. split; [lia|]. intros (i & j & _ & ? & _). done.
  - rewrite py_count_cons. split.
    + intros H. destruct (decide (y = x)) as [->|].
      * assert (0 < py_count x l) as [i Hi]%py_count_elem%elem_of_list_lookup by lia.
        exists 0, (S i). done.
      * destruct IH as [(i & j & ? & ? & ?) _]; [lia|]. exists (S i), (S j). naive_solver.
    + intros ([|i] & [|j] & Hne & Hi & Hj); simpl in *; [done| | |].
      * simplify_eq. rewrite decide_True by done.
        assert (0 < py_count x l) by (apply py_count_elem; by eapply elem_of_list_lookup_2). lia.
      * simplify_eq. rewrite decide_True by done.
        assert (0 < py_count x l) by (apply py_count_elem; by eapply elem_of_list_lookup_2). lia.
      * destruct IH as [_ IH]. assert (1 < py_count x l); [|lia].
        apply IH. exists i, j. naive_solver.
Qed.

(** No input name coincides with a name generated for a repeated input name. *)
Definition no_clash (l : list name) : Prop :=
  ∀ x i, 1 < py_count x l → i < length l → gen_name x i ∉ l.

Section rename.
  Context (l : list name) (Hc : no_clash l).
  Let seen (k : nat) (x : name) : bool := bool_decide (x ∈ take k l).
  Let ren (k i : nat) (x : name) : name :=
    if (1 <? py_count x l)%nat && seen k x then gen_name x i else x.

  Lemma ren_0 : imap (ren 0) l = l.
  Proof.
    apply list_eq. intros i. rewrite list_lookup_imap. destruct (l !! i) as [x|]; simpl; [|done].
    unfold ren, seen. rewrite take_0.
    rewrite bool_decide_eq_false_2 by apply not_elem_of_nil. by rewrite andb_false_r.
  Qed.

  Lemma seen_S k x y : l !! k = Some y → seen (S k) x = bool_decide (x = y) || seen k x.
  Proof.
    intros Hy. unfold seen. rewrite (take_S_r _ _ y) by done.
    rewrite <-bool_decide_or. apply bool_decide_ext.
    rewrite elem_of_app, elem_of_list_singleton. naive_solver.
  Qed.

  Lemma ren_inj k i j a b :
    l !! i = Some a → l !! j = Some b → ren k i a = ren k j b →
    (1 <? py_count a l)%nat && seen k a = true → i = j.
  Proof.
    intros Ha Hb Heq H. unfold ren in Heq. rewrite H in Heq.
    destruct ((1 <? py_count b l)%nat && seen k b) eqn:E; [by eapply gen_name_inj|].
    apply andb_true_iff in H as [H _]. apply Nat.ltb_lt in H.
    exfalso. apply (Hc a i H); [by eapply lookup_lt_Some|]. rewrite Heq.
    by eapply elem_of_list_lookup_2.
  Qed.

  Lemma rename_step k : k < length l →
    rename_dups_at (imap (ren k) l) k = imap (ren (S k)) l.
  Proof.
    intros Hk. apply lookup_lt_is_Some in Hk as [x Hx].
    unfold rename_dups_at. rewrite list_lookup_imap, Hx. simpl.
    destruct (1 <? py_count x l)%nat eqn:Ec; [destruct (seen k x) eqn:Es|].
    - (* already renamed *)
      assert (py_count (ren k k x) (imap (ren k) l) ≤ 1) as Hle.
      { destruct (decide (1 < py_count (ren k k x) (imap (ren k) l))) as [H|]; [|lia].
        apply count_gt1 in H as (i & j & Hne & Hi & Hj). exfalso.
        rewrite list_lookup_imap in Hi, Hj.
        destruct (l !! i) as [a|] eqn:Ea; [|done]. destruct (l !! j) as [b|] eqn:Eb; [|done].
        simpl in Hi, Hj. simplify_eq.
        assert (k = i) by (eapply (ren_inj k k i x a); [done|done|done|by rewrite Ec, Es]).
        assert (k = j) by (eapply (ren_inj k k j x b); [done|done|done|by rewrite Ec, Es]).
        congruence. }
      rewrite (proj2 (Nat.ltb_ge _ _) Hle).
      apply list_eq. intros i. rewrite !list_lookup_imap.
      destruct (l !! i) as [y|] eqn:Ey; simpl; [|done]. f_equal.
      unfold ren. rewrite (seen_S k y x Hx).
      destruct (decide (y = x)) as [->|]; [by rewrite Es, orb_true_r|].
      by rewrite (bool_decide_eq_false_2 (y = x)).
    - (* first occurrence of a repeated name *)
      assert (∀ i y, l !! i = Some y → ren k i y = x ↔ y = x) as Hx'.
      { intros i y Hy. unfold ren. destruct ((1 <? py_count y l)%nat && seen k y) eqn:E; [|done].
        apply andb_true_iff in E as [E1 E2]. apply Nat.ltb_lt in E1. split.
        - intros Heq. exfalso. apply (Hc y i E1); [by eapply lookup_lt_Some|]. rewrite Heq.
          by eapply elem_of_list_lookup_2.
        - intros ->. congruence. }
      assert (ren k k x = x) as Hxx by by apply (Hx' k x). rewrite Hxx.
      assert (1 < py_count x (imap (ren k) l)) as Hgt.
      { apply Nat.ltb_lt, count_gt1 in Ec as (i & j & Hne & Hi & Hj). apply count_gt1.
        exists i, j. rewrite !list_lookup_imap, Hi, Hj. simpl.
        rewrite (proj2 (Hx' i x Hi) eq_refl), (proj2 (Hx' j x Hj) eq_refl). done. }
      rewrite (proj2 (Nat.ltb_lt _ _) Hgt).
      apply list_eq. intros i. rewrite !list_lookup_imap.
      destruct (l !! i) as [y|] eqn:Ey; simpl; [|done]. f_equal.
      destruct (decide (ren k i y = x)) as [Heq|Hne].
      + apply (Hx' i y Ey) in Heq as ->. unfold ren. rewrite (seen_S k x x Hx), bool_decide_eq_true_2 by done.
        by rewrite Ec.
      + unfold ren. rewrite (seen_S k y x Hx), (bool_decide_eq_false_2 (y = x)); [done|].
        intros ->. by apply Hne, (Hx' i x).
    - (* not repeated *)
      assert (ren k k x = x) as Hxx by (unfold ren; by rewrite Ec).
      rewrite Hxx.
      assert (py_count x (imap (ren k) l) ≤ 1) as Hle.
      { destruct (decide (1 < py_count x (imap (ren k) l))) as [H|]; [|lia].
        apply count_gt1 in H as (i & j & Hne & Hi & Hj). exfalso.
        assert (∀ i, imap (ren k) l !! i = Some x → i = k) as Hu; [|rewrite (Hu i Hi), (Hu j Hj) in Hne; done].
        clear -Hc Hx Ec. intros i Hi. rewrite list_lookup_imap in Hi.
        destruct (l !! i) as [a|] eqn:Ea; [|done]. simpl in Hi. simplify_eq.
        destruct ((1 <? py_count a l)%nat && seen k a) eqn:E.
        - symmetry. eapply (ren_inj k i k a (ren k i a)) in E; [done|done|done|].
          unfold ren at 2. by rewrite Ec.
        - assert (ren k i a = a) as Ha by (unfold ren; by rewrite E). rewrite Ha in *.
          destruct (decide (i = k)); [done|]. exfalso.
          assert (1 < py_count a l) as Hg by (apply count_gt1; eauto).
          apply Nat.ltb_lt in Hg. congruence. }
      rewrite (proj2 (Nat.ltb_ge _ _) Hle).
      apply list_eq. intros i. rewrite !list_lookup_imap.
      destruct (l !! i) as [y|] eqn:Ey; simpl; [|done]. f_equal.
      unfold ren. rewrite (seen_S k y x Hx).
      destruct (decide (y = x)) as [->|]; [by rewrite Ec|].
      by rewrite (bool_decide_eq_false_2 (y = x)).
  Qed.

  Lemma rename_loop k : k ≤ length l → foldl rename_dups_at l (seq 0 k) = imap (ren k) l.
  Proof.
    induction k as [|k IH]; intros Hk; [by rewrite ren_0|].
    rewrite seq_S, foldl_app, IH by lia. simpl. apply rename_step. lia.
  Qed.

  Lemma rename_result :
    foldl rename_dups_at l (seq 0 (length l)) =
    imap (fun i x => if (1 <? py_count x l)%nat then gen_name x i else x) l.
  Proof.
    rewrite rename_loop by done. apply list_eq. intros i. rewrite !list_lookup_imap.
    destruct (l !! i) as [y|] eqn:Ey; simpl; [|done]. f_equal. unfold ren, seen.
    rewrite firstn_all, bool_decide_eq_true_2 by by eapply elem_of_list_lookup_2.
    by rewrite andb_true_r.
  Qed.
End rename.

Lemma size_lt_NoDup (l : list name) :
  (size (list_to_set l : gset name) <? length l)%nat = false ↔ NoDup l.
Proof.
  rewrite Nat.ltb_ge. split.
  - induction l as [|x l IH]; simpl; [constructor|]. intros H.
    assert (size (list_to_set l : gset name) ≤ length l) as Hle.
    { clear. induction l as [|x l IH]; simpl; [done|].
      rewrite size_union_alt, size_singleton.
      assert (size (list_to_set l ∖ {[x]} : gset name) ≤ size (list_to_set l : gset name)) by (apply subseteq_size; set_solver).
      lia. }
    destruct (decide (x ∈ l)) as [Hx|Hx].
    + assert ({[x]} ∪ list_to_set l =@{gset name} list_to_set l) as Heq.
      { apply set_eq. intros y. rewrite elem_of_union, elem_of_singleton, elem_of_list_to_set. naive_solver. }
      rewrite Heq in H. lia.
    + constructor; [done|]. apply IH. rewrite size_union in H by set_solver.
      rewrite size_singleton in H. lia.
  - intros H. by rewrite size_list_to_set.
Qed.
Lemma uniquify_NoDup l : NoDup l → uniquify l = l.
Proof. intros H%size_lt_NoDup. unfold uniquify. by rewrite H. Qed.

Lemma rename_dups_at_length l k : length (rename_dups_at l k) = length l.
Proof. unfold rename_dups_at. repeat case_match; rewrite ?imap_length; done. Qed.
Lemma uniquify_length l : length (uniquify l) = length l.
Proof.
  unfold uniquify. case_match; [|done].
  generalize (seq 0 (length l)). intros ks. revert l H. 
  assert (∀ l, length (foldl rename_dups_at l ks) = length l) as Hks; [|by auto].
  induction ks as [|k ks IH]; intros l; simpl; [done|]. by rewrite IH, rename_dups_at_length.
Qed.

Lemma uniquify_spec l : no_clash l →
  uniquify l = imap (fun i x => if (1 <? py_count x l)%nat then gen_name x i else x) l.
Proof.
  intros Hc. unfold uniquify. destruct (size _ <? length l)%nat eqn:E.
  - by apply rename_result.
  - apply size_lt_NoDup in E. apply list_eq. intros i. rewrite list_lookup_imap.
    destruct (l !! i) as [y|]; simpl; [|done].
    pose proof (proj1 (NoDup_py_count l) E y) as Hle. by rewrite (proj2 (Nat.ltb_ge _ _) Hle).
Qed.
Lemma uniquify_unique l : no_clash l → NoDup (uniquify l).
Proof.
  intros Hc. rewrite uniquify_spec by done. apply NoDup_alt. intros i j x Hi Hj.
  rewrite list_lookup_imap in Hi, Hj.
  destruct (l !! i) as [a|] eqn:Ea; [|done]. destruct (l !! j) as [b|] eqn:Eb; [|done].
  simpl in Hi, Hj. injection Hi as Hi. injection Hj as Hj.
  destruct (1 <? py_count a l)%nat eqn:Ca; destruct (1 <? py_count b l)%nat eqn:Cb.
  - apply (gen_name_inj a b). congruence.
  - exfalso. apply Nat.ltb_lt in Ca. apply (Hc a i Ca); [by eapply lookup_lt_Some|].
    rewrite Hi, <-Hj. by eapply elem_of_list_lookup_2.
  - exfalso. apply Nat.ltb_lt in Cb. apply (Hc b j Cb); [by eapply lookup_lt_Some|].
    rewrite Hj, <-Hi. by eapply elem_of_list_lookup_2.
  - destruct (decide (i = j)); [done|]. exfalso. apply Nat.ltb_ge in Ca.
    assert (1 < py_count a l); [|lia]. apply count_gt1. exists i, j. split; [done|]. split; congruence.
Qed.

(** ** The constructor *)
Lemma rectangular_spec t n :
  (∀ r, t = r :: tail t → length r = n) → rectangular t = true ↔ ∀ r, r ∈ t → length r = n.
Proof.
  destruct t as [|r t]; simpl.
  - intros _. split; [|done]. intros _ r ?%elem_of_nil. done.
  - intros H. specialize (H r eq_refl). rewrite forallb_forall. split.
    + intros Hf r' [->|Hr]%elem_of_cons; [done|]. apply elem_of_list_In, Hf, Nat.eqb_eq in Hr. lia.
    + intros Hf r' Hr%elem_of_list_In. apply Nat.eqb_eq. rewrite H. apply Hf. by right.
Qed.

Lemma mk_context_spec t z os ats :
  mk_context t z os ats =
  if decide (length t = length os ∧ Forall (fun r => length r = length ats) t)
  then Ok (Cxt (uniquify os) (uniquify ats) t (match t with [] => z | _ => None end) t
               (index_dict (uniquify os)) (index_dict (uniquify ats)))
  else Err ValueError.
Proof.
  unfold mk_context.
  destruct (Nat.eqb_spec (length t) (length os)) as [E1|E1]; simpl.
  2:{ rewrite decide_False by naive_solver. done. }
  destruct t as [|r t]; simpl.
  - rewrite decide_True; [done|]. split; [done|constructor].
  - destruct (Nat.eqb_spec (length r) (length ats)) as [E2|E2]; simpl.
    2:{ rewrite decide_False; [done|]. intros [_ H]. inversion H. done. }
    pose proof (rectangular_spec (r :: t) (length ats)) as Hr. simpl in Hr.
    destruct (forallb _ t) eqn:E3; simpl.
    + rewrite decide_True; [done|]. split; [done|].
      apply Forall_forall. apply Hr; [|done]. intros r' [= ->]. done.
    + rewrite decide_False; [done|]. intros [_ H]. rewrite Forall_forall in H.
      apply Hr in H; [congruence|]. intros r' [= ->]. done.
Qed.

Lemma mk_context_Ok t z os ats c :
  mk_context t z os ats = Ok c →
  length t = length os ∧ Forall (fun r => length r = length ats) t ∧
  objs c = uniquify os ∧ atts c = uniquify ats ∧ np c = t ∧ cross c = t ∧
  npz c = match t with [] => z | _ => None end ∧
  oidx c = index_dict (objs c) ∧ aidx c = index_dict (atts c).
Proof. rewrite mk_context_spec. case_decide as H; [|done]. intros [= <-]. simpl. naive_solver. Qed.

Lemma mk_context_wf t z os ats c : mk_context t z os ats = Ok c → wf c.
Proof.
  intros (Ht & Hr & Ho & Ha & Hn & Hcr & _ & Hoi & Hai)%mk_context_Ok. split.
  - by rewrite Hn, Ho, uniquify_length.
  - intros i r Hi. rewrite Hn in Hi. rewrite Ha, uniquify_length.
    rewrite Forall_forall in Hr. apply Hr. by eapply elem_of_list_lookup_2.
  - congruence.
  - intros x. rewrite Hoi. apply index_dict_is_Some.
  - intros x i. rewrite Hoi. apply index_dict_lookup.
  - intros x. rewrite Hai. apply index_dict_is_Some.
  - intros x i. rewrite Hai. apply index_dict_lookup.
Qed.

Lemma mk_context_good t z os ats c :
  mk_context t z os ats = Ok c → NoDup os → NoDup ats →
  (t = [] → match z with None => True | Some k => length ats ≤ k end) →
  good c ∧ objs c = os ∧ atts c = ats ∧ np c = t.
Proof.
  intros H Hos Hats Hz. pose proof (mk_context_wf _ _ _ _ _ H) as Hwf.
  apply mk_context_Ok in H as (Ht & Hr & Ho & Ha & Hn & Hcr & Hnz & Hoi & Hai).
  rewrite uniquify_NoDup in Ho, Ha by done.
  split; [|done]. split; [done|split; congruence|].
  intros Hnil. rewrite Hnz. rewrite Hn in Hnil. rewrite Hnil. rewrite Ha. by apply Hz.
Qed.

(** Successful construction with distinct names. *)
Lemma mk_context_ok t z os ats :
  length t = length os → (∀ r, r ∈ t → length r = length ats) →
  ∃ c, mk_context t z os ats = Ok c.
Proof.
  intros H1 H2. rewrite mk_context_spec, decide_True; [by eauto|].
  split; [done|]. by apply Forall_forall.
Qed.
