(** * Facts about the probability index *)
From Coq Require Import Reals Lra.
From Verif Require Import Py Spec PyFacts SpecFacts ContextModel ContextSpec ContextFacts LatticeSpec LatticeModel NorrisFacts
  LatticeFacts FilterFacts ProbSpec ProbModel.
Local Open Scope R_scope.

Lemma rprod_ext f g l : (∀ a, a ∈ l → f a = g a) → rprod f l = rprod g l.
Proof.
  induction l as [|a l IH]; intros H; [done|]. cbn [rprod foldr]. rewrite H by by left. f_equal. apply IH.
  intros b Hb. apply H. by right.
Qed.
Lemma rprod_01 f l : (∀ a, a ∈ l → 0 <= f a <= 1) → 0 <= rprod f l <= 1.
Proof.
  induction l as [|a l IH]; intros H; [cbn; lra|]. cbn [rprod foldr]. fold (rprod f l).
  destruct (H a) as [H1 H2]; [by left|]. destruct IH as [I1 I2]; [intros b Hb; apply H; by right|]. split; [nra|nra].
Qed.
Lemma rprod_pos f l : (∀ a, a ∈ l → 0 < f a) → 0 < rprod f l.
Proof.
  induction l as [|a l IH]; intros H; [cbn; lra|]. cbn [rprod foldr]. fold (rprod f l).
  apply Rmult_lt_0_compat; [apply H; by left|]. apply IH. intros b Hb. apply H. by right.
Qed.
Lemma plog_Some x : 0 < x → plog x = Some (ln x).
Proof. intros H. unfold plog. destruct (Rlt_dec 0 x); [done|lra]. Qed.
Lemma plog_None x : x <= 0 → plog x = None.
Proof. intros H. unfold plog. destruct (Rlt_dec 0 x); [lra|done]. Qed.

Section pm.
  Context (p : name → R) (pm : list (name * R)) (M : list name).
  Context (Hpm : ∀ a, a ∈ M → dget a pm = Some (p a)) (Hp01 : ∀ a, a ∈ M → 0 <= p a <= 1).
  Lemma log_subset_spec l : (∀ a, a ∈ l → a ∈ M) →
    exp (log_subset_probability pm l) = rprod p (List.filter (fun a => if Rlt_dec 0 (p a) then true else false) l).
  Proof.
    intros Hl. unfold log_subset_probability.
    assert (∀ x, exp (foldl (fun ans a => match p ← dget a pm; plog p with Some l => ans + l | None => ans end) x l) =
      exp x * rprod p (List.filter (fun a => if Rlt_dec 0 (p a) then true else false) l)) as H.
    { induction l as [|a l IH]; intros x; simpl; [cbn; lra|].
      rewrite Hpm by (apply Hl; by left). simpl. unfold plog. destruct (Rlt_dec 0 (p a)) as [Ha|Ha].
      - rewrite IH by (intros b Hb; apply Hl; by right). rewrite exp_plus, exp_ln by done. cbn [rprod foldr]. unfold rprod. ring.
      - apply IH. intros b Hb. apply Hl. by right. }
    rewrite H, exp_0. ring.
  Qed.
  Lemma prob_mult_spec l k : (∀ a, a ∈ l → a ∈ M) →
    (∃ mu, prob_mult pm l k = Some mu ∧ exp mu = rprod (fun a => 1 - p a ^ k) l) ∨
    (prob_mult pm l k = None ∧ rprod (fun a => 1 - p a ^ k) l = 0).
  Proof.
    intros Hl. unfold prob_mult.
    set (F := fun (acc : option R) a => mu ← acc; p ← dget a pm; l ← plog (1 - p ^ k); Some (mu + l)).
    assert (∀ l, foldl F None l = None) as Hnone by (clear; intros l; induction l; done).
    assert (∀ x, (∃ mu, foldl F (Some x) l = Some mu ∧ exp mu = exp x * rprod (fun a => 1 - p a ^ k) l) ∨
      (foldl F (Some x) l = None ∧ rprod (fun a => 1 - p a ^ k) l = 0)) as H.
    { induction l as [|a l IH]; intros x; cbn [foldl].
      - left. exists x. split; [done|]. cbn. ring.
      - assert (F (Some x) a = l ← plog (1 - p a ^ k); Some (x + l)) as ->.
        { unfold F. cbn [mbind option_bind]. by rewrite Hpm by (apply Hl; by left). }
        assert (0 <= 1 - p a ^ k) as Hge.
        { destruct (Hp01 a) as [H1 H2]; [apply Hl; by left|]. pose proof (pow_incr (p a) 1 k (conj H1 H2)) as H. rewrite pow1 in H. lra. }
        destruct (Rlt_dec 0 (1 - p a ^ k)) as [Hlt|Hlt].
        + rewrite plog_Some by done. cbn [mbind option_bind].
          destruct (IH ltac:(intros b Hb; apply Hl; by right) (x + ln (1 - p a ^ k))) as [(mu & H1 & H2)|[H1 H2]].
          * left. exists mu. split; [done|]. rewrite H2, exp_plus, exp_ln by done. cbn [rprod foldr]. unfold rprod. ring.
          * right. split; [done|]. cbn [rprod foldr]. unfold rprod in H2. rewrite H2. ring.
        + rewrite plog_None by lra. cbn [mbind option_bind]. right. rewrite Hnone. split; [done|].
          cbn [rprod foldr]. replace (1 - p a ^ k) with 0 by lra. ring. }
    destruct (H 0) as [(mu & H1 & H2)|H1]; [left|right; done]. exists mu. split; [done|]. rewrite H2, exp_0. ring.
  Qed.
  Lemma prob_binom_mult n k t : prob_binom n k t = t * prob_binom n k 1.
  Proof.
    unfold prob_binom. assert (∀ l t, foldl (fun t i => t * (INR (n - k + 1 + i) / INR (1 + i))) t l =
      t * foldl (fun t i => t * (INR (n - k + 1 + i) / INR (1 + i))) 1 l) as H; [|apply H].
    intros l. induction l as [|i l IH]; intros u; cbn [foldl]; [ring|]. rewrite IH, (IH (1 * _)). ring.
  Qed.
  Lemma prob_binom_C n k : (k <= n)%nat → prob_binom n k 1 = C n k.
  Proof.
    intros Hk. assert (∀ j, foldl (fun t i => t * (INR (n - k + 1 + i) / INR (1 + i))) 1 (seq 0 j) =
      INR (fact (n - k + j)) / (INR (fact (n - k)) * INR (fact j))) as H.
    { induction j as [|j IH].
      - cbn [seq foldl]. rewrite Nat.add_0_r. cbn [fact INR]. field. apply INR_fact_neq_0.
      - replace (S j) with (j + 1)%nat at 1 by lia. rewrite seq_app, foldl_app, IH. cbn [seq foldl Nat.add].
        replace (n - k + S j)%nat with (S (n - k + j))%nat by lia. rewrite !fact_simpl, !mult_INR.
        replace (n - k + 1 + j)%nat with (S (n - k + j))%nat by lia. field.
        split; [apply INR_fact_neq_0|]. split; [apply not_0_INR; lia|]. apply INR_fact_neq_0. }
    unfold prob_binom. rewrite H. unfold C. replace (n - k + k)%nat with n by lia. f_equal. ring.
  Qed.
  (** The loop. *)
  Definition term (q : R) (notB : list name) (n k : nat) : R :=
    C n k * (q ^ k * (1 - q) ^ (n - k)) * rprod (fun a => 1 - p a ^ k) notB.
  Definition tsum (q : R) (notB : list name) (n : nat) (ks : list nat) : R := foldr (fun k r => term q notB n k + r) 0 ks.
  Lemma exp_INR_mult x k : exp (INR k * x) = exp x ^ k.
  Proof.
    induction k as [|k IH]; [by rewrite Rmult_0_l, exp_0|]. rewrite S_INR. replace ((INR k + 1) * x) with (x + INR k * x) by ring.
    by rewrite exp_plus, IH.
  Qed.
  Lemma prob_loop_spec notB n lq ks : ∀ ans, (∀ a, a ∈ notB → a ∈ M) → exp lq <= 1 → (∀ k, k ∈ ks → (k <= n)%nat) →
    (exp lq = 1 → ans = 0 ∧ ∃ j, ks = seq j (S n - j)) →
    prob_loop pm notB n (exp lq) lq ks ans = ans + tsum (exp lq) notB n ks.
  Proof.
    set (q := exp lq). pose proof (exp_pos lq) as Hq0. fold q in Hq0.
    induction ks as [|k ks IH]; intros ans HnB Hq Hks Hone; cbn [prob_loop].
    { cbn. ring. }
    cbn [tsum foldr]. fold (tsum q notB n ks).
    assert (Hk : (k <= n)%nat) by (apply Hks; by left).
    assert (Hks' : ∀ k, k ∈ ks → (k <= n)%nat) by (intros j Hj; apply Hks; by right).
    assert (Hone' : q = 1 → ∃ j, ks = seq j (S n - j)).
    { intros Eq. destruct (Hone Eq) as (_ & j & Ej). exists (S j). destruct (decide (j <= n)%nat).
      - replace (S n - j)%nat with (S (n - j))%nat in Ej by lia. cbn [seq] in Ej. injection Ej as _ ->. f_equal; lia.
      - replace (S n - j)%nat with 0%nat in Ej by lia. done. }
    destruct (prob_mult_spec notB k HnB) as [(mu & -> & Hmu)|[-> Hz]].
    - destruct (Req_EM_T q 1) as [Eq|Nq].
      + destruct (Nat.eqb_spec n k) as [<-|Hnk].
        * destruct (Hone Eq) as (-> & j & Ej). assert (ks = []) as ->.
          { destruct (decide (j <= n)%nat).
            - replace (S n - j)%nat with (S (n - j))%nat in Ej by lia. cbn [seq] in Ej. injection Ej as <- ->.
              by rewrite Nat.sub_diag.
            - replace (S n - j)%nat with 0%nat in Ej by lia. done. }
          cbn [tsum foldr]. unfold term. rewrite <-Hmu, Eq, Nat.sub_diag, pow1.
          assert (C n n = 1) as -> by (unfold C; rewrite Nat.sub_diag; cbn [fact INR]; field; apply INR_fact_neq_0).
          simpl. ring.
        * rewrite plog_None by lra. cbv zeta. destruct (Hone Eq) as (-> & _).
          assert (prob_binom n k 0 = 0) as -> by (rewrite prob_binom_mult; ring).
          rewrite IH; [|done|done|done|intros _; split; [ring|by apply Hone']].
          unfold term. rewrite Eq. replace (1 - 1) with 0 by ring. rewrite (pow_ne_zero (n - k)) by lia. ring.
      + rewrite plog_Some by lra. cbv zeta. rewrite prob_binom_mult, prob_binom_C by done.
        rewrite IH; [|done|done|done|done].
        rewrite !exp_plus, Hmu. replace (INR n - INR k) with (INR (n - k)) by (by rewrite minus_INR).
        rewrite !exp_INR_mult, exp_ln by lra. fold q. unfold term. ring.
    - rewrite IH; [|done|done|done|intros Eq; split; [by apply Hone|by apply Hone']].
      unfold term. rewrite Hz. ring.
  Qed.
End pm.

Lemma foldr_sum f n : foldr (fun k r => f k + r) 0 (seq 0 (S n)) = sum_f_R0 f n.
Proof.
  assert (∀ l x, foldr (fun k r => f k + r) x l = foldr (fun k r => f k + r) 0 l + x) as H.
  { intros l x. induction l as [|k l IH]; cbn [foldr]; [ring|]. rewrite IH. ring. }
  induction n as [|n IH]; [cbn; ring|]. rewrite seq_S, foldr_app, H. rewrite IH. cbn [foldr Nat.add sum_f_R0]. ring.
Qed.
(** [get_intent_probability] in general. *)
Lemma intent_probability_spec p pm M n (B : gset name) : map fst pm = M → (∀ a, a ∈ M → dget a pm = Some (p a)) →
  (∀ a, a ∈ M → 0 <= p a <= 1) → (∀ a, a ∈ B → a ∈ M) →
  (∀ a, a ∈ B → p a = 0 → ∀ b, b ∈ M → b ∈ B) →
  get_intent_probability B pm n = closed_probability p M (elements B) n.
Proof.
  intros HM Hpm Hp01 HB Hz. unfold get_intent_probability.
  set (l0 := log_subset_probability pm (elements B)).
  assert ((if decide (B = ∅) then 1 else exp l0) = exp l0) as ->.
  { destruct (decide (B = ∅)) as [->|]; [|done]. unfold l0. rewrite elements_empty. cbn. by rewrite exp_0. }
  assert ((if decide (B = ∅) then 0 else l0) = l0) as ->.
  { destruct (decide (B = ∅)) as [->|]; [|done]. unfold l0. by rewrite elements_empty. }
  rewrite HM. set (notB := List.filter (fun a => bool_decide (a ∉ B)) M).
  assert (exp l0 = rprod p (List.filter (fun a => if Rlt_dec 0 (p a) then true else false) (elements B))) as El0.
  { apply (log_subset_spec p pm M Hpm). intros a Ha%elem_of_elements. by apply HB. }
  assert (exp l0 <= 1) as Hle.
  { rewrite El0. apply rprod_01. intros a [Ha _]%in_lfilter. apply Hp01, HB. by apply elem_of_elements. }
  rewrite (prob_loop_spec p pm M Hpm Hp01).
  - rewrite Rplus_0_l. unfold tsum. rewrite foldr_sum. unfold closed_probability.
    assert (List.filter (fun a => bool_decide (a ∉ elements B)) M = notB) as EnB.
    { unfold notB. apply filter_ext. intros a. apply bool_decide_ext. by rewrite elem_of_elements. }
    rewrite EnB. destruct (List.Exists_dec (fun a => p a = 0) (elements B) (fun a => Req_EM_T (p a) 0)) as [Hex|Hno].
    + apply List.Exists_exists in Hex as (a & Ha & Hpa). apply elem_of_list_In in Ha.
      assert (notB = []) as ->.
      { destruct notB as [|b l] eqn:E; [done|]. exfalso. assert (b ∈ notB) as Hb by (rewrite E; by left).
        apply in_lfilter in Hb as [H1 H2%bool_decide_eq_true]. apply H2, (Hz a); [by apply elem_of_elements|done|done]. }
      transitivity 1.
      * transitivity ((exp l0 + (1 - exp l0)) ^ n); [|replace (exp l0 + (1 - exp l0)) with 1 by ring; apply pow1].
        rewrite binomial. apply sum_eq. intros k _. unfold term. cbn [rprod foldr]. ring.
      * symmetry. set (q := rprod p (elements B)).
        transitivity ((q + (1 - q)) ^ n); [|replace (q + (1 - q)) with 1 by ring; apply pow1].
        rewrite binomial. apply sum_eq. intros k _. cbn [rprod foldr]. ring.
    + assert (rprod p (elements B) = exp l0) as ->; [|done]. rewrite El0. f_equal.
      assert (∀ a, a ∈ elements B → 0 < p a) as Hpos.
      { intros a Ha. assert (0 <= p a) as H by (apply Hp01, HB; by apply elem_of_elements). destruct H as [H|H]; [done|].
        exfalso. apply Hno, List.Exists_exists. exists a. split; [by apply elem_of_list_In|done]. }
      revert Hpos. generalize (elements B). clear. intros l. induction l as [|a l IH]; intros H; [done|]. simpl.
      destruct (Rlt_dec 0 (p a)) as [_|Hn]; [|exfalso; apply Hn, H; by left]. f_equal. apply IH. intros b Hb. apply H. by right.
  - intros a [Ha _]%in_lfilter. done.
  - done.
  - intros k Hk%elem_of_seq. lia.
  - intros _. split; [done|]. exists 0%nat. by rewrite Nat.sub_0_r.
Qed.
Section cxt.
  Context (c : context) (Hg : good c).
  Local Notation K := (abs c).
  (** The relative frequency of an attribute. *)
  Definition freq (K : fctx) (a : name) : R := INR (size (down K {[a]})) / INR (size (fG K)).
  Lemma size_fG : size (fG K) = length (objs c).
  Proof. change (fG K) with (list_to_set (objs c) : gset name). apply size_list_to_set, Hg. Qed.
  Lemma count_down a : a ∈ atts c →
    length (List.filter (fun i : gset name => bool_decide (a ∈ i)) (map (fun g => up K {[g]}) (objs c))) = size (down K {[a]}).
  Proof.
    intros Ha. transitivity (length (List.filter (fun g => bool_decide (a ∈ up K {[g]})) (objs c))).
    { generalize (objs c). intros l. induction l as [|g l IH]; [done|]. simpl. case_bool_decide; simpl; by rewrite IH. }
    change (size (down K {[a]})) with (length (elements (down K {[a]}))). apply Permutation_length, NoDup_Permutation.
    - apply NoDup_ListNoDup, List.NoDup_filter, NoDup_ListNoDup, Hg.
    - apply NoDup_elements.
    - intros g. rewrite in_lfilter, elem_of_elements, elem_of_down, bool_decide_eq_true, elem_of_up.
      change (fG K) with (list_to_set (objs c) : gset name). change (fM K) with (list_to_set (atts c) : gset name).
      rewrite !elem_of_list_to_set. split.
      + intros (Hgo & _ & H). split; [done|]. intros m ->%elem_of_singleton. apply H. by apply elem_of_singleton.
      + intros (Hgo & H). split; [done|]. split; [done|]. intros g' ->%elem_of_singleton. apply H. by apply elem_of_singleton.
  Qed.
  Lemma prob_pm_spec : objs c ≠ [] → prob_pm c = Ok (map (fun a => (a, freq K a)) (atts c)).
  Proof.
    intros Hne. unfold prob_pm. rewrite (wf_rows c (good_wf c Hg)). fold (examples c). rewrite (examples_eq c Hg). cbn [mbind res_bind].
    rewrite (mapM_Ok_map _ (fun a => (a, freq K a))).
    - cbn [mbind res_bind]. rewrite dict_of_NoDup; [done|]. rewrite map_map. simpl. rewrite map_id. apply Hg.
    - intros a Ha. rewrite decide_False by by destruct (objs c). do 2 f_equal. unfold freq. by rewrite (count_down a Ha), size_fG.
  Qed.
  Lemma freq_01 a : objs c ≠ [] → 0 <= freq K a <= 1.
  Proof.
    intros Hne. unfold freq. assert (0 < INR (size (fG K))) as Hpos.
    { apply lt_0_INR. rewrite size_fG. destruct (objs c); [done|]. simpl. lia. }
    assert (INR (size (down K {[a]})) <= INR (size (fG K))) as Hle by (apply le_INR, subseteq_size, down_sub).
    pose proof (pos_INR (size (down K {[a]}))) as H0. split.
    - apply Rmult_le_pos; [done|]. apply Rlt_le, Rinv_0_lt_compat. done.
    - apply (Rmult_le_reg_r (INR (size (fG K)))); [done|]. unfold Rdiv. rewrite Rmult_assoc, Rinv_l by lra. lra.
  Qed.
  Lemma concept_probability A B : objs c ≠ [] → is_concept K A B →
    get_intent_probability B (map (fun a => (a, freq K a)) (atts c)) (length (objs c)) =
    closed_probability (freq K) (atts c) (elements B) (length (objs c)).
  Proof.
    intros Hne (HA & HB & E1 & E2). apply intent_probability_spec.
    - rewrite map_map. simpl. apply map_id.
    - intros a Ha. apply elem_of_dget.
      + rewrite map_map. simpl. rewrite map_id. apply Hg.
      + apply elem_of_list_fmap. by exists a.
    - intros a _. by apply freq_01.
    - intros a Ha. apply HB in Ha. by apply elem_of_list_to_set in Ha.
    - intros a Ha Hz b Hb. assert (down K {[a]} = ∅) as Hd.
      { apply leibniz_equiv, size_empty_inv. destruct (size (down K {[a]})) eqn:Es; [done|]. exfalso.
        unfold freq in Hz. rewrite Es in Hz. assert (INR (S n) <> 0) as H1 by (apply not_0_INR; lia).
        assert (INR (size (fG K)) <> 0) as H2.
        { apply not_0_INR. rewrite size_fG. destruct (objs c); [done|]. simpl. lia. }
        apply Rmult_integral in Hz as [Hz|Hz]; [done|]. by apply Rinv_neq_0_compat in H2. }
      assert (A = ∅) as ->.
      { rewrite <-E2. apply set_eq. intros g. split; [|by intros ?%elem_of_empty]. intros [Hgg H]%elem_of_down.
        rewrite <-Hd. apply elem_of_down. split; [done|]. intros m ->%elem_of_singleton. by apply H. }
      rewrite <-E1, up_empty. by apply elem_of_list_to_set.
  Qed.
End cxt.
Lemma compute_probability_spec c l : good c → comparable (objs c) = true → comparable (atts c) = true → objs c ≠ [] →
  mk_lattice c = Ok l →
  ∃ d, compute_probability l = Ok d ∧ (∀ x, x ∈ map fst d ↔ x ∈ lconcepts l) ∧
    ∀ A B, is_concept (abs c) A B →
      dget (A, B) d = Some (closed_probability (freq (abs c)) (atts c) (elements B) (size (fG (abs c)))).
Proof.
  intros Hg Ho Ha Hne Hl. destruct (lattice_spec c Hg Ho Ha l Hl) as (H1 & H2 & H3 & _).
  unfold compute_probability. rewrite H1, prob_pm_spec by done. cbn [mbind res_bind]. rewrite (wf_rows c (good_wf c Hg)).
  rewrite (mapM_Ok_map _ (fun x : fconcept => (x, closed_probability (freq (abs c)) (atts c) (elements x.2) (size (fG (abs c)))))).
  - cbn [mbind res_bind]. eexists. split; [done|]. split.
    + intros x. rewrite elem_of_keys_dict_of, map_map. simpl. by rewrite map_id.
    + intros A B Hx%H3. by rewrite (dget_dict_of_map (fun x : fconcept => closed_probability (freq (abs c)) (atts c) (elements x.2) (size (fG (abs c))))).
  - intros [A B] Hx%H3. rewrite (concept_hash c Ho Ha A B Hx). do 2 f_equal. cbn [snd].
    rewrite (concept_probability c Hg A B Hne Hx). by rewrite size_fG.
Qed.
