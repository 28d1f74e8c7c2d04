(** * Rounded quotients of integers (proofs about real numbers, with Flocq) *)
From Coq Require Import ZArith Reals Lia Lra Floats.SpecFloat.
From Flocq Require Import Core.Core IEEE754.BinarySingleNaN.
From Verif Require Import FloatSpec.

Local Instance prec53 : Prec_gt_0 53 := eq_refl.
Local Instance emax1024 : Prec_lt_emax 53 1024 := eq_refl.
Definition fexp64 := FLT_exp (-1074) 53.
Local Instance fexp64_valid : Valid_exp fexp64 := FLT_exp_valid (-1074) 53.
Definition rnd (x : R) : R := round radix2 fexp64 ZnearestE x.

(** ** Validity *)
Lemma pyfloat_valid x : pyfloat x -> valid_binary 53 1024 x = true.
Proof.
  destruct x as [s|s| |s m e]; simpl; try reflexivity. intros H. unfold bounded, canonical_mantissa.
  apply andb_true_intro. split; [apply Zeq_bool_true|apply Zle_bool_true].
  - rewrite Zpos_digits2_pos. unfold fexp, emin.
    destruct H as [[Hm He]|[Hm He]].
    + assert (Zdigits radix2 (Zpos m) = 53%Z) as ->.
      { apply Zdigits_unique. split; apply Hm. }
      lia.
    + assert (Zdigits radix2 (Zpos m) <= 52)%Z as Hd.
      { apply Zdigits_le_Zpower. apply Hm. }
      lia.
  - simpl. lia.
Qed.
Lemma valid_pyfloat x : valid_binary 53 1024 x = true -> pyfloat x.
Proof.
  destruct x as [s|s| |s m e]; simpl; try exact (fun _ => I). intros H. unfold bounded, canonical_mantissa in H.
  apply andb_prop in H. destruct H as [H1 H2]. apply Zeq_bool_eq in H1. apply Zle_bool_imp_le in H2.
  rewrite Zpos_digits2_pos in H1. unfold fexp, emin in H1. simpl in H2.
  pose proof (Zdigits_correct radix2 (Zpos m)) as Hd. set (d := Zdigits radix2 (Zpos m)) in *.
  rewrite Z.abs_eq in Hd by lia.
  destruct (Z.eq_dec d 53) as [E|E].
  - left. rewrite E in Hd. split; [exact Hd|lia].
  - right. split; [|lia]. assert (d <= 52)%Z as Hd' by lia. destruct Hd as [_ Hd].
    eapply Z.lt_le_trans; [exact Hd|]. refine (Zpower_le radix2 d 52 _). exact Hd'.
Qed.

(** ** Values *)
Lemma powerRZ_bpow e : powerRZ 2 e = bpow radix2 e.
Proof. rewrite bpow_powerRZ. reflexivity. Qed.
Lemma fvalue_SF2R x : is_finite_SF x = true -> fvalue x = Some (SF2R radix2 x).
Proof.
  destruct x as [s|s| |s m e]; simpl; try discriminate; try reflexivity. intros _. f_equal.
  unfold F2R. simpl. rewrite powerRZ_bpow. destruct s; reflexivity.
Qed.
Lemma fvalue_finite x r : fvalue x = Some r -> is_finite_SF x = true /\ SF2R radix2 x = r.
Proof.
  intros H. assert (is_finite_SF x = true) as Hf by (destruct x; simpl in *; congruence).
  split; [exact Hf|]. rewrite (fvalue_SF2R _ Hf) in H. congruence.
Qed.
Lemma binary64_format r : binary64 r -> generic_format radix2 fexp64 r.
Proof.
  intros (m & e & Hm & He & ->). apply generic_format_FLT. exists (Float radix2 m e).
  - unfold F2R. simpl. now rewrite powerRZ_bpow.
  - exact Hm.
  - apply He.
Qed.
Lemma fvalue_binary64 x r : pyfloat x -> fvalue x = Some r -> binary64 r.
Proof.
  destruct x as [s|s| |s m e]; simpl; try discriminate.
  - intros _ [= <-]. exists 0%Z, 0%Z. split; [reflexivity|]. split; [lia|]. simpl. lra.
  - intros H [= <-]. exists (if s then Zneg m else Zpos m), e. split; [|split; [lia|reflexivity]].
    assert (Z.abs (if s then Zneg m else Zpos m) = Zpos m) as -> by (destruct s; reflexivity). lia.
Qed.
Lemma fvalue_format x r : pyfloat x -> fvalue x = Some r -> rnd r = r.
Proof.
  intros H1 H2. apply round_generic; [apply valid_rnd_N|]. apply binary64_format. eapply fvalue_binary64; eassumption.
Qed.

(** ** Rounding *)
Lemma rnd_le x y : (x <= y)%R -> (rnd x <= rnd y)%R.
Proof. apply round_le; [exact fexp64_valid|apply valid_rnd_N]. Qed.
Lemma rnd_0 : rnd 0 = 0%R.
Proof. apply round_0. apply valid_rnd_N. Qed.
Lemma binary64_1 : binary64 1.
Proof. exists 1%Z, 0%Z. split; [reflexivity|]. split; [lia|]. simpl. lra. Qed.
Lemma rnd_1 : rnd 1 = 1%R.
Proof. apply round_generic; [apply valid_rnd_N|]. apply binary64_format, binary64_1. Qed.
Lemma rnd_nearest x r' : binary64 r' -> (Rabs (rnd x - x) <= Rabs (r' - x))%R.
Proof.
  intros H. pose proof (round_N_pt radix2 fexp64 (fun x => negb (Z.even x)) x) as [_ Hn].
  apply Hn, binary64_format, H.
Qed.
(** Below 1 the error is at most 2^-54. *)
Lemma rnd_error x : (0 <= x < 1)%R -> (Rabs (rnd x - x) <= bpow radix2 (-54))%R.
Proof.
  intros [H0 H1]. eapply Rle_trans; [apply error_le_half_ulp; exact fexp64_valid|].
  replace (bpow radix2 (-54)) with (/ 2 * bpow radix2 (-53))%R.
  2: { change (-53)%Z with (1 + -54)%Z. rewrite bpow_plus, bpow_1. simpl (IZR radix2). lra. }
  apply Rmult_le_compat_l; [lra|]. destruct (Req_dec x 0) as [->|Hx].
  - unfold fexp64. rewrite ulp_FLT_0 by exact prec53. apply bpow_le. lia.
  - rewrite ulp_neq_0 by exact Hx. apply bpow_le. unfold cexp, fexp64, FLT_exp.
    assert (mag radix2 x <= 0)%Z; [|lia]. apply mag_le_bpow; [exact Hx|]. rewrite Rabs_pos_eq by exact H0. exact H1.
Qed.
Lemma rnd_lt x y : (0 <= x)%R -> (y <= 1)%R -> (bpow radix2 (-53) < y - x)%R -> (rnd x < rnd y)%R.
Proof.
  intros H0 H1 H. pose proof (bpow_gt_0 radix2 (-53)) as Hp.
  assert (bpow radix2 (-53) = 2 * bpow radix2 (-54))%R as E.
  { change (-53)%Z with (1 + -54)%Z. rewrite bpow_plus, bpow_1. simpl (IZR radix2). lra. }
  pose proof (rnd_error x ltac:(lra)) as Hx. apply Rabs_le_inv in Hx.
  destruct (Rlt_dec y 1) as [Hy|Hy].
  - pose proof (rnd_error y ltac:(lra)) as Hy'. apply Rabs_le_inv in Hy'. lra.
  - assert (y = 1%R) as -> by lra. rewrite rnd_1. lra.
Qed.
(** Quotients of ints. *)
Lemma quot_lt_rnd a b p q : (0 <= a)%Z -> (0 < b)%Z -> (p <= q)%Z -> (0 < q)%Z -> (b * q < 2 ^ 53)%Z ->
  (IZR a / IZR b < IZR p / IZR q)%R -> (rnd (IZR a / IZR b) < rnd (IZR p / IZR q))%R.
Proof.
  intros Ha Hb Hp Hq Hbq Hlt. apply IZR_lt in Hb as Hb', Hq as Hq'. apply IZR_le in Ha as Ha', Hp as Hp'.
  apply rnd_lt.
  - apply Rmult_le_pos; [exact Ha'|]. left. now apply Rinv_0_lt_compat.
  - apply (Rmult_le_reg_r (IZR q)); [exact Hq'|]. unfold Rdiv. rewrite Rmult_assoc, Rinv_l by lra. lra.
  - assert (IZR p / IZR q - IZR a / IZR b = IZR (p * b - a * q) / IZR (b * q))%R as ->.
    { rewrite minus_IZR, !mult_IZR. field. lra. }
    assert (1 <= p * b - a * q)%Z as H1.
    { enough (a * q < p * b)%Z by lia. apply lt_IZR. rewrite !mult_IZR.
      apply (Rmult_lt_compat_r (IZR b * IZR q)) in Hlt; [|now apply Rmult_lt_0_compat].
      replace (IZR a / IZR b * (IZR b * IZR q))%R with (IZR a * IZR q)%R in Hlt by (field; lra).
      replace (IZR p / IZR q * (IZR b * IZR q))%R with (IZR p * IZR b)%R in Hlt by (field; lra). exact Hlt. }
    assert (0 < b * q)%Z as H2 by lia. apply IZR_lt in H2. apply IZR_lt in Hbq. apply IZR_le in H1.
    apply Rlt_le_trans with (/ IZR (b * q))%R.
    + change (-53)%Z with (- (53))%Z. rewrite bpow_opp. apply Rinv_lt_contravar; [|exact Hbq].
      apply Rmult_lt_0_compat; [exact H2|apply bpow_gt_0].
    + unfold Rdiv. rewrite <- (Rmult_1_l (/ _)) at 1. apply Rmult_le_compat_r; [|exact H1].
      left. now apply Rinv_0_lt_compat.
Qed.
(** Quotients by powers of two up to 2^53 are exact. *)
Lemma rnd_dyadic a k : (0 <= a <= 2 ^ k)%Z -> (0 <= k <= 53)%Z -> rnd (IZR a / IZR (2 ^ k)) = (IZR a / IZR (2 ^ k))%R.
Proof.
  intros Ha Hk. apply round_generic; [apply valid_rnd_N|].
  assert (IZR (2 ^ k) = bpow radix2 k) as E by (change 2%Z with (radix_val radix2); now rewrite IZR_Zpower by lia).
  destruct (Z.eq_dec a (2 ^ k)) as [->|Hne].
  - unfold Rdiv. rewrite Rinv_r; [apply binary64_format, binary64_1|]. rewrite E. apply Rgt_not_eq, bpow_gt_0.
  - apply binary64_format. exists a, (- k)%Z. split; [|split; [lia|]].
    + rewrite Z.abs_eq by lia. assert (2 ^ k <= 2 ^ 53)%Z; [apply Z.pow_le_mono_r; lia|lia].
    + rewrite powerRZ_bpow, bpow_opp, E. reflexivity.
Qed.

(** ** SFdiv *)
Lemma round_NE_equiv s m l : round_nearest_even m l = choice_mode mode_NE s m l.
Proof.
  case l; [reflexivity|intros c]. case c; [|reflexivity..]. simpl. unfold Round.cond_incr. now case Z.even.
Qed.
Lemma round_aux_equiv sx mx ex lx :
  SpecFloat.binary_round_aux 53 1024 sx mx ex lx = binary_round_aux 53 1024 mode_NE sx mx ex lx.
Proof.
  unfold SpecFloat.binary_round_aux, binary_round_aux. set (mrse' := shr_fexp _ _ _ _ _).
  case mrse'; intros mrs' e'; simpl. now rewrite (round_NE_equiv sx).
Qed.
Lemma SFdiv_pos a b : (Zpos a <= Zpos b)%Z ->
  let z := SFdiv 53 1024 (S754_finite false a 0) (S754_finite false b 0) in
  pyfloat z /\ fvalue z = Some (rnd (IZR (Zpos a) / IZR (Zpos b))).
Proof.
  intros Hab z. pose proof (Bdiv_correct_aux 53 1024 prec53 emax1024 mode_NE false a 0 false b 0) as H. cbv zeta in H.
  assert (z = let '(mz, ez, lz) := SFdiv_core_binary 53 1024 (Zpos a) 0 (Zpos b) 0 in
              binary_round_aux 53 1024 mode_NE (xorb false false) mz ez lz) as E.
  { unfold z, SFdiv. destruct (SFdiv_core_binary _ _ _ _ _ _) as [[mz ez] lz]. apply round_aux_equiv. }
  rewrite <- E in H. clear E. destruct H as [Hv H]. split; [exact (valid_pyfloat _ Hv)|].
  assert (F2R (Float radix2 (cond_Zopp false (Zpos a)) 0) = IZR (Zpos a)) as Ea by (unfold F2R; simpl; lra).
  assert (F2R (Float radix2 (cond_Zopp false (Zpos b)) 0) = IZR (Zpos b)) as Eb by (unfold F2R; simpl; lra).
  rewrite Ea, Eb in H. change (round radix2 _ (round_mode mode_NE) ?x) with (rnd x) in H.
  assert (0 < IZR (Zpos b))%R as Hb by (apply IZR_lt; reflexivity).
  assert (0 <= IZR (Zpos a) / IZR (Zpos b) <= 1)%R as Hx.
  { split; [apply Rmult_le_pos; [apply IZR_le; discriminate|left; now apply Rinv_0_lt_compat]|].
    apply (Rmult_le_reg_r (IZR (Zpos b))); [exact Hb|]. unfold Rdiv. rewrite Rmult_assoc, Rinv_l by lra.
    apply IZR_le in Hab. lra. }
  assert (0 <= rnd (IZR (Zpos a) / IZR (Zpos b)) <= 1)%R as Hr.
  { rewrite <- rnd_0, <- rnd_1 at 1. split; apply rnd_le; apply Hx. }
  rewrite Rlt_bool_true in H.
  - destruct H as (H1 & H2 & _). rewrite (fvalue_SF2R _ H2). now f_equal.
  - rewrite Rabs_pos_eq by apply Hr. apply Rle_lt_trans with (bpow radix2 0); [apply Hr|]. apply bpow_lt. reflexivity.
Qed.

(** ** Comparisons *)
Lemma SFltb_value x y r s : pyfloat x -> pyfloat y -> fvalue x = Some r -> fvalue y = Some s ->
  SFltb x y = true <-> (r < s)%R.
Proof.
  intros Hx Hy [Hxf <-]%fvalue_finite [Hyf <-]%fvalue_finite.
  pose (bx := SF2B (prec := 53) (emax := 1024) x (pyfloat_valid _ Hx)).
  pose (by_ := SF2B (prec := 53) (emax := 1024) y (pyfloat_valid _ Hy)).
  assert (B2SF bx = x) as Ex by apply B2SF_SF2B. assert (B2SF by_ = y) as Ey by apply B2SF_SF2B.
  pose proof (Bltb_correct 53 1024 bx by_) as H. unfold Bltb in H. rewrite <- !is_finite_SF_B2SF, <- !SF2R_B2SF, Ex, Ey in H.
  rewrite (H Hxf Hyf). split; [|apply Rlt_bool_true]. intros E.
  destruct (Rlt_bool_spec (SF2R radix2 x) (SF2R radix2 y)); [assumption|discriminate].
Qed.
Lemma SFleb_value x y r s : pyfloat x -> pyfloat y -> fvalue x = Some r -> fvalue y = Some s ->
  SFleb x y = true <-> (r <= s)%R.
Proof.
  intros Hx Hy [Hxf <-]%fvalue_finite [Hyf <-]%fvalue_finite.
  pose (bx := SF2B (prec := 53) (emax := 1024) x (pyfloat_valid _ Hx)).
  pose (by_ := SF2B (prec := 53) (emax := 1024) y (pyfloat_valid _ Hy)).
  assert (B2SF bx = x) as Ex by apply B2SF_SF2B. assert (B2SF by_ = y) as Ey by apply B2SF_SF2B.
  pose proof (Bleb_correct 53 1024 bx by_) as H. unfold Bleb in H. rewrite <- !is_finite_SF_B2SF, <- !SF2R_B2SF, Ex, Ey in H.
  rewrite (H Hxf Hyf). split; [|apply Rle_bool_true]. intros E.
  destruct (Rle_bool_spec (SF2R radix2 x) (SF2R radix2 y)); [assumption|discriminate].
Qed.
(** Comparison with a float which is not finite does not depend on the finite one. *)
Lemma SFltb_nonfinite x x' y r r' : fvalue x = Some r -> fvalue x' = Some r' -> fvalue y = None -> SFltb x y = SFltb x' y.
Proof. destruct x, x', y; simpl; try discriminate; reflexivity. Qed.
(** Quotients not below 2^-1074 are not rounded to 0. *)
Lemma rnd_pos k x : (0 <= k <= 1074)%Z -> (/ IZR (2 ^ k) <= x)%R -> (0 < rnd x)%R.
Proof.
  intros Hk Hx. apply Rlt_le_trans with (rnd (/ IZR (2 ^ k))); [|now apply rnd_le].
  assert (IZR (2 ^ k) = bpow radix2 k) as E by (change 2%Z with (radix_val radix2); now rewrite IZR_Zpower by lia).
  rewrite E, <- bpow_opp. unfold rnd. rewrite round_generic; [apply bpow_gt_0|apply valid_rnd_N|].
  apply binary64_format. exists 1%Z, (- k)%Z. split; [reflexivity|]. split; [lia|]. rewrite powerRZ_bpow. lra.
Qed.
