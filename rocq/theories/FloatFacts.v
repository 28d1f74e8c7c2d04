(** * Proofs about the float versions of the indices *)
From Coq Require Import ZArith Reals QArith Qreals Qcanon Lra Floats.SpecFloat.
From Flocq Require Import Core.Core.
From Verif Require Import FloatSpec FloatReal.
From Verif Require Import Py PyFacts Spec ContextModel LatticeModel LatticeFacts FilterModel FilterFacts FilterFacts2
  FactorModel FactorFacts FloatModel.

(** ** Rationals as reals *)
Lemma Q2R_qdiv a b : (0 < b)%Z → Q2R (qdiv a b) = (IZR a / IZR b)%R.
Proof.
  intros Hb. unfold qdiv. transitivity (Q2R (inject_Z a / inject_Z b)).
  { apply Qeq_eqR. apply Qred_correct. }
  rewrite Q2R_div.
  - unfold Q2R. simpl. rewrite !Rinv_1, !Rmult_1_r. reflexivity.
  - unfold Qeq. simpl. lia.
Qed.
Lemma Q2R_le (p q : Qc) : (p <= q)%Qc ↔ (Q2R p <= Q2R q)%R.
Proof. split; [apply Qle_Rle|apply Rle_Qle]. Qed.
Lemma Q2R_lt (p q : Qc) : (p < q)%Qc ↔ (Q2R p < Q2R q)%R.
Proof. split; [apply Qlt_Rlt|apply Rlt_Qlt]. Qed.
Lemma Q2R_0 : Q2R (Q2Qc 0) = 0%R.
Proof. transitivity (Q2R 0); [apply Qeq_eqR, Qred_correct|apply RMicromega.Q2R_0]. Qed.
Lemma Q2R_1 : Q2R (Q2Qc 1) = 1%R.
Proof. transitivity (Q2R 1); [apply Qeq_eqR, Qred_correct|apply RMicromega.Q2R_1]. Qed.
Lemma quot_unit a b : (0 <= a <= b)%Z → (0 < b)%Z → (0 <= IZR a / IZR b <= 1)%R.
Proof.
  intros [H1 H2] Hb. apply IZR_lt in Hb. apply IZR_le in H1, H2. split.
  - apply Rmult_le_pos; [exact H1|]. left. by apply Rinv_0_lt_compat.
  - apply (Rmult_le_reg_r (IZR b)); [exact Hb|]. unfold Rdiv. rewrite Rmult_assoc, Rinv_l by lra. lra.
Qed.
Lemma qdiv_unit a b : (0 <= a <= b)%Z → (0 < b)%Z → (Q2Qc 0 <= qdiv a b)%Qc ∧ (qdiv a b <= Q2Qc 1)%Qc.
Proof. intros H Hb. rewrite !Q2R_le, Q2R_0, Q2R_1, Q2R_qdiv by done. by apply quot_unit. Qed.
Lemma qdiv_unit_inv a b : (0 < b)%Z → (Q2Qc 0 <= qdiv a b)%Qc → (qdiv a b <= Q2Qc 1)%Qc → (0 <= a <= b)%Z.
Proof.
  intros Hb. rewrite !Q2R_le, Q2R_0, Q2R_1, Q2R_qdiv by done. intros H1 H2. apply IZR_lt in Hb.
  apply (Rmult_le_compat_r (IZR b)) in H1, H2; try lra. unfold Rdiv in *. rewrite Rmult_assoc, Rinv_l in H1, H2 by lra.
  split; apply le_IZR; lra.
Qed.

(** ** The rounded rational *)
Definition rounded (q : Qc) (x : spec_float) : Prop := pyfloat x ∧ fvalue x = Some (rnd (Q2R q)).
Lemma fdiv_spec a b : (0 <= a <= b)%Z → (0 < b)%Z → ∃ x, fdiv a b = Ok x ∧ rounded (qdiv a b) x.
Proof.
  intros Ha Hb. unfold fdiv. rewrite decide_False by lia. unfold rounded. rewrite Q2R_qdiv by done.
  destruct b as [|b|b]; [lia| |lia]. destruct a as [|a|a]; [| |lia].
  - exists (S754_zero false). split; [reflexivity|]. split; [exact I|]. simpl. f_equal.
    unfold Rdiv. rewrite Rmult_0_l. by rewrite rnd_0.
  - pose proof (SFdiv_pos a b ltac:(lia)) as [H1 H2]. cbv zeta in *.
    change (sf_of_Z (Zpos a)) with (S754_finite false a 0). change (sf_of_Z (Zpos b)) with (S754_finite false b 0).
    revert H1 H2. generalize (SFdiv 53 1024 (S754_finite false a 0) (S754_finite false b 0)). intros z H1 H2.
    exists z. split; [|done]. destruct z; try discriminate; reflexivity.
Qed.
Lemma fdiv_rounded a b x : (0 <= a <= b)%Z → (0 < b)%Z → fdiv a b = Ok x → rounded (qdiv a b) x.
Proof. intros Ha Hb E. destruct (fdiv_spec a b Ha Hb) as (y & E' & H). congruence. Qed.
Lemma fone_rounded : rounded (Q2Qc 1) fone.
Proof.
  split; [left; split; [split; [by vm_compute|by vm_compute]|lia]|]. rewrite Q2R_1, rnd_1. cbn [fvalue fone]. f_equal.
  change (-52)%Z with (- (52))%Z. rewrite powerRZ_bpow, bpow_opp.
  replace (bpow radix2 52) with (IZR 4503599627370496) by reflexivity. apply Rinv_r. apply IZR_neq. lia.
Qed.
Lemma rounded_nearest q x : rounded q x → nearest q x.
Proof.
  intros [H1 H2]. exists (rnd (Q2R q)). split; [done|]. split; [by eapply fvalue_binary64|].
  intros r' Hr. by apply rnd_nearest.
Qed.
Lemma rounded_dyadic a k x : (0 <= a <= 2 ^ k)%Z → (0 <= k <= 53)%Z → rounded (qdiv a (2 ^ k)) x → exactly (qdiv a (2 ^ k)) x.
Proof.
  intros Ha Hk [_ H]. unfold exactly. rewrite H. f_equal. rewrite Q2R_qdiv by lia. by apply rnd_dyadic.
Qed.
Lemma rounded_le p q x y : rounded p x → rounded q y → (p <= q)%Qc → SFleb x y = true.
Proof.
  intros [Hx Hx'] [Hy Hy'] H. apply (SFleb_value _ _ _ _ Hx Hy Hx' Hy'). apply rnd_le. by apply Q2R_le.
Qed.
Lemma rounded_lt a b p q x y : (0 <= a)%Z → (0 < b)%Z → (p <= q)%Z → (0 < q)%Z → (b * q < 2 ^ 53)%Z →
  rounded (qdiv a b) x → rounded (qdiv p q) y → (qdiv a b < qdiv p q)%Qc → SFltb x y = true.
Proof.
  intros Ha Hb Hp Hq Hbq [Hx Hx'] [Hy Hy'] H. apply (SFltb_value _ _ _ _ Hx Hy Hx' Hy').
  rewrite Q2R_lt in H. rewrite !Q2R_qdiv in * by done. by apply quot_lt_rnd.
Qed.
Lemma SFltb_not_leb x y r s : pyfloat x → pyfloat y → fvalue x = Some r → fvalue y = Some s →
  SFltb x y = true ↔ SFleb y x = false.
Proof.
  intros Hx Hy Hr Hs. rewrite (SFltb_value _ _ _ _ Hx Hy Hr Hs). pose proof (SFleb_value _ _ _ _ Hy Hx Hs Hr) as H.
  destruct (SFleb y x); split; intros H'; try done.
  - pose proof (proj1 H eq_refl). lra.
  - destruct (Rlt_dec r s) as [|Hn]; [done|]. assert (s <= r)%R as Hle by lra. by apply H in Hle.
Qed.
Lemma rounded_ltb_leb p q x y : rounded p x → rounded q y → SFltb x y = true ↔ SFleb y x = false.
Proof. intros [H1 H2] [H3 H4]. by eapply SFltb_not_leb. Qed.
(** Comparison of quotients with a small product of denominators is exact. *)
Lemma rounded_ltb a b p q x y : (0 <= a <= b)%Z → (0 < b)%Z → (0 <= p <= q)%Z → (0 < q)%Z → (b * q < 2 ^ 53)%Z →
  rounded (qdiv a b) x → rounded (qdiv p q) y → SFltb x y = qltb (qdiv a b) (qdiv p q).
Proof.
  intros Ha Hb Hp Hq Hbq Hx Hy. destruct (qltb (qdiv a b) (qdiv p q)) eqn:E.
  - apply qltb_spec in E. apply (rounded_lt a b p q); try done; lia.
  - apply qltb_false in E. destruct (SFltb x y) eqn:E2; [|done].
    apply (rounded_ltb_leb _ _ _ _ Hx Hy) in E2. by rewrite (rounded_le _ _ _ _ Hy Hx E) in E2.
Qed.
Lemma rounded_leb a b p q x y : (0 <= a <= b)%Z → (0 < b)%Z → (0 <= p <= q)%Z → (0 < q)%Z → (b * q < 2 ^ 53)%Z →
  rounded (qdiv a b) x → rounded (qdiv p q) y → SFleb x y = true ↔ (qdiv a b <= qdiv p q)%Qc.
Proof.
  intros Ha Hb Hp Hq Hbq Hx Hy. rewrite <- qltb_false. rewrite <- (rounded_ltb p q a b y x); try done; [|lia].
  pose proof (rounded_ltb_leb _ _ _ _ Hy Hx). destruct (SFltb y x), (SFleb x y); naive_solver.
Qed.

(** ** Dictionaries with the same keys *)
Definition drel (d : list (fconcept * Qc)) (f : list (fconcept * spec_float)) : Prop :=
  Forall2 (λ p q, p.1 = q.1 ∧ rounded p.2 q.2) d f.
Lemma drel_dset x v y d f : drel d f → rounded v y → drel (dset x v d) (dset x y f).
Proof.
  intros H Hv. induction H as [|[k1 v1] [k2 v2] d f [E Hr] H IH]; [by apply Forall2_cons; split; [split|apply Forall2_nil]|].
  simpl in E. subst k2. cbn [dset]. destruct (decide (k1 = x)); by apply Forall2_cons.
Qed.
Lemma drel_dget x d f : drel d f → ∀ v, dget x d = Some v → ∃ y, dget x f = Some y ∧ rounded v y.
Proof.
  intros H. induction H as [|[k1 v1] [k2 v2] d f [E Hr] H IH]; intros v; [done|].
  simpl in E. subst k2. cbn [dget]. destruct (decide (k1 = x)); [intros [= <-]; by exists v2|apply IH].
Qed.
Lemma drel_keys d f : drel d f → map fst f = map fst d.
Proof. induction 1 as [|p q d f [E _] H IH]; [done|]. simpl. by rewrite E, IH. Qed.
Lemma drel_dict_of d f : drel d f → drel (dict_of d) (dict_of f).
Proof.
  unfold dict_of. intros H. assert (drel [] []) as H0 by constructor. revert H0.
  generalize (@nil (fconcept * Qc)) (@nil (fconcept * spec_float)).
  induction H as [|p q d f [E Hr] H IH]; intros d0 f0 H0; [done|]. cbn [foldl]. apply IH. rewrite E. by apply drel_dset.
Qed.

(** ** Loops *)
Definition unit_q (v : Qc) : Prop := (Q2Qc 0 <= v)%Qc ∧ (v <= Q2Qc 1)%Qc.
Section stab.
  Context (ltc ltu : fconcept → fconcept → bool) (side : fconcept → gset name).
  Context (pop : nat → gset fconcept → fconcept).
  Lemma stab_loop_keeps : ∀ fuel k cs subsets count W st st' x v, NoDup cs →
    stab_loop ltu side pop fuel k cs subsets count W st = Ok st' → x ∉ cs → dget x st = Some v → dget x st' = Some v.
  Proof.
    induction fuel as [|fuel IH]; intros k cs subsets count W st st' x v Hnd E Hx Hv.
    { destruct cs; [|done]. by injection E as <-. }
    destruct cs as [|c0 cs]; [by injection E as <-|]. cbn [stab_loop] in E. destruct (decide (W = ∅)); [done|].
    set (b := pop k W) in *. destruct (dget b subsets) as [sb|]; [|done]. cbn [get_or mbind res_bind] in E.
    destruct (decide (b ∈ c0 :: cs)) as [Hb|Hb].
    2: { by rewrite (proj1 (list_remove_spec b (c0 :: cs)) Hb) in E. }
    destruct (proj2 (list_remove_spec b (c0 :: cs)) Hb) as (l1 & l2 & El & Hb1 & El'). rewrite El' in E.
    cbn [mbind res_bind] in E. destruct (stab_upd _ _ _ _ _ _) as [[[s1 c1] W1]|]; [|done].
    cbn [mbind res_bind fst snd] in E. rewrite El in Hx, Hnd. apply NoDup_app in Hnd as (N1 & N2 & N3).
    apply NoDup_cons in N3 as [N3 N4]. eapply IH; [|exact E| |].
    - apply NoDup_app. split; [done|]. split; [|done]. intros y Hy1 Hy2. apply (N2 y Hy1). by right.
    - set_solver.
    - rewrite dget_dset. destruct (decide _) as [E2|]; [|done]. subst x. set_solver.
  Qed.
  Lemma fstab_loop_sim : ∀ fuel k cs subsets count W st st' fst_, NoDup cs →
    stab_loop ltu side pop fuel k cs subsets count W st = Ok st' →
    (∀ x v, dget x st' = Some v → unit_q v) → drel st fst_ →
    ∃ fst', fstab_loop ltu side pop fuel k cs subsets count W fst_ = Ok fst' ∧ drel st' fst'.
  Proof.
    induction fuel as [|fuel IH]; intros k cs subsets count W st st' fst_ Hnd E Hu Hd.
    { destruct cs; [|done]. injection E as <-. by exists fst_. }
    destruct cs as [|c0 cs]; [injection E as <-; by exists fst_|]. cbn [stab_loop] in E. cbn [fstab_loop].
    destruct (decide (W = ∅)); [done|].
    set (b := pop k W) in *. destruct (dget b subsets) as [sb|]; [|done]. cbn [get_or mbind res_bind] in E |- *.
    destruct (decide (b ∈ c0 :: cs)) as [Hb|Hb].
    2: { by rewrite (proj1 (list_remove_spec b (c0 :: cs)) Hb) in E. }
    destruct (proj2 (list_remove_spec b (c0 :: cs)) Hb) as (l1 & l2 & El & Hb1 & El'). rewrite El' in E |- *.
    cbn [mbind res_bind] in E |- *. destruct (stab_upd _ _ _ _ _ _) as [[[s1 c1] W1]|] eqn:Eu; [|done].
    cbn [mbind res_bind fst snd] in E |- *. rewrite El in Hnd. apply NoDup_app in Hnd as (N1 & N2 & N3).
    apply NoDup_cons in N3 as [N3 N4].
    assert (NoDup (l1 ++ l2)) as Hnd'.
    { apply NoDup_app. split; [done|]. split; [|done]. intros y Hy1 Hy2. apply (N2 y Hy1). by right. }
    assert (b ∉ l1 ++ l2) as Hbn by set_solver.
    assert (unit_q (qdiv sb (2 ^ Z.of_nat (size (side b))))) as [Hu1 Hu2].
    { apply (Hu b). eapply stab_loop_keeps; [exact Hnd'|exact E|exact Hbn|]. rewrite dget_dset. by rewrite decide_True. }
    apply qdiv_unit_inv in Hu2; [|lia|done].
    destruct (fdiv_spec sb (2 ^ Z.of_nat (size (side b))) Hu2 ltac:(lia)) as (v & Ev & Hv). rewrite Ev.
    cbn [mbind res_bind]. eapply IH; [exact Hnd'|exact E|exact Hu|]. by apply drel_dset.
  Qed.
  Lemma fstab_sim first cs st : NoDup cs → stab ltc ltu side pop first cs = Ok st → (∀ x v, dget x st = Some v → unit_q v) →
    ∃ f, fstab ltc ltu side pop first cs = Ok f ∧ drel st f.
  Proof.
    intros Hnd. unfold stab, fstab. destruct (forallb chash cs); [|done]. destruct (first cs) as [b|]; [|done].
    cbn [mbind res_bind]. intros E Hu. eapply fstab_loop_sim; [done|exact E|exact Hu|constructor].
  Qed.
End stab.
Lemma findex_of_sim f g cs d : index_of f cs = Ok d →
  (∀ x v, x ∈ cs → f x = Ok v → ∃ y, g x = Ok y ∧ rounded v y) → ∃ e, findex_of g cs = Ok e ∧ drel d e.
Proof.
  unfold index_of, findex_of. intros E H.
  destruct (mapM (λ x, v ← f x; if chash x then Ok (x, v) else Err TypeError) cs) as [l|] eqn:El; [|done].
  cbn [mbind res_bind] in E. injection E as <-.
  enough (∃ l', mapM (λ x, v ← g x; if chash x then Ok (x, v) else Err TypeError) cs = Ok l' ∧ drel l l') as (l' & -> & Hl).
  { eexists. split; [reflexivity|]. by apply drel_dict_of. }
  revert l El. induction cs as [|x cs IH]; intros l El.
  { injection El as <-. exists []. split; [reflexivity|constructor]. }
  cbn [mapM mbind res_bind] in El |- *. destruct (f x) as [v|] eqn:Ev; [|done]. cbn [mbind res_bind] in El.
  destruct (H x v ltac:(by left) Ev) as (y & -> & Hy). cbn [mbind res_bind]. destruct (chash x); [|done].
  destruct (mapM _ cs) as [l0|]; [|done]. cbn in El. injection El as <-.
  destruct (IH ltac:(intros; apply H; [by right|done]) l0 eq_refl) as (l' & -> & Hl'). exists ((x, y) :: l').
  split; [reflexivity|]. by constructor.
Qed.
