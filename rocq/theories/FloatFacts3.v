(** * The factorisations with float fidelity *)
From Coq Require Import ZArith Reals QArith Qreals Qcanon Lra Floats.SpecFloat.
From Flocq Require Import Core.Core.
From Verif Require Import FloatSpec FloatReal.
From Verif Require Import Py PyFacts Spec SpecFacts ContextModel ContextSpec ContextOps ContextFacts ContextInit ContextFinal
  LatticeModel FilterModel FactorSpec FactorModel FactorFacts FactorFacts2 FactorFacts3 FloatModel FloatFacts.
Local Open Scope nat_scope.

(** ** A threshold for a float *)
Lemma initial_segment (p : nat → bool) n : (∀ i j, i ≤ j → j ≤ n → p j = true → p i = true) →
  ∃ t, t ≤ S n ∧ ∀ j, j ≤ n → p j = true ↔ j < t.
Proof.
  induction n as [|n IH]; intros H.
  - destruct (p 0) eqn:E; [exists 1|exists 0]; (split; [lia|]); intros j Hj; assert (j = 0) as -> by lia; rewrite E;
      split; intros; try done; lia.
  - destruct IH as (t & Ht & Hp). { intros i j Hi Hj. apply H; lia. }
    destruct (p (S n)) eqn:E.
    + exists (S (S n)). split; [done|]. intros j Hj. split; [lia|]. intros _. by apply (H j (S n)).
    + exists (Nat.min t (S n)). split; [lia|]. intros j Hj. destruct (decide (j = S n)) as [->|Hne].
      * rewrite E. split; [done|lia].
      * rewrite Hp by lia. lia.
Qed.
(** [q] divides the quotients with denominator [n] as the float [f] does. *)
Definition same_cut (n : nat) (f : spec_float) (q : Qc) : Prop :=
  ∀ j x, (0 <= j <= Z.of_nat n)%Z → fdiv j (Z.of_nat n) = Ok x → SFltb x f = qltb (qdiv j (Z.of_nat n)) q.
Lemma qdiv_ltb a b n : (0 < n)%Z → qltb (qdiv a n) (qdiv b n) = true ↔ (a < b)%Z.
Proof.
  intros Hn. rewrite qltb_spec, Q2R_lt, !Q2R_qdiv by done. apply IZR_lt in Hn. split; intros H.
  - apply lt_IZR. apply (Rmult_lt_reg_r (/ IZR n)); [by apply Rinv_0_lt_compat|done].
  - apply Rmult_lt_compat_r; [by apply Rinv_0_lt_compat|by apply IZR_lt].
Qed.
Lemma SFltb_down x y f p q : pyfloat f → rounded p x → rounded q y → (p <= q)%Qc → SFltb y f = true → SFltb x f = true.
Proof.
  intros Ho [Hx Hx'] [Hy Hy'] Hpq. destruct (fvalue f) as [r|] eqn:E.
  - rewrite (SFltb_value _ _ _ _ Hx Ho Hx' E), (SFltb_value _ _ _ _ Hy Ho Hy' E). intros H.
    eapply Rle_lt_trans; [|exact H]. apply rnd_le. by apply Q2R_le.
  - by rewrite (SFltb_nonfinite x y f _ _ Hx' Hy' E).
Qed.
Lemma SFltb_rounded x y f p : pyfloat f → rounded p x → rounded p y → SFltb x f = SFltb y f.
Proof.
  intros Hf Hx Hy. apply eq_bool_prop_intro. split; intros H%Is_true_true; apply Is_true_true;
    (eapply SFltb_down; [exact Hf| | | |exact H]); try done; apply Qcle_refl.
Qed.
Lemma threshold n f : 0 < n → pyfloat f → ∃ q, same_cut n f q ∧
  ((q <= Q2Qc 1)%Qc ↔ SFltb fone f = false).
Proof.
  intros Hn Hf. set (v := λ j : nat, match fdiv (Z.of_nat j) (Z.of_nat n) with Ok x => SFltb x f | Err _ => false end).
  destruct (initial_segment v n) as (t & Ht & Hv).
  { intros i j Hij Hj. unfold v.
    destruct (fdiv_spec (Z.of_nat i) (Z.of_nat n) ltac:(lia) ltac:(lia)) as (x & -> & Hx).
    destruct (fdiv_spec (Z.of_nat j) (Z.of_nat n) ltac:(lia) ltac:(lia)) as (y & -> & Hy).
    apply (SFltb_down _ _ _ _ _ Hf Hx Hy). rewrite <- qltb_false.
    destruct (qltb _ _) eqn:E; [|done]. apply qdiv_ltb in E; lia. }
  exists (qdiv (Z.of_nat t) (Z.of_nat n)). split.
  - intros j x Hj Ex. assert (SFltb x f = v (Z.to_nat j)) as ->.
    { unfold v. rewrite Z2Nat.id by lia. by rewrite Ex. }
    apply eq_bool_prop_intro. rewrite !Is_true_true, Hv by lia. rewrite qdiv_ltb by lia. lia.
  - rewrite <- (qdiv_self (Z.of_nat n)) by lia. rewrite <- qltb_false.
    assert (v n = SFltb fone f) as Ev.
    { unfold v. destruct (fdiv_spec (Z.of_nat n) (Z.of_nat n) ltac:(lia) ltac:(lia)) as (x & -> & Hx).
      apply (SFltb_rounded _ _ _ (Q2Qc 1) Hf); [|apply fone_rounded]. by rewrite <- (qdiv_self (Z.of_nat n)) by lia. }
    rewrite <- Ev. pose proof (Hv n ltac:(lia)) as H1. pose proof (qdiv_ltb (Z.of_nat n) (Z.of_nat t) (Z.of_nat n) ltac:(lia)) as H2.
    destruct (v n), (qltb _ _); split; intros; try done; exfalso; naive_solver lia.
Qed.
Lemma literal_cut n f p q : 0 < n → (0 <= p <= q)%Z → (0 < q)%Z → (Z.of_nat n * q < 2 ^ 53)%Z → fdiv p q = Ok f →
  same_cut n f (qdiv p q).
Proof.
  intros Hn Hp Hq Hnq Ef j x Hj Ex. apply rounded_ltb; try done; try lia.
  - apply fdiv_rounded; try done; lia.
  - by apply fdiv_rounded.
Qed.

(** ** Simulations *)
Section sim.
  Context (c : context) (ord : nat → nat → gset name → list name).
  Lemma rect_in_sub C D U : rect_in C D U ⊆ U.
  Proof. intros p. unfold rect_in. rewrite elem_of_filter. tauto. Qed.
  Lemma alg2_inner_sub k U : ∀ fuel i D V C rem rem' C' D', rem ⊆ U →
    alg2_inner c ord fuel k i U D V C rem = Ok (rem', C', D') → rem' ⊆ U.
  Proof.
    induction fuel as [|fuel IH]; intros i D V C rem rem' C' D' Hr E; [done|]. cbn [alg2_inner] in E.
    destruct (aprime c (elements D)) as [Do|]; [|done]. cbn [mbind res_bind] in E.
    destruct (mapM _ _) as [ms|]; [|done]. cbn [mbind res_bind] in E.
    destruct ms as [|m ms]; [by injection E as <- _ _|]. destruct (py_max _ _ _) as [v j].
    destruct (V <? v); [|by injection E as <- _ _].
    destruct (aprime c _) as [C1|]; [|done]. cbn [mbind res_bind] in E.
    destruct (oprime c _) as [D1|]; [|done]. cbn [mbind res_bind] in E.
    eapply IH; [|exact E]. apply rect_in_sub.
  Qed.
  Lemma wcond_inner_sub allow mn ge k U avail : ∀ fuel i D C V rem C' D' rem', rem ⊆ U →
    wcond_inner c ord allow mn ge fuel k i U avail D C V rem = Ok (WYield C' D' rem') → rem' ⊆ U.
  Proof.
    induction fuel as [|fuel IH]; intros i D C V rem C' D' rem' Hr E; [done|]. cbn [wcond_inner] in E.
    destruct (aprime c (elements D)) as [Do|]; [|done]. cbn [mbind res_bind] in E.
    destruct (mapM _ _) as [ms|]; [|done]. cbn [mbind res_bind] in E.
    destruct ms as [|m ms]; [done|]. destruct (py_max _ _ _) as [v j].
    destruct (_ || _).
    - destruct (aprime c _) as [C1|]; [|done]. cbn [mbind res_bind] in E.
      destruct (_ || _); [done|]. destruct (oprime c _) as [D1|]; [|done]. cbn [mbind res_bind] in E.
      eapply IH; [|exact E]. destruct allow; [apply rect_in_sub|]. intros p. rewrite elem_of_filter. tauto.
    - destruct (good_factor _ _ _ _); [|done]. destruct (decide (rem = ∅)); [done|]. by injection E as _ _ <-.
  Qed.
  Context (n : nat) (f : spec_float) (q : Qc) (Hn : 0 < n) (Hcut : same_cut n f q).
  Lemma falg2_loop_sim : ∀ fuel k U, size U ≤ n →
    (falg2_loop c ord fuel k n f U).2 = (alg2_loop c ord fuel k n q U).2 ∧
    drel (alg2_loop c ord fuel k n q U).1 (falg2_loop c ord fuel k n f U).1.
  Proof.
    induction fuel as [|fuel IH]; intros k U HU; [split; [done|constructor]|]. cbn [falg2_loop alg2_loop].
    rewrite decide_False by lia.
    assert (0 <= Z.of_nat n - Z.of_nat (size U) <= Z.of_nat n)%Z as Hb by lia.
    destruct (fdiv_spec _ (Z.of_nat n) Hb ltac:(lia)) as (x & Ex & Hx). rewrite Ex. rewrite (Hcut _ _ Hb Ex). destruct (qltb _ q); [|split; [done|constructor]].
    destruct (alg2_inner _ _ _ _ _ _ _ _ _ _) as [[[rem C] D]|] eqn:Ei; [|split; [done|constructor]].
    destruct (decide (rem = ∅)); [split; [done|constructor]|].
    assert (rem ⊆ U) as Hr by (eapply alg2_inner_sub; [|exact Ei]; apply empty_subseteq).
    apply subseteq_size in Hr as Hr'.
    assert (0 <= Z.of_nat (size rem) <= Z.of_nat n)%Z as Hb' by lia.
    destruct (fdiv_spec _ (Z.of_nat n) Hb' ltac:(lia)) as (y & Ey & Hy). rewrite Ey.
    assert (size (U ∖ rem) ≤ n) as HU' by (etrans; [apply subseteq_size, subseteq_difference_l; reflexivity|done]).
    destruct (IH (S k) (U ∖ rem) HU') as [H1 H2]. revert H1 H2.
    destruct (falg2_loop c ord fuel (S k) n f (U ∖ rem)) as [ys r].
    destruct (alg2_loop c ord fuel (S k) n q (U ∖ rem)) as [ys' r']. cbn [fst snd]. intros -> H2.
    split; [done|]. by apply Forall2_cons.
  Qed.
  Definition wrel (d : list (fconcept * Qc * Qc)) (e : list (fconcept * spec_float * spec_float)) : Prop :=
    Forall2 (λ p q, p.1.1 = q.1.1 ∧ rounded p.1.2 q.1.2 ∧ rounded p.2 q.2) d e.
  Lemma fwcond_loop_sim allow mn ge : ∀ fuel k U removed, size U ≤ n →
    (fwcond_loop c ord allow mn ge fuel k n f U removed).2 = (wcond_loop c ord allow mn ge fuel k n q U removed).2 ∧
    wrel (wcond_loop c ord allow mn ge fuel k n q U removed).1 (fwcond_loop c ord allow mn ge fuel k n f U removed).1.
  Proof.
    induction fuel as [|fuel IH]; intros k U removed HU; [split; [done|constructor]|]. cbn [fwcond_loop wcond_loop].
    assert (0 <= Z.of_nat n - Z.of_nat (size U) <= Z.of_nat n)%Z as Hb by lia.
    destruct (fdiv_spec _ (Z.of_nat n) Hb ltac:(lia)) as (x & Ex & Hx). rewrite Ex. rewrite (Hcut _ _ Hb Ex).
    destruct (qltb _ q); [|split; [done|constructor]].
    destruct (wcond_inner _ _ _ _ _ _ _ _ _ _ _ _ _ _) as [[|Dj|C D rem]|] eqn:Ei; try (split; [done|constructor]).
    - apply IH. etrans; [|exact HU]. apply subseteq_size. intros p. rewrite elem_of_filter. tauto.
    - assert (rem ⊆ U) as Hr by (eapply wcond_inner_sub; [|exact Ei]; apply empty_subseteq).
      apply subseteq_size in Hr as Hr'.
      assert (size (U ∖ rem) ≤ n) as HU' by (etrans; [apply subseteq_size, subseteq_difference_l; reflexivity|done]).
      assert (0 <= Z.of_nat (size rem) <= Z.of_nat n)%Z as Hb1 by lia.
      assert (0 <= Z.of_nat n - Z.of_nat (size (U ∖ rem)) <= Z.of_nat n)%Z as Hb2 by lia.
      destruct (fdiv_spec _ (Z.of_nat n) Hb1 ltac:(lia)) as (y & Ey & Hy). rewrite Ey.
      destruct (fdiv_spec _ (Z.of_nat n) Hb2 ltac:(lia)) as (z & Ez & Hz). rewrite Ez.
      destruct (IH (S k) (U ∖ rem) removed HU') as [H1 H2]. revert H1 H2.
      destruct (fwcond_loop c ord allow mn ge fuel (S k) n f (U ∖ rem) removed) as [ys r].
      destruct (wcond_loop c ord allow mn ge fuel (S k) n q (U ∖ rem) removed) as [ys' r']. cbn [fst snd]. intros -> H2.
      split; [done|]. by apply Forall2_cons.
  Qed.
End sim.

Section alg.
  Context (c : context) (ord : nat → nat → gset name → list name) (Hg : good c) (HI : fI (abs c) ≠ ∅).
  Notation n := (size (fI (abs c))).
  Lemma crosses_pos : 0 < n.
  Proof. assert (n ≠ 0) as H by (intros E; apply size_empty_inv in E; set_solver). lia. Qed.
  Lemma falgorithm2_sim f q : same_cut n f q →
    (falgorithm2 c ord f).2 = (algorithm2 c ord q).2 ∧ drel (algorithm2 c ord q).1 (falgorithm2 c ord f).1.
  Proof.
    intros Hc. unfold falgorithm2, algorithm2. destruct (fI_pairs c Hg) as (l & -> & ->).
    apply falg2_loop_sim; [apply crosses_pos|done|done].
  Qed.
  Lemma fwcond_sim allow mn ge f q : same_cut n f q →
    (falgorithm2_w_condition c ord allow mn ge f).2 = (algorithm2_w_condition c ord allow mn ge q).2 ∧
    wrel (algorithm2_w_condition c ord allow mn ge q).1 (falgorithm2_w_condition c ord allow mn ge f).1.
  Proof.
    intros Hc. unfold falgorithm2_w_condition, algorithm2_w_condition. destruct (fI_pairs c Hg) as (l & -> & ->).
    pose proof crosses_pos. rewrite !decide_False by lia. apply fwcond_loop_sim; [apply crosses_pos|done|done].
  Qed.
End alg.
