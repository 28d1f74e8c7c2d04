(** * The generator of patterns, suspended while examples are added *)
From Coq Require Import QArith Qcanon.
From Verif Require Import Py PyFacts Spec SpecFacts ContextModel ContextSpec ContextOps ContextFacts ContextInit ContextFinal
  LatticeModel NorrisFacts LatticeFacts PatternModel PatternSpec PatternFacts GenModel GenSpec GenFacts GenFacts3.
Local Open Scope nat_scope.

Lemma pmoves_neg s s' : pinv s → pmoves s s' → atts (pneg s') = atts (pneg s) ∧
  ∀ g, g ∈ objs (pneg s) → g ∈ objs (pneg s') ∧ ∀ m, incident (pneg s') g m ↔ incident (pneg s) g m.
Proof.
  intros H Hm. induction Hm as [s|s s1 s' (o & Hc & ->) Hm IH]; [done|].
  pose proof (pstep_inv o s H Hc) as H1. destruct (IH H1) as (I1 & I2).
  assert (atts (pneg (pstep o s).1) = atts (pneg s) ∧
    ∀ g, g ∈ objs (pneg s) → g ∈ objs (pneg (pstep o s).1) ∧ ∀ m, incident (pneg (pstep o s).1) g m ↔ incident (pneg s) g m) as (J1 & J2).
  { clear -H Hc. destruct o as [p|o X pat|o X]; cbn [pstep pattern_call] in *.
    - by destruct (confirm_cases p s H) as [[_ ->]|[(_ & _ & ->)|[(_ & _ & _ & ->)|(H1 & H2 & H3 & ->)]]]; cbn.
    - destruct (add_negative_cases o X pat s H Hc) as [[_ ->]|(_ & c' & -> & _ & Ho & Ha & HI)]; cbn; [done|].
      split; [done|]. intros g Hg. split; [rewrite Ho; apply elem_of_app; by left|]. intros m. rewrite HI. split; [|tauto]. intros [?|(-> & _)]; done.
    - by destruct (add_positive_effect o X s H Hc) as (c' & -> & _). }
  split; [by rewrite I1|]. intros g Hg. destruct (J2 g Hg) as [G1 G2]. destruct (I2 g G1) as [G3 G4]. split; [done|].
  intros m. by rewrite G4, G2.
Qed.
Lemma occurs_moves s s' P : pinv s → pmoves s s' → occurs (pneg s) P → occurs (pneg s') P.
Proof.
  intros H Hm (g & Hg & Hh & Hf). destruct (pmoves_neg s s' H Hm) as [E HJ]. destruct (HJ g Hg) as [J1 J2]. exists g. split; [done|]. split.
  - intros m Hmm. by apply J2, Hh.
  - intros Hf'. apply Hf. intros m Hmm. apply J2, Hf'. by rewrite E.
Qed.

Section pgen.
  Context (ord : gset name → list name) (Hord : ∀ X, ord X ≡ₚ elements X).
  Definition inside (cn : context) (cs : list fconcept) : Prop := ∀ x, x ∈ cs → x.2 ⊆ list_to_set (atts cn).
  Lemma pgen_loop_spec cn cs : good cn → inside cn cs →
    (pgen_loop ord cn cs = (Stopped, PgEnd) ∧ ∀ x, x ∈ cs → occurs cn x.2) ∨
    ∃ l1 x l2, cs = l1 ++ x :: l2 ∧ pgen_loop ord cn cs = (Yielded x, PgAt l2) ∧ ¬ occurs cn x.2 ∧ ∀ y, y ∈ l1 → occurs cn y.2.
  Proof.
    intros Hg. induction cs as [|x cs IH]; intros Hcs; cbn [pgen_loop].
    { left. split; [done|]. by intros ? ?%elem_of_nil. }
    assert (∀ y, y ∈ ord x.2 → y ∈ atts cn) as Hx.
    { intros y Hy. rewrite (Hord x.2), elem_of_elements in Hy. apply (elem_of_list_to_set (C:=gset name)), (Hcs x); [left|done]. }
    assert ((list_to_set (ord x.2) : gset name) = x.2) as Es.
    { apply set_eq. intros y. by rewrite elem_of_list_to_set, (Hord x.2), elem_of_elements. }
    rewrite aclosure_spec by (apply Hg || done). case_bool_decide as E.
    - right. exists [], x, cs. split; [done|]. split; [done|]. split; [|by intros ? ?%elem_of_nil].
      intros (g & Hgo & Hh & Hf). apply Hf. eapply aclosure_all; [done|exact Hx|done|done|]. by rewrite Es.
    - assert (occurs cn x.2) as Hoc by (rewrite <-Es; by apply not_all).
      destruct IH as [[-> H1]|(l1 & y & l2 & -> & -> & H1 & H2)].
      + intros y Hy. apply Hcs. by right.
      + left. split; [done|]. intros y [->|Hy]%elem_of_cons; auto.
      + right. exists (x :: l1), y, l2. split; [done|]. split; [done|]. split; [done|]. intros z [->|Hz]%elem_of_cons; auto.
  Qed.
  Lemma pgen_end ws : (calls (pgen_next ord) ws PgEnd).1 = replicate (length ws) Stopped.
  Proof. induction ws as [|w ws IH]; [done|]. rewrite calls_cons. cbn [length replicate pgen_next fst snd]. by rewrite IH. Qed.
  Definition pspec (ws : list pexp) (cs : list fconcept) (es : list (event fconcept)) : Prop :=
    ∃ ys m, es = map Yielded ys ++ replicate m Stopped ∧ ys `sublist_of` cs ∧
      (∀ k s x, ws !! k = Some s → ys !! k = Some x → ¬ occurs (pneg s) x.2 ∧
        ∀ l1 l2, cs = l1 ++ x :: l2 → ∀ y, y ∈ l1 → y ∈ take k ys ∨ occurs (pneg s) y.2) ∧
      (∀ k s, ws !! k = Some s → length ys ≤ k → ∀ x, x ∈ cs → x ∈ ys ∨ occurs (pneg s) x.2).
  Lemma pgen_calls ws : ∀ cs, NoDup cs → (∀ s, s ∈ ws → good (pneg s) ∧ inside (pneg s) cs) →
    (∀ k k' s s' P, ws !! k = Some s → ws !! k' = Some s' → k ≤ k' → occurs (pneg s) P → occurs (pneg s') P) →
    pspec ws cs (calls (pgen_next ord) ws (PgAt cs)).1.
  Proof.
    induction ws as [|w ws IH]; intros cs Hd Hws Hch.
    { exists [], 0. split; [done|]. split; [apply sublist_nil_l|]. split; intros; done. }
    rewrite calls_cons. cbn [pgen_next]. destruct (Hws w) as [Hg Hf]; [left|].
    assert (∀ k' s' P, (w :: ws) !! k' = Some s' → occurs (pneg w) P → occurs (pneg s') P) as Hch0.
    { intros k' s' P Hk'. apply (Hch 0 k'); [done|done|lia]. }
    destruct (pgen_loop_spec (pneg w) cs Hg Hf) as [[-> HA]|(l1 & x & l2 & E & -> & H1 & H2)]; cbn [fst snd].
    - rewrite pgen_end. exists [], (S (length ws)). split; [done|]. split; [apply sublist_nil_l|]. split; [done|].
      intros k s Hk _ x Hx. right. eapply Hch0; [done|]. by apply HA.
    - assert (NoDup l2) as Hd2. { rewrite E in Hd. apply NoDup_app in Hd as (_ & _ & Hd). by apply NoDup_cons in Hd as [_ ?]. }
      assert (∀ y, y ∈ l2 → y ∈ cs) as Hsub. { intros y Hy. rewrite E, elem_of_app, elem_of_cons. auto. }
      destruct (IH l2 Hd2) as (ys & m & -> & S1 & S2 & S3).
      { intros s Hs. destruct (Hws s) as [Hgs Hfs]; [by right|]. split; [done|]. intros y Hy. by apply Hfs, Hsub. }
      { intros k k' s s' P Hk Hk' Hle. apply (Hch (S k) (S k')); [done|done|lia]. }
      exists (x :: ys), m. split; [done|]. split; [|split].
      + rewrite E. apply sublist_inserts_l. by apply sublist_skip.
      + intros [|k] s y Hk Hy; cbn in Hk, Hy.
        * injection Hk as <-. injection Hy as <-. split; [done|]. intros k1 k2 E' z Hz. right. apply H2.
          rewrite E in Hd, E'. apply split_unique in E'; [by subst|done].
        * destruct (S2 k s y Hk Hy) as (U1 & U3). split; [done|]. intros k1 k2 E' z Hz.
          assert (y ∈ l2) as Ho' by (eapply elem_of_sub; [exact S1|]; by eapply elem_of_list_lookup_2).
          apply elem_of_list_split in Ho' as (p1 & p2 & Ep).
          assert (k1 = l1 ++ x :: p1) as ->.
          { symmetry. apply (split_unique _ p2 _ k2 y); rewrite <-app_assoc; cbn [app]; rewrite <-Ep, <-E; [done|]. by rewrite E'. }
          cbn [take]. apply elem_of_app in Hz as [Hz|[->|Hz]%elem_of_cons].
          { right. apply (Hch0 (S k)); [done|by apply H2]. }
          { left. left. }
          destruct (U3 p1 p2 Ep z Hz); [left; by right|by right].
      + intros [|k] s Hk Hl y Hy; cbn [length] in Hl; [lia|]. rewrite E in Hy.
        apply elem_of_app in Hy as [Hy|[->|Hy]%elem_of_cons].
        * right. apply (Hch0 (S k)); [done|by apply H2].
        * left. left.
        * cbn in Hk. destruct (S3 k s Hk ltac:(lia) y Hy); [left; by right|by right].
  Qed.
  Lemma pattern_list cp : good cp → length (objs cp) ≤ 63 → length (atts cp) ≤ 63 →
    ∃ c1 c2 cs, reduce_attributes cp = Ok c1 ∧ reduce_objects c1 = Ok c2 ∧ norris c2 = Ok cs ∧ NoDup cs ∧
      ∀ x, x ∈ cs → x.2 ⊆ list_to_set (atts cp).
  Proof.
    intros Hp Ho63 Ha63.
    destruct (reduce_attributes_final cp Hp Ho63) as (c1 & E1 & Hg1 & Ho1 & Ha1 & HI1 & Hcl1 & _).
    destruct (reduce_final c1 Hg1) as (c2 & E2 & Hg2 & Ha2 & Ho2 & HI2 & Hcl2 & _). { apply sublist_length in Ha1. lia. }
    destruct (norris_spec c2 Hg2) as (cs & E3 & Hnd & _ & Hcs).
    exists c1, c2, cs. do 4 (split; [done|]). intros [A B] HAB. apply Hcs in HAB as (_ & HB & _). cbn [snd]. intros m Hm.
    apply HB, (elem_of_list_to_set (C:=gset name)) in Hm. rewrite Ha2 in Hm. apply elem_of_list_to_set. by eapply elem_of_sub.
  Qed.
  Lemma pattern_calls_spec s0 ss : pinv s0 → length (objs (ppos s0)) ≤ 63 → length (atts (ppos s0)) ≤ 63 →
    (∀ k s s', (s0 :: ss) !! k = Some s → (s0 :: ss) !! S k = Some s' → pmoves s s') →
    ∃ c1 c2 cs, reduce_attributes (ppos s0) = Ok c1 ∧ reduce_objects c1 = Ok c2 ∧ norris c2 = Ok cs ∧ NoDup cs ∧
      (∀ s, s ∈ s0 :: ss → pinv s ∧ (list_to_set (atts (ppos s0)) : gset name) = list_to_set (atts (pneg s)) ∧ inside (pneg s) cs) ∧
      pspec (s0 :: ss) cs (pattern_calls ord (s0 :: ss)).
  Proof.
    intros H Ho Ha Hch. destruct (pattern_list (ppos s0)) as (c1 & c2 & cs & E1 & E2 & E3 & Hnd & Hin); [apply H|done|done|].
    exists c1, c2, cs. do 4 (split; [done|]).
    assert (∀ d k s s', (s0 :: ss) !! k = Some s → (s0 :: ss) !! (k + d) = Some s' → pmoves s s') as Hd.
    { induction d as [|d IH]; intros k s s' Hk Hk'.
      - rewrite Nat.add_0_r, Hk in Hk'. injection Hk' as <-. apply rtc_refl.
      - destruct ((s0 :: ss) !! (k + d)) as [s1|] eqn:E'.
        2:{ apply lookup_ge_None in E'. apply lookup_lt_Some in Hk'. lia. }
        eapply rtc_transitive; [by eapply IH|]. eapply Hch; [done|]. by replace (S (k + d)) with (k + S d) by lia. }
    assert (∀ k s, (s0 :: ss) !! k = Some s → pmoves s0 s) as H0 by (intros k s Hk; by apply (Hd k 0)).
    assert (∀ s, s ∈ s0 :: ss → pinv s ∧ (list_to_set (atts (ppos s0)) : gset name) = list_to_set (atts (pneg s)) ∧ inside (pneg s) cs) as Hall.
    { intros s [k Hk]%elem_of_list_lookup. destruct (pmoves_facts s0 s H (H0 k s Hk)) as (I1 & _).
      destruct (pmoves_neg s0 s H (H0 k s Hk)) as [Ea _].
      assert ((list_to_set (atts (ppos s0)) : gset name) = list_to_set (atts (pneg s))) as E by (rewrite Ea; apply H).
      split; [done|]. split; [done|]. intros x Hx. rewrite <-E. by apply Hin. }
    split; [done|].
    pose proof (pgen_calls (s0 :: ss) cs Hnd) as Hp. unfold pattern_calls. rewrite calls_cons in *.
    cbn [pgen_next] in *. rewrite E1. cbn [mbind res_bind]. rewrite E2. cbn [mbind res_bind]. rewrite E3. apply Hp.
    - intros s Hs. destruct (Hall s Hs) as (I1 & _ & I2). split; [apply I1|done].
    - intros k k' s s' P Hk Hk' Hle. apply occurs_moves; [apply Hall; by eapply elem_of_list_lookup_2|].
      apply (Hd (k' - k) k); [done|]. by replace (k + (k' - k)) with k' by lia.
  Qed.
End pgen.
