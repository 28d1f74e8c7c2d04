(** * Suspended generators: factors and unexplained examples *)
From Coq Require Import QArith Qcanon.
From Verif Require Import Py Spec PyFacts SpecFacts ContextModel ContextSpec ContextOps ContextFacts ContextMisc ContextEffects ContextFinal
  LatticeModel FilterModel FactorModel FactorSpec FactorFacts PatternModel PatternSpec PatternFacts GenModel GenSpec GenFacts.

(** ** algorithm2 *)
Lemma alg2_try c ord k U : good c → (∀ k i X, ord k i X ≡ₚ elements X) → np c ≠ [] →
  ∃ rem C D, alg2_inner c ord (S (length (atts c))) k 0 U ∅ 0 ∅ ∅ = Ok (rem, C, D) ∧
    (U ∩ fI (abs c) = ∅ → rem = ∅) ∧
    (U ∩ fI (abs c) ≠ ∅ → is_concept (abs c) C D ∧ rem = rect_in C D U ∧ rem ≠ ∅ ∧
      ∀ j, j ∈ fM (abs c) → j ∉ D → size (cut U (ext1 c D j)) ≤ size rem).
Proof.
  intros Hg Hord Hne. destruct (alg2_inner_spec c Hg ord Hord Hne k U (S (length (atts c))) 0 ∅ 0 ∅ ∅) as (rem & C & D & -> & Hmax & Hst).
  - set_solver.
  - pose proof (fsize c Hg). lia.
  - by left.
  - exists rem, C, D. split; [done|]. split.
    + intros HU. destruct Hst as [[-> _]|(Hc & -> & Hn)]; [done|]. exfalso. apply Hn. apply set_eq. intros [g m].
      rewrite elem_of_rect_in. split; [|set_solver]. intros [Hp [H1 H2]]. cbn [fst snd] in *. exfalso.
      assert ((g, m) ∈ U ∩ fI (abs c)) as Hx; [|rewrite HU in Hx; set_solver]. apply elem_of_intersection. split; [done|].
      destruct Hc as (_ & _ & Hup & _). rewrite <-Hup in H2. apply elem_of_up in H2 as [_ H2]. by apply H2.
    + intros HU. destruct Hst as [[-> ->]|(? & ? & ?)]; [|done]. exfalso.
      apply set_choose_L in HU as [[g m] [Hp HI]%elem_of_intersection].
      destruct (abs_fwf c g m HI) as [HgG HmM].
      specialize (Hmax m HmM ltac:(set_solver)). rewrite size_empty in Hmax.
      assert ((g, m) ∈ cut U (ext1 c ∅ m)) as Hin.
      { apply elem_of_rect_in. split; [done|]. unfold in_rect. cbn [fst snd].
        assert (g ∈ down (abs c) (∅ ∪ {[m]})). { apply elem_of_down. split; [done|]. set_solver. }
        split; [done|]. apply elem_of_up. split; [done|]. intros g' Hg'.
        apply elem_of_down in Hg' as [_ Hg']. apply Hg'. set_solver. }
      assert (cut U (ext1 c ∅ m) = ∅) as E. { apply leibniz_equiv, size_empty_inv; lia. }
      rewrite E in Hin. by apply not_elem_of_empty in Hin.
Qed.

Section factors.
  Context (ord : nat → nat → gset name → list name) (Hord : ∀ k i X, ord k i X ≡ₚ elements X) (fid : Qc).
  Context (K0 : fctx) (Hn0 : size (fI K0) ≠ 0).
  Local Notation n := (size (fI K0)).
  Definition fcov (fs : list fconcept) : Qc := qdiv (ncovered K0 fs) (Z.of_nat n).
  (** What the call at context [c] yields when [fs] has been yielded. *)
  Definition fgood (c : context) (fs : list fconcept) (y : fconcept * Qc) : Prop :=
    (fcov fs < fid)%Qc ∧ is_concept (abs c) y.1.1 y.1.2 ∧ gain K0 fs y.1 ≠ ∅ ∧
    y.2 = qdiv (Z.of_nat (size (gain K0 fs y.1))) (Z.of_nat n) ∧
    ∀ m, m ∈ fM (abs c) → m ∉ y.1.2 → size (gain K0 fs (down (abs c) (y.1.2 ∪ {[m]}), acl (abs c) (y.1.2 ∪ {[m]}))) ≤ size (gain K0 fs y.1).
  Definition fstop (c : context) (fs : list fconcept) (e : event (fconcept * Qc)) : Prop :=
    (e = Stopped ∧ (fid <= fcov fs)%Qc) ∨ (e = Raised AssertionError ∧ (fcov fs < fid)%Qc ∧ uncovered K0 fs ∩ fI (abs c) = ∅).
  Lemma agen_loop_spec c k fs : good c → np c ≠ [] →
    (∃ y, agen_loop ord fid c k n (uncovered K0 fs) = (Yielded y, AgAt (S k) n (uncovered K0 (fs ++ [y.1]))) ∧ fgood c fs y) ∨
    (∃ e, agen_loop ord fid c k n (uncovered K0 fs) = (e, AgEnd) ∧ fstop c fs e).
  Proof.
    intros Hg Hne. unfold agen_loop. rewrite decide_False by done. fold (ncovered K0 fs). fold (fcov fs).
    destruct (qltb (fcov fs) fid) eqn:Ef.
    2:{ apply qltb_false in Ef. right. exists Stopped. split; [done|]. by left. }
    apply qltb_spec in Ef. destruct (alg2_try c ord k (uncovered K0 fs) Hg Hord Hne) as (rem & C & D & -> & H0 & H1).
    destruct (decide (uncovered K0 fs ∩ fI (abs c) = ∅)) as [HU|HU].
    { right. exists (Raised AssertionError). rewrite decide_True by auto. split; [done|]. by right. }
    destruct (H1 HU) as (Hc & Hr & Hn & Hmax). left. rewrite decide_False by done.
    assert (rem = gain K0 fs (C, D)) as Hr' by (rewrite Hr; apply (rect_in_gain K0 fs (C, D))).
    exists (C, D, qdiv (Z.of_nat (size rem)) (Z.of_nat n)). split; [cbn [fst]; by rewrite uncovered_snoc, <-Hr'|].
    split; [done|]. cbn [fst snd]. split; [done|]. split; [by rewrite <-Hr'|]. split; [by rewrite <-Hr'|].
    intros m Hm HmD. rewrite <-Hr', <-rect_in_gain. by apply Hmax.
  Qed.
  Lemma agen_end ws : (calls (agen_next ord fid) ws AgEnd).1 = replicate (length ws) Stopped.
  Proof. induction ws as [|w ws IH]; [done|]. rewrite calls_cons. cbn [length replicate agen_next fst snd]. by rewrite IH. Qed.

  Definition fspec (ws : list context) (fs : list fconcept) (es : list (event (fconcept * Qc))) : Prop :=
    ∃ ys tl, es = map Yielded ys ++ tl ∧
      (∀ i c y, ws !! i = Some c → ys !! i = Some y → fgood c (fs ++ map fst (take i ys)) y) ∧
      (tl = [] ∨ ∃ c e, ws !! length ys = Some c ∧ tl = e :: replicate (length ws - S (length ys)) Stopped ∧ fstop c (fs ++ map fst ys) e).
  Lemma agen_calls ws : (∀ c, c ∈ ws → good c ∧ np c ≠ []) → ∀ k fs,
    fspec ws fs (calls (agen_next ord fid) ws (AgAt k n (uncovered K0 fs))).1.
  Proof.
    induction ws as [|w ws IH]; intros Hws k fs.
    { exists [], []. split; [done|]. split; [done|]. by left. }
    rewrite calls_cons. cbn [agen_next]. destruct (Hws w) as [Hg Hne]; [left|].
    destruct (agen_loop_spec w k fs Hg Hne) as [(y & -> & Hy)|(e & -> & He)]; cbn [fst snd].
    - destruct (IH (λ c Hc, Hws c (elem_of_list_further _ _ _ Hc)) (S k) (fs ++ [y.1])) as (ys & tl & -> & H1 & H2).
      exists (y :: ys), tl. split; [done|]. split.
      + intros [|i] c y' Hc Hy'; cbn in Hc, Hy'.
        * injection Hc as <-. injection Hy' as <-. cbn [take map]. by rewrite app_nil_r.
        * cbn [take map]. specialize (H1 i c y' Hc Hy'). by rewrite <-app_assoc in H1.
      + cbn [map length]. destruct H2 as [->|(c & e & Hc & -> & He)]; [by left|]. right. exists c, e. split; [done|]. split; [done|].
        by rewrite <-app_assoc in He.
    - rewrite agen_end. exists [], (e :: replicate (length ws) Stopped). split; [done|]. split; [done|]. right. exists w, e.
      split; [done|]. split; [|by rewrite app_nil_r]. cbn [length]. do 2 f_equal. lia.
  Qed.
End factors.

Lemma algorithm2_calls_spec ord fid c0 cs : (∀ k i X, ord k i X ≡ₚ elements X) → good c0 → fI (abs c0) ≠ ∅ →
  (∀ c, c ∈ cs → good c ∧ objs c ≠ []) →
  fspec fid (abs c0) (c0 :: cs) [] (algorithm2_calls ord fid (c0 :: cs)).
Proof.
  intros Hord Hg H0 Hcs. unfold algorithm2_calls. rewrite calls_cons. cbn [agen_next].
  destruct (fI_pairs c0 Hg) as (l & -> & El). rewrite El.
  assert (size (fI (abs c0)) ≠ 0) as Hn. { intros E. apply H0. by apply leibniz_equiv, size_empty_inv. }
  assert (uncovered (abs c0) [] = fI (abs c0)) as Eu. { apply set_eq. intros p. rewrite elem_of_uncovered. set_solver. }
  assert (∀ c, c ∈ c0 :: cs → good c ∧ np c ≠ []) as Hws.
  { intros c [->|Hc]%elem_of_cons; [split; [done|by apply fI_np]|]. destruct (Hcs c Hc) as [Hgc Ho]. split; [done|].
    intros E. apply Ho. assert (length (np c) = length (objs c)) as L by apply Hgc. rewrite E in L. by destruct (objs c). }
  pose proof (agen_calls ord Hord fid (abs c0) Hn (c0 :: cs) Hws 0 []) as H. rewrite calls_cons, Eu in H. exact H.
Qed.

(** Every yield covers a new cross. *)
Lemma uncovered_nil K : uncovered K [] = fI K.
Proof. apply set_eq. intros p. rewrite elem_of_uncovered. set_solver. Qed.
Lemma gains_count K (fs : list fconcept) : (∀ i f, fs !! i = Some f → gain K (take i fs) f ≠ ∅) → length fs + size (uncovered K fs) ≤ size (fI K).
Proof.
  induction fs as [|f fs IH] using rev_ind; intros H; [rewrite uncovered_nil; cbn; lia|].
  rewrite app_length. cbn [length]. pose proof (uncovered_size K fs f) as E.
  assert (size (gain K fs f) ≠ 0) as Hn.
  { specialize (H (length fs) f). rewrite lookup_app_r, Nat.sub_diag, take_app in H by done. intros E0. apply H; [done|]. by apply leibniz_equiv, size_empty_inv. }
  assert (length fs + size (uncovered K fs) ≤ size (fI K)); [|lia]. apply IH. intros i f' Hi. specialize (H i f').
  rewrite lookup_app_l, take_app_le in H by (apply lookup_lt_Some in Hi; lia). auto.
Qed.

(** ** iterate_unexplained_examples *)
Lemma explained_intent s o : good (ppos s) → o ∈ objs (ppos s) → is_explained s (up (abs (ppos s)) {[o]}) = true ↔ explained s o.
Proof.
  intros Hg Ho. rewrite is_explained_spec. unfold explained, has_all.
  assert (∀ m, m ∈ up (abs (ppos s)) {[o]} ↔ incident (ppos s) o m) as HX by by apply intent_spec.
  split; intros (P & HP & H); exists P; (split; [done|]); intros m Hm; apply HX, H, Hm.
Qed.
Lemma pmoves_facts s s' : pinv s → pmoves s s' → pinv s' ∧ objs (ppos s) `prefix_of` objs (ppos s') ∧
  (∀ P, P ∈ pconf s → P ∈ pconf s') ∧ ∀ g m, g ∈ objs (ppos s) → incident (ppos s') g m ↔ incident (ppos s) g m.
Proof.
  intros H Hm. induction Hm as [s|s s1 s' (o & Hc & ->) Hm IH]; [by split; [|split; [|split]]|].
  pose proof (pstep_inv o s H Hc) as H1. destruct (IH H1) as (I1 & I2 & I3 & I4). split; [done|].
  assert (objs (ppos s) `prefix_of` objs (ppos (pstep o s).1) ∧
    (∀ P, P ∈ pconf s → P ∈ pconf (pstep o s).1) ∧ ∀ g m, g ∈ objs (ppos s) → incident (ppos (pstep o s).1) g m ↔ incident (ppos s) g m) as (J2 & J3 & J4).
  { clear -H Hc. destruct o as [p|o X pat|o X]; cbn [pstep pattern_call] in *.
    - destruct (confirm_cases p s H) as [[_ ->]|[(_ & _ & ->)|[(_ & _ & _ & ->)|(H1 & H2 & H3 & ->)]]]; cbn; [done..|].
      split; [done|]. split; [|done]. intros P HP. apply elem_of_app. by left.
    - destruct (add_negative_cases o X pat s H Hc) as [[_ ->]|(_ & c' & -> & _)]; by cbn.
    - destruct (add_positive_effect o X s H Hc) as (c' & -> & _ & Ho & _ & HI). cbn. split; [rewrite Ho; by apply prefix_app_r|].
      split; [done|]. intros g m Hg. rewrite HI. split; [|tauto]. intros [?|(-> & _)]; done. }
  split; [by etrans|]. split; [auto|]. intros g m Hg. rewrite I4; [by apply J4|]. destruct J2 as [k ->]. apply elem_of_app. by left.
Qed.

Definition ufront (s : pexp) (i : nat) (os : list name) : Prop := ∀ j o, os !! j = Some o → objs (ppos s) !! (i + j) = Some o.
Lemma ugen_loop_spec s : good (ppos s) → ∀ os i, ufront s i os →
  (ugen_loop s i os = (Stopped, UgEnd) ∧ ∀ o, o ∈ os → explained s o) ∨
  ∃ l1 o l2, os = l1 ++ o :: l2 ∧ ugen_loop s i os = (Yielded (o, up (abs (ppos s)) {[o]}), UgAt (i + S (length l1)) l2) ∧
    ¬ explained s o ∧ ∀ o', o' ∈ l1 → explained s o'.
Proof.
  intros Hg. induction os as [|o os IH]; intros i Hf; cbn [ugen_loop].
  { left. split; [done|]. by intros o ?%elem_of_nil. }
  assert (objs (ppos s) !! i = Some o) as Hi by (rewrite <-(Nat.add_0_r i); by apply Hf).
  rewrite (get_object_intent_by_index_spec (ppos s) Hg i o Hi).
  assert (o ∈ objs (ppos s)) as Ho by by eapply elem_of_list_lookup_2.
  pose proof (explained_intent s o Hg Ho) as He. destruct (is_explained s _).
  - assert (explained s o) as Heo by by apply He.
    destruct (IH (S i)) as [[-> HA]|(l1 & o' & l2 & -> & -> & H1 & H2)].
    { intros j o' Hj. replace (S i + j) with (i + S j) by lia. by apply Hf. }
    + left. split; [done|]. intros o' [->|?]%elem_of_cons; auto.
    + right. exists (o :: l1), o', l2. split; [done|]. split; [|split; [done|]].
      * cbn [length]. do 2 f_equal. lia.
      * intros x [->|?]%elem_of_cons; auto.
  - right. exists [], o, os. split; [done|]. split; [cbn [length]; do 2 f_equal; lia|]. split; [|by intros ? ?%elem_of_nil].
    intros Hx. by apply He in Hx.
Qed.
Lemma ugen_end ws : (calls ugen_next ws UgEnd).1 = replicate (length ws) Stopped.
Proof. induction ws as [|w ws IH]; [done|]. rewrite calls_cons. cbn [length replicate ugen_next fst snd]. by rewrite IH. Qed.
Lemma split_unique {A} (l1 l2 k1 k2 : list A) x : NoDup (l1 ++ x :: l2) → l1 ++ x :: l2 = k1 ++ x :: k2 → l1 = k1.
Proof.
  revert k1. induction l1 as [|y l1 IH]; intros [|z k1] Hd E; cbn in *; [done| | |].
  - injection E as -> ->. apply NoDup_cons in Hd as [Hd _]. exfalso. apply Hd, elem_of_app. right. left.
  - injection E as -> <-. apply NoDup_cons in Hd as [Hd _]. exfalso. apply Hd, elem_of_app. right. left.
  - injection E as -> E. f_equal. apply NoDup_cons in Hd as [_ Hd]. by apply IH.
Qed.
Definition uspec (ws : list pexp) (os : list name) (es : list (event (name * gset name))) : Prop :=
  ∃ ys m, es = map Yielded ys ++ replicate m Stopped ∧ map fst ys `sublist_of` os ∧
    (∀ k s o X, ws !! k = Some s → ys !! k = Some (o, X) →
      ¬ explained s o ∧ X = up (abs (ppos s)) {[o]} ∧
      ∀ l1 l2, os = l1 ++ o :: l2 → ∀ o', o' ∈ l1 → o' ∈ map fst (take k ys) ∨ explained s o') ∧
    (∀ k s, ws !! k = Some s → length ys ≤ k → ∀ o, o ∈ os → o ∈ map fst ys ∨ explained s o).
Lemma ugen_calls ws : ∀ i os, NoDup os → (∀ s, s ∈ ws → good (ppos s) ∧ ufront s i os) →
  (∀ k k' s s' o, ws !! k = Some s → ws !! k' = Some s' → k ≤ k' → o ∈ os → explained s o → explained s' o) →
  uspec ws os (calls ugen_next ws (UgAt i os)).1.
Proof.
  induction ws as [|w ws IH]; intros i os Hd Hws Hch.
  { exists [], 0. split; [done|]. split; [apply sublist_nil_l|]. split; intros; done. }
  rewrite calls_cons. cbn [ugen_next]. destruct (Hws w) as [Hg Hf]; [left|].
  assert (∀ k' s' o, (w :: ws) !! k' = Some s' → o ∈ os → explained w o → explained s' o) as Hch0.
  { intros k' s' o Hk'. apply (Hch 0 k'); [done|done|lia]. }
  destruct (ugen_loop_spec w Hg os i Hf) as [[-> HA]|(l1 & o & l2 & E & -> & H1 & H2)]; cbn [fst snd].
  - rewrite ugen_end. exists [], (S (length ws)). split; [done|]. split; [apply sublist_nil_l|]. split; [done|].
    intros k s Hk _ o Ho. right. eapply Hch0; [done..|]. by apply HA.
  - assert (NoDup l2) as Hd2. { rewrite E in Hd. apply NoDup_app in Hd as (_ & _ & Hd). by apply NoDup_cons in Hd as [_ ?]. }
    assert (∀ x, x ∈ l2 → x ∈ os) as Hsub. { intros x Hx. rewrite E, elem_of_app, elem_of_cons. auto. }
    destruct (IH (i + S (length l1)) l2 Hd2) as (ys & m & -> & S1 & S2 & S3).
    { intros s Hs. destruct (Hws s) as [Hgs Hfs]; [by right|]. split; [done|]. intros j x Hj.
      replace (i + S (length l1) + j) with (i + (length l1 + S j)) by lia. apply Hfs. rewrite E, lookup_app_r by lia.
      by replace (length l1 + S j - length l1) with (S j) by lia. }
    { intros k k' s s' x Hk Hk' Hle Hx. apply (Hch (S k) (S k')); [done|done|lia|by apply Hsub]. }
    exists ((o, up (abs (ppos w)) {[o]}) :: ys), m. split; [done|]. split; [|split].
    + cbn [map fst]. rewrite E. apply sublist_inserts_l. by apply sublist_skip.
    + intros [|k] s o' X Hk Hy; cbn in Hk, Hy.
      * injection Hk as <-. injection Hy as <- <-. split; [done|]. split; [done|]. intros k1 k2 E' x Hx. right. apply H2.
        rewrite E in Hd, E'. apply split_unique in E'; [by subst|done].
      * destruct (S2 k s o' X Hk Hy) as (U1 & U2 & U3). split; [done|]. split; [done|]. intros k1 k2 E' x Hx.
        assert (o' ∈ l2) as Ho'. { eapply elem_of_sub; [exact S1|]. apply elem_of_list_fmap. exists (o', X). split; [done|]. by eapply elem_of_list_lookup_2. }
        apply elem_of_list_split in Ho' as (p1 & p2 & Ep).
        assert (k1 = l1 ++ o :: p1) as ->.
        { symmetry. apply (split_unique _ p2 _ k2 o'); rewrite <-app_assoc; cbn [app]; rewrite <-Ep, <-E; [done|]. by rewrite E'. }
        cbn [take map fst]. apply elem_of_app in Hx as [Hx|[->|Hx]%elem_of_cons].
        { right. apply (Hch0 (S k)); [done| |by apply H2]. rewrite E, elem_of_app. by left. }
        { left. left. }
        destruct (U3 p1 p2 Ep x Hx); [left; by right|by right].
    + intros [|k] s Hk Hl x Hx; cbn [length] in Hl; [lia|]. cbn [map fst]. rewrite E in Hx.
      apply elem_of_app in Hx as [Hx|[->|Hx]%elem_of_cons].
      * right. apply (Hch0 (S k)); [done| |by apply H2]. rewrite E, elem_of_app. by left.
      * left. left.
      * cbn in Hk. destruct (S3 k s Hk ltac:(lia) x Hx); [left; by right|by right].
Qed.
Lemma unexplained_calls_spec s0 ss : pinv s0 →
  (∀ k s s', (s0 :: ss) !! k = Some s → (s0 :: ss) !! S k = Some s' → pmoves s s') →
  uspec (s0 :: ss) (objs (ppos s0)) (unexplained_calls (s0 :: ss)).
Proof.
  intros H Hch.
  assert (∀ d k s s', (s0 :: ss) !! k = Some s → (s0 :: ss) !! (k + d) = Some s' → pmoves s s') as Hd.
  { induction d as [|d IH]; intros k s s' Hk Hk'.
    - rewrite Nat.add_0_r, Hk in Hk'. injection Hk' as <-. apply rtc_refl.
    - destruct ((s0 :: ss) !! (k + d)) as [s1|] eqn:E1.
      2:{ apply lookup_ge_None in E1. apply lookup_lt_Some in Hk'. lia. }
      eapply rtc_transitive; [by eapply IH|]. eapply Hch; [done|]. by replace (S (k + d)) with (k + S d) by lia. }
  assert (∀ k s, (s0 :: ss) !! k = Some s → pmoves s0 s) as H0 by (intros k s Hk; by apply (Hd k 0)).
  assert (NoDup (objs (ppos s0))) as Hnd by apply H.
  pose proof (ugen_calls (s0 :: ss) 0 (objs (ppos s0)) Hnd) as Hu. unfold unexplained_calls. rewrite calls_cons in *. apply Hu.
  - intros s [k Hk]%elem_of_list_lookup. destruct (pmoves_facts s0 s H (H0 k s Hk)) as (I1 & [l I2] & _). split; [apply I1|].
    intros j o Hj. cbn. rewrite I2. by apply lookup_app_l_Some.
  - intros k k' s s' o Hk Hk' Hle Ho (P & HP & Hh). destruct (pmoves_facts s0 s H (H0 k s Hk)) as (I1 & I2 & _).
    destruct (pmoves_facts s s' I1) as (_ & _ & J3 & J4). { apply (Hd (k' - k) k); [done|]. by replace (k + (k' - k)) with k' by lia. }
    exists P. split; [by apply J3|]. intros m Hm. apply J4; [|by apply Hh]. destruct I2 as [l ->]. apply elem_of_app. by left.
Qed.
