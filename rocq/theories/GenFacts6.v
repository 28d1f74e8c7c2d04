(** * algorithm2_w_condition suspended while the context changes *)
From Coq Require Import QArith Qcanon.
From Verif Require Import Py PyFacts Spec SpecFacts ContextModel ContextSpec ContextOps ContextFacts ContextInit ContextFinal
  LatticeModel FilterModel FactorModel FactorSpec FactorFacts FactorFacts2 GenModel GenSpec GenFacts GenFacts3.
Local Open Scope nat_scope.

(** The inner loop when [U] may contain pairs that are no crosses any more. *)
Section inner.
  Context (c : context) (Hg : good c).
  Local Notation K := (abs c).
  Context (ord : nat → nat → gset name → list name).
  Hypothesis Hord : ∀ k i X, ord k i X ≡ₚ elements X.
  Hypothesis Hne : np c ≠ [].
  Context (allow : bool) (mn : Z) (ge : bool).
  Local Notation gf := (good_factor mn ge).
  Local Notation simple := (mn ≤ 1 ∧ ge = false)%Z.

  Definition inner_any (U : gset (name * name)) (avail : gset name) (r : res wout) : Prop :=
    match r with
    | Ok WReturn => True
    | Ok (WRestart Dj) => Dj ⊆ fM K ∧ ∃ j, j ∈ avail ∧ j ∈ Dj
    | Ok (WYield C D rem) => is_concept K C D ∧ gf C D = true ∧ rem = wrem c allow U C D ∧ rem ≠ ∅ ∧
        (∃ j, j ∈ avail ∧ j ∉ D) ∧ (∃ j, j ∈ avail ∧ j ∈ D)
    | Err e => e = UserException 239
    end.
  Lemma wcond_inner_any k U avail : avail ⊆ fM K → ∀ fuel i D C V rem,
    D ⊆ fM K → size (fM K) < fuel + size D →
    (D = ∅ ∧ C = fG K ∧ V = 0 ∧ rem = ∅ ∨
     is_concept K C D ∧ rem = wrem c allow U C D ∧ V = size (rect_in C D U) ∧ (∃ j, j ∈ avail ∧ j ∈ D)) →
    inner_any U avail (wcond_inner c ord allow mn ge fuel k i U avail D C V rem).
  Proof.
    intros Hav. induction fuel as [|fuel IH]; intros i D C V rem HD Hf Hst.
    { apply subseteq_size in HD. lia. }
    cbn [wcond_inner]. rewrite aprime_el by done. cbn [mbind res_bind].
    set (l := ord k i _). assert (∀ j, j ∈ l ↔ j ∈ avail ∧ j ∉ D) as Hl.
    { intros j. unfold l. rewrite Hord, elem_of_elements, elem_of_difference. done. }
    rewrite measures_spec; [|done..|intros j Hj; by apply Hav, Hl]. cbn [mbind res_bind].
    destruct (map _ l) as [|m ms] eqn:Em; [done|].
    destruct (best_spec c D U m ms l Em) as (j & -> & Hj & Hbest).
    pose proof Hj as [Hja HjD]%Hl. assert (j ∈ fM K) as HjM by auto.
    destruct ((V <? size (cut U (ext1 c D j)))%nat || negb (gf C D)) eqn:EV.
    - rewrite aprime_el by set_solver. cbn [mbind res_bind].
      assert (bool_decide (avail ∖ D = ∅) = false) as ->. { apply bool_decide_eq_false. set_solver. }
      rewrite orb_false_r.
      pose proof (ext1_grows c D j HD HjM) as Hgr. pose proof (ext1_concept c D j HD HjM) as Hc.
      destruct (Z.of_nat (size (down K (D ∪ {[j]}))) <? mn)%Z eqn:Emn.
      { split; [set_solver|exists j; set_solver]. }
      rewrite oprime_el by (done || apply down_sub). cbn [mbind res_bind].
      change (up K (down K (D ∪ {[j]}))) with (ext1 c D j).2 in *. change (down K (D ∪ {[j]})) with (ext1 c D j).1 in *.
      apply IH.
      + apply ext1_sub.
      + assert (D ⊂ (ext1 c D j).2) as Hs by set_solver. apply subset_size in Hs. lia.
      + right. split; [done|]. split; [done|]. split; [done|]. exists j; set_solver.
    - apply orb_false_iff in EV as [EV Egf]. apply negb_false_iff in Egf. rewrite Egf.
      case_decide as Hre; [done|].
      destruct Hst as [(_ & _ & _ & ?)|(Hc & Hr & HV & Hin)]; [done|].
      split; [done|]. split; [done|]. split; [done|]. split; [done|]. split; [by exists j|done].
  Qed.
  (** Both specifications of a pass. *)
  Lemma wpass k U removed : let avail := (set_map snd U : gset name) ∖ removed in
    (∀ p, p ∈ U → p.2 ∈ fM K) →
    let r := wcond_inner c ord allow mn ge (S (S (length (atts c)))) k 0 U avail ∅ (list_to_set (objs c)) 0 ∅ in
    inner_any U avail r ∧ (U ⊆ fI K → simple → (∀ Dj, r ≠ Ok (WRestart Dj)) ∧ ∀ e, r ≠ Err e).
  Proof.
    intros avail HU r.
    assert (∀ j, j ∈ avail → ∃ g, (g, j) ∈ U) as HavU.
    { intros j. unfold avail. rewrite elem_of_difference, elem_of_map. intros [([g j'] & -> & Hp) _]. by exists g. }
    assert (avail ⊆ fM K) as Hav. { intros j Hj. destruct (HavU j Hj) as [g Hgj]. by apply (HU (g, j)). }
    assert (size (fM K) < S (S (length (atts c))) + size (∅ : gset name)) as Hf by (pose proof (fsize c Hg); lia).
    split.
    - apply wcond_inner_any; [done|set_solver|done|by left].
    - intros HUI Hs. pose proof (wcond_inner_spec c Hg ord Hord Hne allow mn ge k U avail Hav HavU HUI
        (S (S (length (atts c)))) 0 ∅ (list_to_set (objs c)) 0 ∅ (empty_subseteq _) Hf ltac:(by left)) as Hin.
      fold r in Hin. split; intros x E; rewrite E in Hin; cbn [inner_ok] in Hin; tauto.
  Qed.
End inner.

Section wgen.
  Context (ord : nat → nat → gset name → list name) (Hord : ∀ k i X, ord k i X ≡ₚ elements X).
  Context (allow : bool) (mn : Z) (ge : bool) (fid : Qc).
  Context (c0 : context).
  Local Notation K0 := (abs c0).
  Local Notation n := (size (fI K0)).
  Local Notation simple := (mn ≤ 1 ∧ ge = false)%Z.
  (** Objects are kept; crosses are kept. *)
  Context (kobj kcross : Prop).
  Definition world_ok (c : context) : Prop :=
    good c ∧ np c ≠ [] ∧ fM K0 ⊆ fM (abs c) ∧ (kobj → fG K0 ⊆ fG (abs c)) ∧ (kcross → fI K0 ⊆ fI (abs c)).
  Definition winv (fs : list fconcept) (U : gset (name * name)) : Prop :=
    U ⊆ uncovered K0 fs ∧ uncovered K0 fs ≠ ∅ ∧
    (allow = false → kobj → ∀ p f, p ∈ U → f ∈ fs → p.2 ∉ f.2) ∧
    (allow = true → simple → kcross → U = uncovered K0 fs).
  Definition wgood (c : context) (fs : list fconcept) (y : fconcept * Qc * Qc) : Prop :=
    let '(f, q1, q2) := y in
    is_concept (abs c) f.1 f.2 ∧ good_factor mn ge f.1 f.2 = true ∧
    (qdiv (ncovered K0 (fs ++ [f])) (Z.of_nat n) <= q2)%Qc ∧
    (allow = true → gain K0 fs f ≠ ∅) ∧
    (allow = false → kobj → ∃ m, m ∈ f.2 ∧ ∀ h, h ∈ fs → m ∉ h.2) ∧
    (allow = true → simple → kcross → q1 = qdiv (Z.of_nat (size (gain K0 fs f))) (Z.of_nat n) ∧
      q2 = qdiv (ncovered K0 (fs ++ [f])) (Z.of_nat n)).
  Definition wstop (e : event (fconcept * Qc * Qc)) : Prop :=
    e = Stopped ∨ e = Raised (UserException 239) ∧ ¬ (simple ∧ kcross).
  Definition wcov (U : gset (name * name)) : Qc := qdiv (Z.of_nat n - Z.of_nat (size U)) (Z.of_nat n).

  Lemma wgen_loop_spec c : world_ok c → ∀ fuel k fs U removed, size U < fuel → winv fs U →
    (∃ e, wgen_loop ord allow mn ge fid fuel c k n U removed = (e, WgEnd) ∧ wstop e) ∨
    (∃ y k' U' removed', wgen_loop ord allow mn ge fid fuel c k n U removed = (Yielded y, WgAt k' n U' removed') ∧
      wgood c fs y ∧ winv (fs ++ [y.1.1]) U' ∧ size U' < size U ∧ (wcov U < fid)%Qc ∧ y.2 = wcov U').
  Proof.
    intros (Hg & Hne & HM & Hko & Hkc). induction fuel as [|fuel IH]; intros k fs U removed Hf (HU & Hun & Hna & Hal); [lia|]. cbn [wgen_loop].
    fold (wcov U). destruct (qltb (wcov U) fid) eqn:Ef.
    2:{ left. exists Stopped. split; [done|]. by left. }
    apply qltb_spec in Ef.
    assert (U ⊆ fI K0) as HUI. { intros p Hp. apply HU, elem_of_uncovered in Hp as [? _]. done. }
    assert (∀ p, p ∈ U → p.2 ∈ fM (abs c)) as HUM. { intros [g m] Hp. apply HM. by apply (abs_fwf c0 g m), HUI. }
    destruct (wpass c Hg ord Hord Hne allow mn ge k U removed HUM) as [Hin Hsim].
    set (avail := (set_map snd U : gset name) ∖ removed) in *.
    assert (∀ j, j ∈ avail → ∃ g, (g, j) ∈ U) as HavU.
    { intros j. unfold avail. rewrite elem_of_difference, elem_of_map. intros [([g j'] & -> & Hp) _]. by exists g. }
    destruct (wcond_inner _ _ _ _ _ _ _ _ _ _ _ _ _ _) as [[|Dj|C D rem]|e]; cbn [inner_any] in Hin.
    - left. exists Stopped. split; [done|]. by left.
    - destruct Hin as (HDj & j & Hja & Hj). destruct (HavU j Hja) as [g Hgj].
      assert (filter (λ p, p.2 ∉ Dj) U ⊂ U) as Hs.
      { split; [intros p; rewrite elem_of_filter; tauto|]. intros H. apply H in Hgj. apply elem_of_filter in Hgj as [Hx _]. done. }
      apply subset_size in Hs.
      destruct (IH (S k) fs (filter (λ p, p.2 ∉ Dj) U) (removed ∪ Dj)) as [He|(y & k' & U' & rm & E & Y1 & Y2 & Y3 & Y4 & Y5)].
      + lia.
      + split; [intros p; rewrite elem_of_filter; intros [_ ?]; auto|]. split; [done|]. split.
        * intros E1 E2 p f. rewrite elem_of_filter. intros [_ ?]. by apply Hna.
        * intros _ H1 H2. exfalso. destruct (Hsim ltac:(intros p Hp; by apply Hkc, HUI) H1) as [H3 _]. by apply (H3 Dj).
      + by left.
      + right. exists y, k', U', rm. split; [done|]. split; [done|]. split; [done|]. split; [lia|]. done.
    - destruct Hin as (Hc & Hgf & Hrem & Hre & (j & Hja & HjD) & (j2 & Hj2a & Hj2D)).
      pose proof (wrem_sub c allow U C D) as Hsub. rewrite <-Hrem in Hsub.
      pose proof Hc as (HC & HD & _). pose proof (rect_wrem c allow U C D HC HD) as Hrw. rewrite <-Hrem in Hrw.
      assert (U ∖ rem ⊆ uncovered K0 (fs ++ [(C, D)])) as HU'.
      { intros p. rewrite elem_of_difference. intros [Hp Hpr]. pose proof (HU p Hp) as [HpI Hpf]%elem_of_uncovered.
        apply elem_of_uncovered. split; [done|]. intros f. rewrite elem_of_app, elem_of_list_singleton. intros [?| ->]; [auto|].
        intros Hin. apply Hpr, Hrw. apply elem_of_rect_in. done. }
      destruct (HavU j Hja) as [g Hgj].
      right. eexists _, _, _, _. split; [done|]. split; [|split; [|split; [|done]]]; cbn [fst snd wgood].
      + split; [done|]. split; [done|]. split; [|split; [|split]].
        * apply (qdiv_le c0). unfold ncovered. apply subseteq_size in HU'. lia.
        * intros E. assert (rem = rect_in C D U) as Hr' by (rewrite Hrem; unfold wrem; by rewrite E).
          apply set_choose_L in Hre as [p Hp]. apply (non_empty_inhabited_L p). apply elem_of_filter. rewrite Hr' in Hp.
          apply elem_of_rect_in in Hp as [? ?]. split; [done|]. auto.
        * intros E Hk. exists j2. split; [done|]. intros h Hh. destruct (HavU j2 Hj2a) as [g2 Hg2].
          by apply (Hna E Hk (g2, j2) h).
        * intros E Hs Hk. assert (rem = gain K0 fs (C, D)) as Hr'.
          { rewrite Hrem. unfold wrem. rewrite E, (Hal E Hs Hk). apply (rect_in_gain K0 fs (C, D)). }
          split; [by rewrite Hr'|]. f_equal. unfold ncovered. rewrite uncovered_snoc, <-Hr', <-(Hal E Hs Hk). done.
      + split; [done|]. split; [|split].
        * apply (non_empty_inhabited_L (g, j)). apply elem_of_uncovered. pose proof (HU _ Hgj) as [HpI Hpf]%elem_of_uncovered.
          split; [done|]. intros f. rewrite elem_of_app, elem_of_list_singleton. intros [?| ->]; [auto|]. intros [_ ?]. done.
        * intros E Hk p f. rewrite elem_of_difference, elem_of_app, elem_of_list_singleton. intros [Hp Hpr] [?| ->]; [by apply Hna|].
          intros HpD. apply Hpr. rewrite Hrem. unfold wrem. rewrite E. apply elem_of_filter. split; [|done]. right.
          split; [|done]. apply in_objs. destruct p as [g' m']. apply Hko; [done|]. by apply (abs_fwf c0 g' m'), HUI.
        * intros E Hs Hk. rewrite uncovered_snoc, <-rect_in_gain. rewrite <-(Hal E Hs Hk). rewrite Hrem. unfold wrem. by rewrite E.
      + assert (U ∖ rem ⊂ U) as Hs by (clear -Hsub Hre; set_solver). by apply subset_size in Hs.
    - subst e. left. exists (Raised (UserException 239)). split; [done|]. right. split; [done|]. intros [H1 H2].
      destruct (Hsim ltac:(intros p Hp; by apply Hkc, HUI) H1) as [_ H3]. by apply (H3 (UserException 239)).
  Qed.

  Lemma wgen_end ws : (calls (wgen_next ord allow mn ge fid) ws WgEnd).1 = replicate (length ws) Stopped.
  Proof. induction ws as [|w ws IH]; [done|]. rewrite calls_cons. cbn [length replicate wgen_next fst snd]. by rewrite IH. Qed.

  Definition wspec (ws : list context) (fs : list fconcept) (U : gset (name * name)) (es : list (event (fconcept * Qc * Qc))) : Prop :=
    ∃ ys tl, es = map Yielded ys ++ tl ∧ length ys ≤ size U ∧
      (∀ y, head ys = Some y → (wcov U < fid)%Qc) ∧ (∀ i y y', ys !! i = Some y → ys !! S i = Some y' → (y.2 < fid)%Qc) ∧
      (∀ i c y, ws !! i = Some c → ys !! i = Some y → wgood c (fs ++ map fst (map fst (take i ys))) y) ∧
      uncovered K0 (fs ++ map fst (map fst ys)) ≠ ∅ ∧
      (tl = [] ∨ ∃ e, tl = e :: replicate (length ws - S (length ys)) Stopped ∧ wstop e).
  Lemma wgen_calls ws : (∀ c, c ∈ ws → world_ok c) → ∀ k fs U removed, winv fs U →
    wspec ws fs U (calls (wgen_next ord allow mn ge fid) ws (WgAt k n U removed)).1.
  Proof.
    induction ws as [|w ws IH]; intros Hws k fs U removed Hi.
    { exists [], []. split; [done|]. split; [cbn; lia|]. split; [done|]. split; [done|]. split; [done|].
      split; [cbn [map]; rewrite app_nil_r; apply Hi|]. by left. }
    rewrite calls_cons. cbn [wgen_next].
    destruct (wgen_loop_spec w (Hws w ltac:(left)) (S (size U)) k fs U removed ltac:(lia) Hi) as [(e & -> & He)|(y & k' & U' & rm & -> & Y1 & Y2 & Y3 & Y4 & Y5)]; cbn [fst snd].
    - rewrite wgen_end. exists [], (e :: replicate (length ws) Stopped). split; [done|]. split; [cbn; lia|]. split; [done|]. split; [done|]. split; [done|].
      split; [cbn [map]; rewrite app_nil_r; apply Hi|]. right. exists e. split; [|done]. cbn [length]. do 2 f_equal. lia.
    - destruct (IH (λ c Hc, Hws c (elem_of_list_further _ _ _ Hc)) k' (fs ++ [y.1.1]) U' rm Y2) as (ys & tl & -> & L & Q1 & Q2 & H1 & H2 & H3).
      exists (y :: ys), tl. split; [done|]. split; [cbn [length]; lia|]. split; [done|]. split; [|split; [|split]].
      + intros [|i] y1 y2 E1 E2; cbn in E1, E2; [|by eapply Q2]. injection E1 as <-. rewrite Y5. apply (Q1 y2). by destruct ys.
      + intros [|i] c y' Hc Hy'; cbn in Hc, Hy'.
        * injection Hc as <-. injection Hy' as <-. cbn [take map]. by rewrite app_nil_r.
        * cbn [take map]. specialize (H1 i c y' Hc Hy'). by rewrite <-app_assoc in H1.
      + cbn [map]. by rewrite <-app_assoc in H2.
      + cbn [length]. destruct H3 as [->|(e & -> & He)]; [by left|]. right. exists e. done.
  Qed.
End wgen.

Lemma w_condition_calls_spec ord allow mn ge fid kobj kcross c0 cs : (∀ k i X, ord k i X ≡ₚ elements X) → good c0 → fI (abs c0) ≠ ∅ →
  (∀ c, c ∈ cs → world_ok c0 kobj kcross c) →
  wspec allow mn ge fid c0 kobj kcross (c0 :: cs) [] (fI (abs c0)) (w_condition_calls ord allow mn ge fid (c0 :: cs)).
Proof.
  intros Hord Hg H0 Hcs. unfold w_condition_calls. rewrite calls_cons. cbn [wgen_next].
  destruct (fI_pairs c0 Hg) as (l & -> & El). rewrite El.
  assert (size (fI (abs c0)) ≠ 0) as Hn. { intros E. apply H0. by apply leibniz_equiv, size_empty_inv. }
  rewrite decide_False by done.
  assert (∀ c, c ∈ c0 :: cs → world_ok c0 kobj kcross c) as Hws.
  { intros c [->|Hc]%elem_of_cons; [|auto]. split; [done|]. split; [by apply fI_np|]. done. }
  assert (winv allow mn ge c0 kobj kcross [] (fI (abs c0))) as Hi.
  { unfold winv. rewrite uncovered_nil. split; [done|]. split; [done|]. split; [|done]. intros _ _ p f _. by intros ?%elem_of_nil. }
  pose proof (wgen_calls ord Hord allow mn ge fid c0 kobj kcross (c0 :: cs) Hws 0 [] (fI (abs c0)) ∅ Hi) as H. rewrite calls_cons in H. exact H.
Qed.

(** ** Read without changes *)
Definition finally {A} (r : res ()) : event A := match r with Ok _ => Stopped | Err e => Raised e end.
Definition reading {A} (m : nat) (ys : list A) (r : res ()) : list (event A) := resize m Stopped (map Yielded ys ++ [finally r]).

Lemma alg2_reading c ord fid : ∀ fuel k n U ys r, alg2_loop c ord fuel k n fid U = (ys, r) → r ≠ Err OutOfFuel →
  ∀ m, (calls (agen_next ord fid) (replicate m c) (AgAt k n U)).1 = reading m ys r.
Proof.
  assert (∀ m (r : res ()) s, agen_next ord fid c s = (finally r, AgEnd) → (calls (agen_next ord fid) (replicate (S m) c) s).1 = reading (S m) [] r) as Hend.
  { intros m r s E. cbn [replicate]. rewrite calls_cons, E. cbn [fst snd]. rewrite agen_end, replicate_length.
    unfold reading. cbn. by rewrite resize_nil. }
  induction fuel as [|fuel IH]; intros k n U ys r E Hr [|m]; cbn [alg2_loop] in E; [congruence|congruence|by unfold reading; rewrite resize_0|].
  destruct (decide (n = 0)) as [Hn|Hn].
  { injection E as <- <-. apply Hend. cbn [agen_next]. unfold agen_loop. by rewrite decide_True. }
  destruct (qltb _ fid) eqn:Ef.
  2:{ injection E as <- <-. apply Hend. cbn [agen_next]. unfold agen_loop. by rewrite decide_False, Ef. }
  destruct (alg2_inner _ _ _ _ _ _ _ _ _ _) as [[[rem C] D]|e] eqn:Ei.
  2:{ injection E as <- <-. apply Hend. cbn [agen_next]. unfold agen_loop. by rewrite decide_False, Ef, Ei. }
  destruct (decide (rem = ∅)) as [Hre|Hre].
  { injection E as <- <-. apply Hend. cbn [agen_next]. unfold agen_loop. rewrite decide_False, Ef, Ei by done. by rewrite decide_True. }
  destruct (alg2_loop _ _ _ _ _ _ _) as [ys' r'] eqn:El. injection E as <- <-.
  cbn [replicate]. rewrite calls_cons. cbn [agen_next]. unfold agen_loop at 1 2. rewrite decide_False, Ef, Ei by done. rewrite decide_False by done.
  cbn [fst snd]. rewrite (IH _ _ _ _ _ El Hr). done.
Qed.
Lemma algorithm2_reading c ord fid ys r : good c → (∀ k i X, ord k i X ≡ₚ elements X) → algorithm2 c ord fid = (ys, r) →
  ∀ m, algorithm2_calls ord fid (replicate m c) = reading m ys r.
Proof.
  intros Hg Hord E m. assert (r ≠ Err OutOfFuel) as Hr.
  { destruct (decide (fI (abs c) = ∅)) as [H0|H0].
    - rewrite algorithm2_empty in E by done. by injection E as <- <-.
    - destruct (algorithm2_spec c ord fid Hg Hord H0) as (ys' & r' & E' & _ & _ & H1 & H2). rewrite E in E'. injection E' as <- <-.
      destruct (Qclt_le_dec (Q2Qc 1) fid) as [H|H]; [destruct (H2 H) as [-> _]|destruct (H1 H) as [-> _]]; done. }
  unfold algorithm2 in E. unfold algorithm2_calls. destruct (get_object_attribute_pairs c) as [l|e] eqn:Ep.
  - rewrite <-(alg2_reading c ord fid _ _ _ _ _ _ E Hr m). destruct m as [|m]; [done|]. cbn [replicate]. rewrite !calls_cons. cbn [agen_next]. by rewrite Ep.
  - injection E as <- <-. destruct m as [|m]; [done|]. cbn [replicate]. rewrite calls_cons. cbn [agen_next]. rewrite Ep. cbn [fst snd].
    rewrite agen_end, replicate_length. unfold reading. cbn. by rewrite resize_nil.
Qed.

Section unchanged.
  Context (ord : nat → nat → gset name → list name) (Hord : ∀ k i X, ord k i X ≡ₚ elements X).
  Context (allow : bool) (mn : Z) (ge : bool) (fid : Qc) (c : context) (Hg : good c) (Hne : np c ≠ []).
  Lemma wcond_step n : ∀ fuel fuel2 k U removed ys r, size U < fuel → size U < fuel2 → (∀ p, p ∈ U → p.2 ∈ fM (abs c)) →
    wcond_loop c ord allow mn ge fuel k n fid U removed = (ys, r) →
    match ys with
    | [] => wgen_loop ord allow mn ge fid fuel2 c k n U removed = (finally r, WgEnd)
    | y :: ys' => ∃ fuel' k' U' rm, wgen_loop ord allow mn ge fid fuel2 c k n U removed = (Yielded y, WgAt k' n U' rm) ∧
        size U' < fuel' ∧ (∀ p, p ∈ U' → p.2 ∈ fM (abs c)) ∧ wcond_loop c ord allow mn ge fuel' k' n fid U' rm = (ys', r)
    end.
  Proof.
    induction fuel as [|fuel IH]; intros fuel2 k U removed ys r Hf Hf2 HU E; [lia|]. destruct fuel2 as [|fuel2]; [lia|].
    cbn [wcond_loop] in E. cbn [wgen_loop]. destruct (qltb _ fid) eqn:Ef; [|by injection E as <- <-].
    destruct (wpass c Hg ord Hord Hne allow mn ge k U removed HU) as [Hin _].
    set (avail := (set_map snd U : gset name) ∖ removed) in *.
    destruct (wcond_inner _ _ _ _ _ _ _ _ _ _ _ _ _ _) as [[|Dj|C D rem]|e]; cbn [inner_any] in Hin.
    - by injection E as <- <-.
    - destruct Hin as (HDj & j & Hja & Hj).
      assert (∃ g, (g, j) ∈ U) as [g Hgj].
      { revert Hja. unfold avail. rewrite elem_of_difference, elem_of_map. intros [([g j'] & -> & Hp) _]. by exists g. }
      assert (filter (λ p, p.2 ∉ Dj) U ⊂ U) as Hs.
      { split; [intros p; rewrite elem_of_filter; tauto|]. intros H. apply H in Hgj. apply elem_of_filter in Hgj as [Hx _]. done. }
      apply subset_size in Hs. eapply IH; [..|exact E]; [lia|lia|]. intros p. rewrite elem_of_filter. intros [_ ?]. auto.
    - destruct (wcond_loop _ _ _ _ _ _ _ _ _ _ _) as [ys' r'] eqn:El. injection E as <- <-. destruct Hin as (_ & _ & Hrem & Hre & _).
      pose proof (wrem_sub c allow U C D) as Hsub. rewrite <-Hrem in Hsub.
      eexists _, _, _, _. split; [done|]. split; [|split; [|exact El]].
      + assert (U ∖ rem ⊂ U) as Hs by (clear -Hsub Hre; set_solver). apply subset_size in Hs. lia.
      + intros p. rewrite elem_of_difference. intros [? _]. auto.
    - by injection E as <- <-.
  Qed.
  Lemma wcond_reading n : ∀ ys fuel k U removed r, size U < fuel → (∀ p, p ∈ U → p.2 ∈ fM (abs c)) →
    wcond_loop c ord allow mn ge fuel k n fid U removed = (ys, r) →
    ∀ m, (calls (wgen_next ord allow mn ge fid) (replicate m c) (WgAt k n U removed)).1 = reading m ys r.
  Proof.
    induction ys as [|y ys IH]; intros fuel k U removed r Hf HU E [|m]; [by unfold reading; rewrite resize_0| |by unfold reading; rewrite resize_0|]; cbn [replicate]; rewrite calls_cons; cbn [wgen_next];
      pose proof (wcond_step n fuel (S (size U)) k U removed _ r Hf ltac:(lia) HU E) as H.
    - rewrite H. cbn [fst snd]. rewrite wgen_end, replicate_length. unfold reading. cbn. by rewrite resize_nil.
    - destruct H as (fuel' & k' & U' & rm & -> & H1 & H2 & H3). cbn [fst snd]. by rewrite (IH _ _ _ _ _ H1 H2 H3).
  Qed.
End unchanged.
Lemma w_condition_reading c ord allow mn ge fid ys r : good c → (∀ k i X, ord k i X ≡ₚ elements X) →
  algorithm2_w_condition c ord allow mn ge fid = (ys, r) → ∀ m, w_condition_calls ord allow mn ge fid (replicate m c) = reading m ys r.
Proof.
  intros Hg Hord E [|m]; [by unfold reading; rewrite resize_0|]. unfold algorithm2_w_condition in E. unfold w_condition_calls. cbn [replicate]. rewrite calls_cons. cbn [wgen_next].
  destruct (fI_pairs c Hg) as (l & Ep & El). rewrite Ep in *. rewrite El in *.
  destruct (decide (size (fI (abs c)) = 0)) as [Hn|Hn].
  { injection E as <- <-. cbn [fst snd]. rewrite wgen_end, replicate_length. unfold reading. cbn. by rewrite resize_nil. }
  assert (np c ≠ []) as Hne. { apply fI_np. intros E0. by rewrite E0, size_empty in Hn. }
  rewrite <-(wcond_reading ord Hord allow mn ge fid c Hg Hne (size (fI (abs c))) ys (S (size (fI (abs c)))) 0 (fI (abs c)) ∅ r ltac:(lia)
    ltac:(intros [g x] Hp; by apply (abs_fwf c g x)) E (S m)).
  cbn [replicate]. by rewrite calls_cons.
Qed.
