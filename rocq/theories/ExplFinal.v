(** * The statements about explorations *)
From Verif Require Import Py Spec PyFacts SpecFacts DgSpec ContextModel ContextSpec ContextOps ContextFacts ContextInit ContextMut ContextMisc ContextEffects
  ContextFinal ClosureModel ClosureFacts DgModel DgFacts DgMain DgCons DgCxt DgFinal AiModel AiFacts AiRound AiFinal ExplModel ExplSpec ExplFacts ExplDb.

Lemma item_pos {A} (l : list A) k i : item l k i ↔ ∃ p, py_pos (length l) k = Some p ∧ l !! p = Some i.
Proof.
  unfold item, py_pos. split.
  - intros [[Hk Hl]|(Hk & Hk2 & Hl)].
    + pose proof (lookup_lt_Some _ _ _ Hl). exists (Z.to_nat k). split; [|done].
      rewrite (proj2 (Z.leb_le 0 k)) by done. rewrite (proj2 (Z.ltb_lt k _)) by lia. done.
    + exists (Z.to_nat (k + Z.of_nat (length l))). split; [|done]. rewrite (proj2 (Z.leb_gt 0 k)) by done.
      by rewrite (proj2 (Z.leb_le 0 _)) by lia.
  - intros (p & Hp & Hl). destruct (0 <=? k)%Z eqn:E; [apply Z.leb_le in E|apply Z.leb_gt in E].
    + left. destruct (k <? _)%Z; [|done]. injection Hp as <-. done.
    + right. destruct (0 <=? k + _)%Z eqn:E2; [|done]. injection Hp as <-. apply Z.leb_le in E2. done.
Qed.
Lemma counter_check_item l C X k : counter_check l C X k = Ok tt ↔
  ∃ i, item l k i ∧ ¬ respects X i ∧ ∀ j, j ∈ C → respects X j.
Proof.
  rewrite counter_check_ok. split.
  - intros (p & i & Hp & Hi & H). exists i. split; [|done]. apply item_pos. by exists p.
  - intros (i & Hi & H). apply item_pos in Hi as (p & Hp & Hi). by exists p, i.
Qed.
Lemma check_refused {S : Type} chk (s : S) f : chk ≠ Ok tt → ∃ e, guarded chk s f = (s, Err e).
Proof. intros H. destruct (guarded_cases chk s f) as [[? _]|(e & _ & ->)]; [done|by exists e]. Qed.

Section hist.
  Context (c0 : context) (Hg : good c0) (Hc : comparable (atts c0) = true) (Ho : objs c0 ≠ []).

  Lemma confirmed_valid s : breach attr_call c0 s → valid (abs (bcxt s)) (bcattr s).
  Proof.
    intros H. apply (breach_base attr_call c0 s); [by intros ? ? []|done..|by intros ? ? []].
  Qed.
  Lemma open_valid s : breach any_call c0 s → within (abs (bcxt s)) (battr s) ∧ valid (abs (bcxt s)) (battr s) ∧ complete (abs (bcxt s)) (battr s ++ bcattr s).
  Proof.
    intros H. destruct (breach_base any_call c0 s) as [[] _]; [by intros ? ?|done..].
  Qed.
  Lemma counter_refutes sa so s s' o X k : sorts sa → breach any_call c0 s → o ∉ objs (bcxt s) →
    bstep sa so (BCounterAttr o X k) s = (s', Ok tt) →
    ∃ i, item (battr s) k i ∧ holds (abs (bcxt s)) i ∧ ¬ holds (abs (bcxt s')) i ∧ bcattr s' = bcattr s ∧
      objs (bcxt s') = objs (bcxt s) ++ [o] ∧ atts (bcxt s') = atts (bcxt s).
  Proof.
    intros Hs H Hn. destruct (breach_base any_call c0 s) as [Hb _]; [by intros ? ?|done..|].
    unfold bstep. rewrite (b_jam s Hb).
    destruct (guarded_cases (counter_check (battr s) (bcattr s) X k) s (mutate_recompute sa so (fun c => add_object_with_intent c X o))) as [[Hk ->]|(e & _ & ->)]; [|done].
    apply counter_check_item in Hk as (i & Hi & Hr & HC). intros E. exists i.
    assert (i ∈ battr s) as Hin. { apply item_pos in Hi as (p & _ & Hi). by eapply elem_of_list_lookup_2. }
    pose proof (add_object_base sa so Hs s Hb X o Hn) as (_ & Hca & _ & Hos & Has & _ & Hbr & _). rewrite E in *. cbn [fst] in *.
    split; [done|]. split; [by apply (b_valid s Hb)|]. split; [|done]. apply Hbr; [|done]. by apply (b_within s Hb).
  Qed.
End hist.
Lemma counter_refused sa so s o X k :
  (∀ i, item (battr s) k i → respects X i) ∨ (∃ j, j ∈ bcattr s ∧ ¬ respects X j) →
  ∃ e, bstep sa so (BCounterAttr o X k) s = (s, Err e).
Proof.
  intros H. unfold bstep. destruct (bjam s); [by eexists|]. apply check_refused. intros (i & Hi & Hr & HC)%counter_check_item.
  destruct H as [H|(j & Hj & Hnj)]; [by apply Hr, H|]. by apply Hnj, HC.
Qed.
Lemma counter_obj_refused sa so s a X k :
  (∀ i, item (bobj s) k i → respects X i) ∨ (∃ j, j ∈ bcobj s ∧ ¬ respects X j) →
  ∃ e, bstep sa so (BCounterObj a X k) s = (s, Err e).
Proof.
  intros H. unfold bstep. destruct (bjam s); [by eexists|]. apply check_refused. intros (i & Hi & Hr & HC)%counter_check_item.
  destruct H as [H|(j & Hj & Hnj)]; [by apply Hr, H|]. by apply Hnj, HC.
Qed.
Section hist2.
  Context (c0 : context) (Hg : good c0) (Hc : comparable (atts c0) = true) (Ho : objs c0 ≠ []).
  Context (Hc' : comparable (objs c0) = true) (Ha : atts c0 ≠ []).
  Lemma confirmed_obj_valid s : breach obj_call c0 s → valid (ftrans (abs (bcxt s))) (bcobj s).
  Proof.
    intros H. apply (breach_obase obj_call c0 s); [by intros ? ? []|done..|by intros ? ? []].
  Qed.
  Lemma open_obj_valid s : breach any_call2 c0 s → within (ftrans (abs (bcxt s))) (bobj s) ∧ valid (ftrans (abs (bcxt s))) (bobj s) ∧ complete (ftrans (abs (bcxt s))) (bobj s ++ bcobj s).
  Proof.
    intros H. destruct (breach_obase any_call2 c0 s) as [[] _]; [by intros ? ?|done..].
  Qed.
  Lemma counter_accepted sa so s o X k i : sorts sa → sorts so → breach any_call2 c0 s → o ∉ objs (bcxt s) → comparable (o :: objs (bcxt s)) = true →
    item (battr s) k i → ¬ respects X i → (∀ j, j ∈ bcattr s → respects X j) →
    ∃ s', bstep sa so (BCounterAttr o X k) s = (s', Ok tt).
  Proof.
    intros Hs Hs' H Hn Hcm Hi Hr HC. destruct (breach_obase any_call2 c0 s) as [Hb _]; [by intros ? ?|done..|].
    unfold bstep. rewrite (b_jam s (o_base s Hb)).
    rewrite (proj2 (counter_check_item (battr s) (bcattr s) X k)) by by exists i. cbn [guarded].
    pose proof (add_object_obase sa so Hs Hs' s Hb X o Hn Hcm) as [_ E].
    destruct (mutate_recompute _ _ _ s) as [s' r]. cbn in E. subst r. by exists s'.
  Qed.
  Lemma counter_obj sa so s a X k : sorts sa → sorts so → breach any_call2 c0 s → a ∉ atts (bcxt s) → comparable (a :: atts (bcxt s)) = true →
    (∀ s', bstep sa so (BCounterObj a X k) s = (s', Ok tt) →
       ∃ i, item (bobj s) k i ∧ holds (ftrans (abs (bcxt s))) i ∧ ¬ holds (ftrans (abs (bcxt s'))) i ∧ bcobj s' = bcobj s ∧
         objs (bcxt s') = objs (bcxt s) ∧ atts (bcxt s') = atts (bcxt s) ++ [a]) ∧
    (∀ i, item (bobj s) k i → ¬ respects X i → (∀ j, j ∈ bcobj s → respects X j) →
       ∃ s', bstep sa so (BCounterObj a X k) s = (s', Ok tt)).
  Proof.
    intros Hs Hs' H Hn Hcm. destruct (breach_obase any_call2 c0 s) as [Hb _]; [by intros ? ?|done..|].
    unfold bstep. rewrite (b_jam s (o_base s Hb)). split.
    - intros s'. destruct (guarded_cases (counter_check (bobj s) (bcobj s) X k) s (mutate_recompute sa so (fun c => add_attribute_with_extent c X a))) as [[Hk ->]|(e & _ & ->)]; [|done].
      apply counter_check_item in Hk as (i & Hi & Hr & HC). intros E. exists i.
      assert (i ∈ bobj s) as Hin. { apply item_pos in Hi as (p & _ & Hi). by eapply elem_of_list_lookup_2. }
      pose proof (add_attribute_base sa so Hs s (o_base s Hb) X a Hn Hcm) as (_ & _ & Hca & Hos & Has & _ & Hbr & _). rewrite E in *. cbn [fst] in *.
      split; [done|]. split; [by apply (o_valid s Hb)|]. split; [|done]. apply Hbr; [|done]. by apply (o_within s Hb).
    - intros i Hi Hr HC. rewrite (proj2 (counter_check_item (bobj s) (bcobj s) X k)) by by exists i. cbn [guarded].
      pose proof (add_attribute_obase sa so Hs Hs' s Hb X a Hn Hcm) as [_ E].
      destruct (mutate_recompute _ _ _ s) as [s' r]. cbn in E. subst r. by exists s'.
  Qed.
End hist2.

(** ** ExplorationDB *)
Lemma no_repeats_app L L2 : no_repeats (L ++ L2) → no_repeats L.
Proof. intros H p q i j Hp Hq. apply H; by apply lookup_app_l_Some. Qed.
Lemma imp_eqb_refl i : imp_eqb i i = true.
Proof. unfold imp_eqb. rewrite !bool_decide_true by done. done. Qed.
Section db.
  Context (c0 : context) (L0 : list fimp) (Hg : good c0) (Hc : comparable (atts c0) = true) (Ho : objs c0 ≠ []).
  Context (HL : within (abs c0) L0) (HR : no_repeats L0).
  Lemma background_valid d : valid (abs c0) L0 → dreach c0 L0 d → valid (abs (dcxt d)) (dimps d).
  Proof. intros Hv H. by apply (dreach_inv c0 L0 d). Qed.
  Lemma finished d : dreach c0 L0 d → dopen d = [] → complete (abs (dcxt d)) (dimps d).
  Proof.
    intros H E. destruct (dreach_inv c0 L0 d) as [Hd _]; [done..|]. destruct (open_facts d Hd) as (_ & _ & H3 & _). by rewrite E in H3.
  Qed.
  Lemma question d i : dreach c0 L0 d → i ∈ dopen d → holds (abs (dcxt d)) i ∧ ¬ entails (dimps d) i.
  Proof.
    intros H Hi. destruct (dreach_inv c0 L0 d) as [Hd _]; [done..|]. split; [|by apply open_new]. by apply (open_facts d Hd).
  Qed.
End db.

Lemma confirm_all ords d is : (∀ n, lists_sets (ords n)) → dinv d → within (abs (dcxt d)) is → no_repeats (dimps d ++ is) →
  ∃ d', ae_confirm ords is d = (d', Ok tt) ∧ dinv d' ∧ dcxt d' = dcxt d ∧ dimps d' = dimps d ++ is.
Proof.
  revert ords d. induction is as [|i is IH]; intros ords d Ho Hd Hw Hr.
  - exists d. cbn. by rewrite app_nil_r.
  - unfold ae_confirm. cbn [map dsteps]. unfold dstep. rewrite (d_jam d Hd). cbn [decorated].
    destruct (refresh_inv (ords 0) (with_imps d (dimps d ++ [i])) (Ho 0)) as (R & -> & Hd').
    { destruct Hd as [h1 h2 h3 h4 h5 h6 h7 h8]. constructor; cbn; try done.
      - intros j Hj. apply elem_of_app in Hj as [Hj|Hj]; [by apply h6|]. apply elem_of_list_singleton in Hj as ->. apply Hw. left.
      - apply (no_repeats_app _ is). by rewrite <-app_assoc. }
    destruct (IH (λ n, ords (S n)) _ (λ n, Ho (S n)) Hd') as (d' & E & H1 & H2 & H3).
    + cbn. intros j Hj. apply Hw. by right.
    + cbn. by rewrite <-app_assoc.
    + exists d'. cbn in *. split; [exact E|]. split; [done|]. split; [done|]. by rewrite H3, <-app_assoc.
Qed.
Lemma open_no_repeats d : dinv d → no_repeats (dimps d ++ dopen d).
Proof.
  intros Hd. destruct (open_facts d Hd) as (_ & _ & _ & Hirr).
  assert (∀ j i R1 R2, dopen d = R1 ++ i :: R2 → j ∈ R1 ++ R2 ++ dimps d → imp_eqb j i = false ∧ imp_eqb i j = false) as Hne.
  { intros j i R1 R2 E Hj. split; apply not_true_iff_false; intros E2; apply (Hirr R1 i R2 E); intros X HX.
    - apply (imp_eqb_respects _ _ X E2). by apply HX.
    - apply (imp_eqb_respects _ _ X E2). by apply HX. }
  intros p q i j Hp Hq Hpq. apply lookup_app_Some in Hp as [Hp|[Hlp Hp]]; apply lookup_app_Some in Hq as [Hq|[Hlq Hq]].
  - by apply (d_distinct d Hd p q).
  - pose proof (take_drop_middle _ _ _ Hq) as E. eapply (Hne i j); [by symmetry|]. rewrite !elem_of_app. right. right. by eapply elem_of_list_lookup_2.
  - pose proof (take_drop_middle _ _ _ Hp) as E. eapply (Hne j i); [by symmetry|]. rewrite !elem_of_app. right. right. by eapply elem_of_list_lookup_2.
  - pose proof (take_drop_middle _ _ _ Hq) as E. eapply (Hne i j); [by symmetry|]. rewrite app_assoc, elem_of_app. left.
    rewrite <-E in Hp. set (n := q - length (dimps d)) in *. assert (p - length (dimps d) ≠ n) by lia.
    apply elem_of_app. apply lookup_app_Some in Hp as [Hp|[Hl Hp]]; [left; by eapply elem_of_list_lookup_2|].
    right. destruct (p - length (dimps d) - length (take n (dopen d))) as [|m] eqn:Em.
    + rewrite take_length in *. apply lookup_lt_Some in Hq. lia.
    + cbn in Hp. by eapply elem_of_list_lookup_2.
Qed.
Lemma complete_closes d : dinv d → complete (abs (dcxt d)) (dimps d) → dopen d = [].
Proof.
  intros Hd Hc. destruct (dopen d) as [|i R] eqn:E; [done|]. exfalso. assert (i ∈ dopen d) as Hi by (rewrite E; left).
  destruct (open_facts d Hd) as (H1 & H2 & _). apply (open_new d i Hd Hi). apply Hc; [by apply H2..|by apply H1].
Qed.
Lemma confirm_everything ords d : (∀ n, lists_sets (ords n)) → dinv d →
  ∃ d', ae_confirm ords (dopen d) d = (d', Ok tt) ∧ dinv d' ∧ dcxt d' = dcxt d ∧ dimps d' = dimps d ++ dopen d ∧ dopen d' = [].
Proof.
  intros Ho Hd. destruct (open_facts d Hd) as (_ & H2 & H3 & _).
  destruct (confirm_all ords d (dopen d) Ho Hd H2 (open_no_repeats d Hd)) as (d' & E & Hd' & Ec & Ei).
  exists d'. repeat (split; [done|]). apply complete_closes; [done|]. rewrite Ec, Ei. intros i Hi1 Hi2 Hh X HX.
  apply (H3 i Hi1 Hi2 Hh). intros j Hj. apply HX. rewrite elem_of_app in *. tauto.
Qed.
Lemma ae_reject_refused ords i es X Xs d : respects X i → ae_reject ords i es (X :: Xs) d = (d, Err NotCounterexample).
Proof. intros H%is_respected_spec. unfold ae_reject. by rewrite H. Qed.

(** ** Sessions *)
Lemma x_reject_refutes s i o X x x' : good (xcxt x) → o ∉ objs (xcxt x) → over (fM (abs (xcxt x))) i →
  xstep (XReject s i o X) x = (x', Ok tt) → ¬ holds (abs (xcxt x')) i ∧ good (xcxt x').
Proof.
  intros Hg Hn Hi. cbn. destruct (xbases x !! s); [|done]. destruct (is_respected i X) eqn:Er; [done|].
  assert (xinv x) as Hx. { split; apply Hg. }
  destruct (x_add_object_cases o X x Hx) as [(L2 & _ & _ & c' & -> & _ & _ & E & _)|[(L2 & j & _ & _ & _ & ->)|[_ ->]]]; [|done..].
  intros [= <-]. cbn. destruct (add_object_imps (xcxt x) X o) as (c2 & E' & Hg' & _ & _ & _ & Hb & _); [apply Hg|apply Hg|done|].
  rewrite E in E'. injection E' as <-. split; [|done]. apply Hb; [done|]. rewrite <-is_respected_spec. by rewrite Er.
Qed.
Lemma x_reject_refused s i o X x : respects X i → ∃ e, xstep (XReject s i o X) x = (x, Err e).
Proof. intros H%is_respected_spec. cbn. destruct (xbases x !! s); [|by eexists]. rewrite H. by eexists. Qed.
Lemma x_candidates_spec ords s x L : lists_sets ords → good (xcxt x) → comparable (atts (xcxt x)) = true → objs (xcxt x) ≠ [] →
  xbases x !! s = Some L → within (abs (xcxt x)) L → no_repeats L →
  ∃ R, x_candidates ords s x = Ok R ∧ (R = [] → complete (abs (xcxt x)) L) ∧
    ∀ i, i ∈ R → holds (abs (xcxt x)) i ∧ ¬ entails L i.
Proof.
  intros Ho Hg Hc Hob HL Hw Hr. destruct (refresh_inv ords (EDB (xcxt x) L (λ _, true) [] false) Ho) as (R & E & Hd); [by constructor|].
  unfold db_refresh in E. cbn [dcxt dimps dcond dopen djam] in E, Hd. exists R. unfold x_candidates. rewrite HL.
  destruct (compute_dg_basis _ _ _ _) as [R'|e]; [|done]. injection E as ->. split; [done|].
  pose proof (open_facts _ Hd) as (H1 & _ & H3 & _). cbn [dcxt dimps dcond dopen djam] in *. split; [by intros ->|]. intros i Hi. split; [by apply H1|].
  apply (open_new _ i Hd Hi).
Qed.
Lemma x_no_session o X c : xstep (XAddObject o X) (new_xpl c) = (new_xpl c, Err AttributeError).
Proof. done. Qed.
