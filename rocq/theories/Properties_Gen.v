(** * Generators suspended while the context changes: the final statements (C112-C120) *)
From Coq Require Import QArith Qcanon.
From Verif Require Import Py PyFacts Spec SpecFacts DgSpec ContextModel ContextSpec ContextOps ContextFacts ContextInit ContextMut ContextEffects ContextFinal
  ClosureModel ClosureFacts DgModel DgFacts DgMain DgCons DgCxt DgFinal
  LatticeSpec LatticeModel NorrisFacts LatticeFacts FilterModel FactorSpec FactorModel FactorFacts
  PatternModel PatternSpec PatternFacts GenModel GenSpec GenFacts GenFacts2 GenFacts3 GenFacts4 GenFacts5 GenFacts6
  Properties_Context Properties_Closure Properties_Dg Properties_Lattice Properties_Pattern Properties_Factor.
Local Open Scope nat_scope.

Global Instance event_eq_dec {A} `{EqDecision A} : EqDecision (event A).
Proof. solve_decision. Defined.

(** ** C112: the basis generator, any changes of objects, crosses and background *)
Theorem C112_any c0 cond ws : good c0 → comparable (atts c0) = true →
  (∀ L c, (L, c) ∈ ws → (∀ i, i ∈ L → i.1 ⊆ fM (abs c0) ∧ i.2 ⊆ fM (abs c0)) ∧ good c ∧ atts c = atts c0 ∧ objs c ≠ []) →
  let es := dg_iter_calls (atts c0) cond ws in
  (∃ m, es = map Yielded (values es) ++ replicate m Stopped) ∧ length es = length ws ∧
  length (values es) ≤ 2 ^ length (atts c0) ∧
  ∀ k L c P C, ws !! k = Some (L, c) → es !! k = Some (Yielded (P, C)) →
    P ⊆ fM (abs c0) ∧ C = acl (abs c) P ∧ P ≠ C ∧ cond P = true ∧ holds (abs c) (P, C) ∧
    model_of (take k (values es) ++ L) P ∧
    ∀ Q, Q ∈ map fst (take k (values es)) → lectic (atts c0) Q P.
Proof. intros Hg Hc Hs. apply (dg_calls_any c0 Hg Hc cond ws). intros [L c] Hw. exact (Hs L c Hw). Qed.
Print Assumptions C112_any.
(** One object {a, b}; after the first implication has been read, a second object
    {a, c} is added. *)
Definition gx1 := get_ok empty_cxt (mk_context [[true; true; false; false]] None [o1] [sa; sb; sc; sd]).
Definition gx2 := (add_object_with_intent gx1 {[sa; sc]} o2).1.
Example gx_good : good gx1 ∧ good gx2.
Proof.
  assert (good gx1) as H.
  { eapply (mk_context_good [[true; true; false; false]] None [o1] [sa; sb; sc; sd]); [reflexivity| | |done]; by apply (bool_decide_unpack _). }
  split; [done|]. destruct (C04_add_object_with_intent gx1 {[sa; sc]} o2) as (c' & E & Hg & _); [apply H|apply H|dec|].
  unfold gx2. by rewrite E.
Qed.
Example C112_case : comparable (atts gx1) = true ∧ (∀ c, c ∈ [gx1; gx2; gx2; gx2; gx2] → good c ∧ atts c = atts gx1 ∧ objs c ≠ []) ∧
  attribute_implications_iter_calls (atts gx1) [gx1; gx2; gx2; gx2; gx2] =
    [Yielded (∅, {[sa; sb]}); Yielded ({[sa; sb; sd]}, {[sa; sb; sc; sd]}); Yielded ({[sa; sb; sc]}, {[sa; sb; sc; sd]}); Stopped; Stopped].
Proof.
  destruct gx_good as [H1 H2]. split; [reflexivity|]. split; [|dec].
  assert (good gx1 ∧ atts gx1 = atts gx1 ∧ objs gx1 ≠ []) as A1 by (split; [done|]; split; done).
  assert (good gx2 ∧ atts gx2 = atts gx1 ∧ objs gx2 ≠ []) as A2 by (split; [done|]; split; [dec|done]).
  intros c Hc. repeat (apply elem_of_cons in Hc as [->|Hc]; [done|]). by apply elem_of_nil in Hc.
Qed.

(** The generator holds the list of attributes of the context, not a copy: when an
    attribute that occurs in the last value is deleted, the next call raises. *)
Theorem C112_attribute_deleted_refuted : ∃ c0 m c1, good c0 ∧ comparable (atts c0) = true ∧ m ∈ atts c0 ∧
  delete_attribute c0 m = (c1, Ok tt) ∧ good c1 ∧
  ∃ i, dg_iter_live always [(atts c0, [], c0); (atts c1, [], c1)] = [Yielded i; Raised KeyError].
Proof.
  exists dgx, sc. destruct (C04_delete_attribute dgx sc) as (c1 & E & Hg & _); [apply dgx_good|apply dgx_good|done|dec|].
  exists c1. split; [exact dgx_good|]. split; [reflexivity|]. split; [dec|]. split; [done|]. split; [done|].
  exists ({[se]}, {[sc; se]}). assert (c1 = (delete_attribute dgx sc).1) as -> by by rewrite E. dec.
Qed.
Print Assumptions C112_attribute_deleted_refuted.

(** ** C113: when the result is the basis of the final context *)
(** All objects seen have a twin in [cf] and everything yielded holds in [cf]. *)
Theorem C113_basis c0 L0 cs cf R : good c0 → comparable (atts c0) = true →
  (∀ i, i ∈ L0 → i.1 ⊆ fM (abs c0) ∧ i.2 ⊆ fM (abs c0)) →
  (∀ c, c ∈ cs → (good c ∧ atts c = atts c0 ∧ objs c ≠ []) ∧ rows_in (abs c) (abs cf)) →
  good cf → atts cf = atts c0 → compute_dg_basis_simple cf (Some L0) always = Ok R →
  let es := dg_iter_calls (atts c0) always (map (pair L0) cs) in
  (∀ i, i ∈ values es → holds (abs cf) i) →
  values es `prefix_of` R ∧ (Stopped ∈ es → values es = R).
Proof. intros Hg Hc H0 Hs Hf Ha HR. exact (dg_calls_final c0 Hg Hc L0 cs cf R H0 Hf Ha Hs HR). Qed.
Print Assumptions C113_basis.
(** Without background: the premises are the pseudo-intents of [cf] and the
    implications of [cf] are those that follow. *)
Theorem C113_complete c0 cs cf : good c0 → comparable (atts c0) = true →
  (∀ c, c ∈ cs → (good c ∧ atts c = atts c0 ∧ objs c ≠ []) ∧ rows_in (abs c) (abs cf)) →
  good cf → atts cf = atts c0 →
  let es := attribute_implications_iter_calls (atts c0) cs in
  (∀ i, i ∈ values es → holds (abs cf) i) → Stopped ∈ es →
  (∀ i, i ∈ values es → i.2 = acl (abs cf) i.1) ∧
  pseudo_family (fM (abs cf)) (acl (abs cf)) [] (λ P, P ∈ map fst (values es)) ∧
  ∀ i, i.1 ⊆ fM (abs cf) → i.2 ⊆ fM (abs cf) → (holds (abs cf) i ↔ entails (values es) i).
Proof.
  intros Hg Hc Hs Hf Ha es Hv Hst. assert (comparable (atts cf) = true) as Hcf by by rewrite Ha.
  destruct (C23_dg_basis cf elts Hf Hcf elts_perm) as (R & _ & HR & HR2 & HR3 & _).
  assert (∀ i, i ∈ [] → i.1 ⊆ fM (abs c0) ∧ i.2 ⊆ fM (abs c0)) as H0 by by intros ? ?%elem_of_nil.
  destruct (C113_basis c0 [] cs cf R Hg Hc H0 Hs Hf Ha HR Hv) as [_ E]. specialize (E Hst).
  change (values es = R) in E. rewrite E. destruct (C24_simple cf R Hf Hcf HR) as (G1 & G2 & _).
  split; [done|]. split; [done|]. intros i I1 I2. split; [by apply G2|]. intros Hent g Hgo Hp m Hm.
  assert (∀ x, x ∈ up (abs cf) {[g]} ↔ x ∈ fM (abs cf) ∧ (g, x) ∈ fI (abs cf)) as Hu by (intros x; rewrite elem_of_up; set_solver).
  apply Hu. apply (Hent (up (abs cf) {[g]})); [| |done].
  - intros j Hj Hp' x Hx. destruct (G1 j Hj) as (J1 & J2 & J3). apply Hu. split; [by apply J2|].
    apply (J3 g Hgo); [|done]. intros y Hy. by apply Hu, Hp'.
  - intros y Hy. apply Hu. split; [by apply I1|by apply Hp].
Qed.
Print Assumptions C113_complete.
(** The object 3 is put back after the first implication. *)
Definition dgx3 := (delete_object dgx o3).1.
Lemma rows_in_delete c o : good c → o ∈ objs c → good (delete_object c o).1 ∧ atts (delete_object c o).1 = atts c ∧
  rows_in (abs (delete_object c o).1) (abs c).
Proof.
  intros Hg Ho. destruct (C04_delete_object c o) as (c' & -> & Hg' & E1 & E2 & HI); [apply Hg|apply Hg|done|]. cbn [fst].
  split; [done|]. split; [done|]. intros g Hgo.
  assert (g ∈ filter (λ x, x ≠ o) (objs c)) as [H1 H2]%elem_of_list_filter by (rewrite <-E1; by apply in_objs).
  exists g. split; [by apply in_objs|]. intros m. rewrite !elem_of_fI, HI. tauto.
Qed.
Lemma rows_in_refl K : rows_in K K.
Proof. intros g Hg. by exists g. Qed.
Example C113_case :
  let cs := [dgx3; dgx; dgx; dgx; dgx; dgx; dgx] in
  (∀ c, c ∈ cs → (good c ∧ atts c = atts dgx ∧ objs c ≠ []) ∧ rows_in (abs c) (abs dgx)) ∧
  attribute_implications_iter_calls (atts dgx) cs = map Yielded dgx_basis ++ [Stopped] ∧
  attribute_implications_iter_calls (atts dgx) (replicate 7 dgx3) ≠ map Yielded dgx_basis ++ [Stopped] ∧
  ∀ i, i ∈ dgx_basis → holds (abs dgx) i.
Proof.
  assert (o3 ∈ objs dgx) as Ho by dec. destruct (rows_in_delete dgx o3 dgx_good Ho) as (H1 & H2 & H3).
  assert ((good dgx3 ∧ atts dgx3 = atts dgx ∧ objs dgx3 ≠ []) ∧ rows_in (abs dgx3) (abs dgx)) as A1 by (split; [split; [done|]; split; done|done]).
  assert ((good dgx ∧ atts dgx = atts dgx ∧ objs dgx ≠ []) ∧ rows_in (abs dgx) (abs dgx)) as A2.
  { split; [split; [exact dgx_good|]; split; done|apply rows_in_refl]. }
  intros cs. split; [|split; [dec|split; [dec|]]].
  - intros c Hc. unfold cs in Hc. repeat (apply elem_of_cons in Hc as [->|Hc]; [done|]). by apply elem_of_nil in Hc.
  - destruct (C24_simple dgx dgx_basis dgx_good eq_refl (proj2 (proj2 C23_case))) as (G1 & _). intros i Hi. by apply G1.
Qed.
(** When a counterexample to an implication already yielded is added, the generator
    goes on from that premise: what it has yielded and still holds does not entail
    all that holds. *)
Theorem C113_counterexample_refuted : ∃ c0 c1 cs i, good c0 ∧ good c1 ∧ comparable (atts c0) = true ∧ atts c1 = atts c0 ∧
  rows_in (abs c0) (abs c1) ∧ (∀ c, c ∈ cs → c = c1) ∧
  let es := attribute_implications_iter_calls (atts c0) (c0 :: cs) in
  Stopped ∈ es ∧ i.1 ⊆ fM (abs c1) ∧ i.2 ⊆ fM (abs c1) ∧ holds (abs c1) i ∧
  ∀ V, (∀ j, j ∈ V → j ∈ values es ∧ holds (abs c1) j) → ¬ entails V i.
Proof.
  destruct gx_good as [H1 H2]. exists gx1, gx2, [gx2; gx2; gx2; gx2], ({[sd]}, {[sb]}).
  split; [done|]. split; [done|]. split; [reflexivity|]. split; [dec|]. split.
  { destruct (C04_add_object_with_intent gx1 {[sa; sc]} o2) as (c' & E & Hg & E1 & E2 & HI); [apply H1|apply H1|dec|].
    unfold gx2. rewrite E. cbn [fst]. intros g Hgo. apply in_objs in Hgo. exists g.
    split; [apply in_objs; rewrite E1; apply elem_of_app; by left|]. intros m. rewrite !elem_of_fI, HI. split; [tauto|].
    intros [?|(-> & _)]; [done|]. exfalso. revert Hgo. change (¬ o2 ∈ objs gx1). dec. }
  split. { intros c Hc. repeat (apply elem_of_cons in Hc as [->|Hc]; [done|]). by apply elem_of_nil in Hc. }
  intros es. assert (es = [Yielded (∅, {[sa; sb]}); Yielded ({[sa; sb; sd]}, {[sa; sb; sc; sd]}); Yielded ({[sa; sb; sc]}, {[sa; sb; sc; sd]}); Stopped; Stopped]) as -> by apply C112_case.
  split; [dec|]. split; [dec|]. split; [dec|]. split; [apply acl_holds; dec|].
  intros V HV Hent. cbn [values omap list_omap] in HV. specialize (Hent {[sd]}).
  assert (¬ ({[sb]} : gset name) ⊆ {[sd]}) as Hn by dec. apply Hn. apply Hent; [|done].
  intros j Hj. destruct (HV j Hj) as [Hj' Hh]. apply elem_of_cons in Hj' as [->|Hj'].
  { exfalso. apply acl_holds in Hh; [|dec|dec]. revert Hh. change (¬ ({[sa; sb]} : gset name) ⊆ acl (abs gx2) ∅). dec. }
  apply elem_of_cons in Hj' as [->|Hj'].
  { intros Hs. exfalso. revert Hs. cbn [fst]. change (¬ ({[sa; sb; sd]} : gset name) ⊆ {[sd]}). dec. }
  apply elem_of_cons in Hj' as [->|Hj'].
  { intros Hs. exfalso. revert Hs. cbn [fst]. change (¬ ({[sa; sb; sc]} : gset name) ⊆ {[sd]}). dec. }
  by apply elem_of_nil in Hj'.
Qed.
Print Assumptions C113_counterexample_refuted.

(** ** C117: implications that follow may be added to the background *)
(** At each call the background may differ from [L0] by what follows from it and from
    the values so far: the calls return what they return with [L0]. *)
Theorem C117_background c0 cond L0 ws : good c0 → comparable (atts c0) = true →
  (∀ i, i ∈ L0 → i.1 ⊆ fM (abs c0) ∧ i.2 ⊆ fM (abs c0)) →
  (∀ L c, (L, c) ∈ ws → (∀ i, i ∈ L → i.1 ⊆ fM (abs c0) ∧ i.2 ⊆ fM (abs c0)) ∧ good c ∧ atts c = atts c0 ∧ objs c ≠ []) →
  let es := dg_iter_calls (atts c0) cond ws in
  (∀ k L c, ws !! k = Some (L, c) →
    (∀ i, i ∈ L → entails (take k (values es) ++ L0) i) ∧ (∀ i, i ∈ L0 → entails (take k (values es) ++ L) i)) →
  es = dg_iter_calls (atts c0) cond (map (λ w, (L0, w.2)) ws).
Proof.
  intros Hg Hc H0 Hs es Hb. apply (dg_calls_bg c0 Hg Hc cond L0 ws); [exact H0|intros [L c] Hw; exact (Hs L c Hw)|].
  intros k L c Hk X. destruct (Hb k L c Hk) as [B1 B2]. fold es. rewrite !model_of_app. split; intros [X1 X2]; (split; [done|]); intros i Hi.
  - apply (B2 i Hi X). intros j [Hj|Hj]%elem_of_app; [by apply X1|by apply X2].
  - apply (B1 i Hi X). intros j [Hj|Hj]%elem_of_app; [by apply X1|by apply X2].
Qed.
Print Assumptions C117_background.
(** The loop [for i in it: known.append(i)]. *)
Theorem C117_noted c0 cond L0 ws : good c0 → comparable (atts c0) = true →
  (∀ i, i ∈ L0 → i.1 ⊆ fM (abs c0) ∧ i.2 ⊆ fM (abs c0)) →
  (∀ L c, (L, c) ∈ ws → good c ∧ atts c = atts c0 ∧ objs c ≠ []) →
  let es := dg_iter_calls (atts c0) cond (map (λ w, (L0, w.2)) ws) in
  (∀ k L c, ws !! k = Some (L, c) → L = L0 ++ take k (values es)) →
  dg_iter_calls (atts c0) cond ws = es.
Proof.
  intros Hg Hc H0 Hs es Hb.
  destruct (C112_any c0 cond (map (λ w, (L0, w.2)) ws) Hg Hc) as (_ & Hlen & _ & Hy).
  { intros L c ([L' c'] & [= -> ->] & Hw)%elem_of_list_fmap. split; [done|]. by apply (Hs L' c'). }
  fold es in Hlen, Hy. destruct (C112_any c0 cond (map (λ w, (L0, w.2)) ws) Hg Hc) as ((m & Ees) & _).
  { intros L c ([L' c'] & [= -> ->] & Hw)%elem_of_list_fmap. split; [done|]. by apply (Hs L' c'). }
  fold es in Ees.
  assert (∀ i, i ∈ values es → i.1 ⊆ fM (abs c0) ∧ i.2 ⊆ fM (abs c0)) as Hov.
  { intros [P C] (k & Hk)%elem_of_list_lookup.
    assert (es !! k = Some (Yielded (P, C))) as He by (rewrite Ees; apply lookup_app_l_Some, map_lookup_Some; by exists (P, C)).
    assert (k < length (map (λ w : list fimp * context, (L0, w.2)) ws)) as Hlt by (rewrite <-Hlen; by eapply lookup_lt_Some).
    destruct (lookup_lt_is_Some_2 _ _ Hlt) as [[L c] Hw]. destruct (Hy k L c P C Hw He) as (Y1 & -> & _).
    split; [exact Y1|]. cbn [snd]. apply map_lookup_Some in Hw as ([L' c'] & Hw & Ew). cbn [snd] in Ew. injection Ew as -> ->.
    destruct (Hs L' c') as (_ & Ea & _); [by eapply elem_of_list_lookup_2|].
    change (fM (abs c0)) with (list_to_set (atts c0) : gset name). rewrite <-Ea. apply (acl_sub (abs c')). }
  symmetry. apply (dg_calls_bg2 c0 Hg Hc cond L0 ws H0).
  - intros [L c] Hw. split; [|exact (Hs L c Hw)]. cbn [fst]. apply elem_of_list_lookup in Hw as [k Hk]. rewrite (Hb k L c Hk).
    intros i [Hi|Hi]%elem_of_app; [by apply H0|]. apply Hov. apply elem_of_list_lookup in Hi as [l Hl].
    apply lookup_take_Some in Hl as [Hl _]. by eapply elem_of_list_lookup_2.
  - intros k L c Hk. rewrite (Hb k L c Hk). fold es. intros X. rewrite !model_of_app. tauto.
Qed.
Print Assumptions C117_noted.

(** Each implication is noted when it has been read: the basis, as in C113. *)
Example C117_case :
  let ws := imap (λ k c, (take k dgx_basis, c)) [dgx3; dgx; dgx; dgx; dgx; dgx; dgx] in
  (∀ L c, (L, c) ∈ ws → good c ∧ atts c = atts dgx ∧ objs c ≠ []) ∧
  (∀ k L c, ws !! k = Some (L, c) → L = [] ++ take k (values (dg_iter_calls (atts dgx) always (map (λ w, ([], w.2)) ws)))) ∧
  dg_iter_calls (atts dgx) always ws = map Yielded dgx_basis ++ [Stopped] ∧
  (∃ k L c, ws !! k = Some (L, c) ∧ L ≠ []).
Proof.
  intros ws. split; [|split; [|split; [dec|by exists 1, [({[se]}, {[sc; se]})], dgx]]].
  - destruct C113_case as [H _]. intros L c (k & Hk)%elem_of_list_lookup. unfold ws in Hk. rewrite list_lookup_imap in Hk.
    apply fmap_Some in Hk as (c' & Hc & [= -> ->]). apply elem_of_list_lookup_2 in Hc. by apply H.
  - assert (values (dg_iter_calls (atts dgx) always (map (λ w, ([], w.2)) ws)) = dgx_basis) as E by dec. rewrite E.
    intros k L c Hk. unfold ws in Hk. rewrite list_lookup_imap in Hk. by apply fmap_Some in Hk as (c' & _ & [= -> ->]).
Qed.

(** ** C118: objects and background implications are added while the basis is read *)
(** What has been read and noted is together complete for the final context. *)
Theorem C118_complete c0 ws cf Lf : good c0 → comparable (atts c0) = true →
  (∀ L c, (L, c) ∈ ws → (∀ i, i ∈ L → i ∈ Lf) ∧ (good c ∧ atts c = atts c0 ∧ objs c ≠ []) ∧ rows_in (abs c) (abs cf)) →
  (∀ i, i ∈ Lf → i.1 ⊆ fM (abs cf) ∧ i.2 ⊆ fM (abs cf) ∧ holds (abs cf) i) →
  good cf → atts cf = atts c0 →
  let es := dg_iter_calls (atts c0) always ws in
  (∀ i, i ∈ values es → holds (abs cf) i) → Stopped ∈ es →
  ∀ i, i.1 ⊆ fM (abs cf) → i.2 ⊆ fM (abs cf) → (holds (abs cf) i ↔ entails (values es ++ Lf) i).
Proof.
  intros Hg Hc Hs HLf Hf Ha es Hv Hst i I1 I2.
  assert (fM (abs cf) = fM (abs c0)) as EM by (change (list_to_set (atts cf) = (list_to_set (atts c0) : gset name)); by rewrite Ha).
  assert (∀ L c, (L, c) ∈ ws → ∀ j, j ∈ L → j.1 ⊆ fM (abs c0) ∧ j.2 ⊆ fM (abs c0)) as HovL.
  { intros L c Hw j Hj. rewrite <-EM. destruct (Hs L c Hw) as (H1 & _). destruct (HLf j (H1 j Hj)) as (? & ? & _). done. }
  destruct (C112_any c0 always ws Hg Hc) as ((m & Ees) & Hlen & _ & Hy).
  { intros L c Hw. split; [by eapply HovL|]. by apply (Hs L c). }
  fold es in Ees, Hlen, Hy.
  assert (∀ j, j ∈ values es ++ Lf → j.1 ⊆ fM (abs cf) ∧ j.2 ⊆ fM (abs cf) ∧ holds (abs cf) j) as Hall.
  { intros j [Hj|Hj]%elem_of_app; [|by apply HLf]. pose proof (Hv j Hj) as Hh. apply elem_of_list_lookup in Hj as [k Hk]. destruct j as [P C].
    assert (es !! k = Some (Yielded (P, C))) as He by (rewrite Ees; apply lookup_app_l_Some, map_lookup_Some; by exists (P, C)).
    assert (k < length ws) as Hlt by (rewrite <-Hlen; by eapply lookup_lt_Some).
    destruct (lookup_lt_is_Some_2 _ _ Hlt) as [[L c] Hw]. destruct (Hy k L c P C Hw He) as (Y1 & -> & _).
    destruct (Hs L c) as (_ & (_ & Ea & _) & _); [by eapply elem_of_list_lookup_2|].
    split; [by rewrite EM|]. split; [|done]. cbn [snd]. rewrite EM. change (fM (abs c0)) with (list_to_set (atts c0) : gset name).
    rewrite <-Ea. apply (acl_sub (abs c)). }
  split.
  - intros Hh X HX Hp. assert (i.2 ⊆ X ∩ fM (abs cf)) as Hsub; [|clear -Hsub; set_solver].
    assert (X ∩ fM (abs cf) = acl (abs cf) (X ∩ fM (abs cf))) as Ecl.
    { assert (∀ L', (∀ j, j ∈ L' → j ∈ values es ++ Lf) → model_of L' (X ∩ fM (abs cf))) as Hmod.
      { intros L' HL' j Hj Hjp y Hyj. destruct (Hall j (HL' j Hj)) as (_ & J2 & _). apply elem_of_intersection. split; [|by apply J2].
        apply (HX j (HL' j Hj)); [|done]. clear -Hjp. set_solver. }
      apply (dg_calls_closed c0 ws cf Hg Hc Hf Ha).
      - intros L c Hw. split; [exact (HovL L c Hw)|]. by apply (Hs L c).
      - exact Hst.
      - rewrite <-EM. clear. set_solver.
      - apply Hmod. intros j Hj. apply elem_of_app. by left.
      - intros L c Hw. apply Hmod. intros j Hj. apply elem_of_app. right. by apply (Hs L c Hw). }
    rewrite Ecl. apply acl_holds in Hh; [|done|done]. etrans; [exact Hh|].
    apply (cl_mono _ _ (acl_closure_op (abs cf))); clear -Hp I1; set_solver.
  - intros Hent g Hgo Hp x Hx.
    assert (∀ y, y ∈ up (abs cf) {[g]} ↔ y ∈ fM (abs cf) ∧ (g, y) ∈ fI (abs cf)) as Hu by (intros y; rewrite elem_of_up; set_solver).
    apply Hu. apply (Hent (up (abs cf) {[g]})); [| |done].
    + intros j Hj Hp' y Hyj. destruct (Hall j Hj) as (J1 & J2 & J3). apply Hu. split; [by apply J2|].
      apply (J3 g Hgo); [|done]. intros z Hz. by apply Hu, Hp'.
    + intros y Hyp. apply Hu. split; [by apply I1|by apply Hp].
Qed.
Print Assumptions C118_complete.
(** After the first value the implication {b, c} → {d} is noted. *)
Definition gnote : fimp := ({[sb; sc]}, {[sd]}).
Example C118_case :
  let ws := ([], dgx3) :: replicate 6 ([gnote], dgx) in
  (∀ L c, (L, c) ∈ ws → (∀ i, i ∈ L → i ∈ [gnote]) ∧ (good c ∧ atts c = atts dgx ∧ objs c ≠ []) ∧ rows_in (abs c) (abs dgx)) ∧
  holds (abs dgx) gnote ∧
  let es := dg_iter_calls (atts dgx) always ws in
  Stopped ∈ es ∧ values es = filter (λ i, i.1 ≠ gnote.1) dgx_basis.
Proof.
  intros ws. destruct C113_case as (H & _ & _ & Hh). split; [|split; [apply acl_holds; dec|split; dec]].
  intros L c [[= -> ->]|[[= -> ->] _]%elem_of_replicate]%elem_of_cons; split.
  - by intros ? ?%elem_of_nil.
  - apply H. left.
  - done.
  - apply H. right. left.
Qed.
(** When the implication {e} → {c} is taken out of the background after the first
    value, it is lost. *)
Theorem C118_dropped_refuted : ∃ c L0 ws i, good c ∧ comparable (atts c) = true ∧
  (∀ j, j ∈ L0 → j.1 ⊆ fM (abs c) ∧ j.2 ⊆ fM (abs c) ∧ holds (abs c) j) ∧
  (∀ L c', (L, c') ∈ ws → L = [] ∧ c' = c) ∧
  let es := dg_iter_calls (atts c) always ((L0, c) :: ws) in
  Stopped ∈ es ∧ holds (abs c) i ∧ ¬ entails (values es) i.
Proof.
  exists dgx, [({[se]}, {[sc]})], (replicate 6 ([], dgx)), ({[se]}, {[sc]}).
  assert (holds (abs dgx) ({[se]}, {[sc]})) as Hh by (apply acl_holds; dec).
  split; [exact dgx_good|]. split; [reflexivity|]. split.
  { intros j ->%elem_of_list_singleton. split; [dec|]. split; [dec|done]. }
  split. { by intros L c' [[= -> ->] _]%elem_of_replicate. }
  intros es. split; [dec|]. split; [done|]. intros Hent.
  assert (¬ ({[sc]} : gset name) ⊆ {[se]}) as Hn by dec. apply Hn. apply Hent; [|done].
  assert (Forall (λ j : fimp, ¬ j.1 ⊆ {[se]}) (values es)) as HF by (apply (bool_decide_unpack _); vm_compute; exact I).
  rewrite Forall_forall in HF. intros j Hj Hs. exfalso. by apply (HF j).
Qed.
Print Assumptions C118_dropped_refuted.

(** ** C114: the concept generator *)
(** The rows are read at the first call.  Objects may be added, and crosses changed,
    between the calls: the concepts of the context at the first call are yielded, each
    once, the first with all attributes.  If the number of objects changed between the
    first and the second call, IndexError comes at the end. *)
Theorem C114_added c0 cs : good c0 → (∀ c, c ∈ cs → good c ∧ objs c0 `prefix_of` objs c) →
  ∃ tr, NoDup (map snd tr) ∧ (∀ B, B ∈ map snd tr ↔ ∃ A, is_concept (abs c0) A B) ∧
    head tr = Some (∅, fM (abs c0)) ∧ (∀ A B, (A, B) ∈ tr → ∃ A', is_concept (abs c0) A' B ∧ A ⊆ A') ∧
    norris_calls (c0 :: cs) = take (S (length cs)) (map Yielded tr ++
      match cs with c1 :: _ => if decide (length (objs c1) = length (objs c0)) then Stopped else Raised IndexError | [] => Stopped end
        :: replicate (length cs) Stopped).
Proof.
  intros Hg Hcs. destruct (norris_calls_spec c0 cs Hg Hcs) as (fin & tr & Hr & E). exists tr.
  destruct (norris_run_spec c0 Hg) as (fin' & tr' & Hr' & Hi & _). rewrite Hr in Hr'. injection Hr' as <- <-.
  destruct (norris_inv_concepts c0 fin Hi) as (_ & Hnd & Hc).
  destruct (norris_trace_spec c0 Hg fin tr Hr) as (Hm & Hh & Ht). rewrite Hm. split; [done|]. split.
  { intros B. rewrite elem_of_list_fmap. split.
    - intros ([A B'] & -> & Hx). exists A. by apply Hc.
    - intros [A HA]. exists (A, B). split; [done|]. by apply Hc. }
  split; [done|]. split; [|exact E]. intros A B [k Hk]%elem_of_list_lookup. destruct (Ht k A B Hk) as [(A' & _ & ? & ?) _]. by exists A'.
Qed.
Print Assumptions C114_added.
(** Nothing changes at all if the number is right at the second call. *)
Theorem C114_unchanged c0 cs : good c0 → (∀ c, c ∈ cs → good c ∧ objs c0 `prefix_of` objs c) →
  (∀ c1, head cs = Some c1 → length (objs c1) = length (objs c0)) →
  norris_calls (c0 :: cs) = norris_calls (replicate (S (length cs)) c0).
Proof.
  intros Hg Hcs Hl. destruct (norris_calls_spec c0 cs Hg Hcs) as (fin & tr & Hr & ->).
  destruct (norris_calls_spec c0 (replicate (length cs) c0) Hg) as (fin' & tr' & Hr' & E).
  { intros c Hc. apply elem_of_replicate in Hc as [-> _]. done. }
  rewrite Hr in Hr'. injection Hr' as <- <-. cbn [replicate]. rewrite E, replicate_length.
  destruct cs as [|c1 cs]; [done|]. cbn [length replicate]. rewrite !decide_True; [done|done|by apply Hl].
Qed.
Print Assumptions C114_unchanged.
Definition ex5 := (add_object_with_intent ex {[sb]} (NInt 5)).1.
Example ex5_good : good ex5 ∧ objs ex `prefix_of` objs ex5.
Proof.
  destruct (C04_add_object_with_intent ex {[sb]} (NInt 5)) as (c' & E & Hg & E1 & _); [apply ex_good|apply ex_good|dec|].
  unfold ex5. rewrite E. cbn [fst]. split; [done|]. rewrite E1. by apply prefix_app_r.
Qed.
Definition ex_yields : list fconcept :=
  [(∅, {[sa; sb; sc]}); ({[o1]}, {[sa; sb]}); ({[o2]}, {[sa; sc]}); ({[o1; o2]}, {[sa]}); ({[o1; o2; o3; o4]}, ∅)].
Example C114_case : norris_calls (replicate 6 ex) = map Yielded ex_yields ++ [Stopped] ∧
  norris_calls [ex; ex; ex; ex5; ex5; ex5] = map Yielded ex_yields ++ [Stopped] ∧
  norris_calls [ex; ex5; ex5; ex5; ex5; ex5; ex5] = map Yielded ex_yields ++ [Raised IndexError; Stopped].
Proof. split; [dec|]. split; dec. Qed.
(** Deleting an object: the names of the others are matched with the rows read
    before; an object is put into an extent although it never had the attribute. *)
Theorem C114_deleted_refuted : ∃ c0 o A B g m, good c0 ∧ o ∈ objs c0 ∧
  let c1 := (delete_object c0 o).1 in
  Yielded (A, B) ∈ norris_calls [c0; c1] ∧ g ∈ A ∧ m ∈ B ∧ g ∈ objs c1 ∧ ¬ incident c0 g m ∧ ¬ incident c1 g m.
Proof.
  exists ex, o1, {[o2]}, {[sa; sb]}, o2, sb. split; [exact ex_good|]. split; [dec|]. intros c1.
  split; [dec|]. split; [dec|]. split; [dec|]. split; [dec|].
  split; rewrite <-elem_of_fI; [change (¬ (o2, sb) ∈ fI (abs ex))|change (¬ (o2, sb) ∈ fI (abs c1))]; dec.
Qed.
Print Assumptions C114_deleted_refuted.

(** ** C115: the factors of algorithm2 *)
(** Coverage is measured with the crosses of the context at the first call, the
    concepts are those of the context at the call. *)
Theorem C115_factors ord fid c0 cs : (∀ k i X, ord k i X ≡ₚ elements X) → good c0 → fI (abs c0) ≠ ∅ →
  (∀ c, c ∈ cs → good c ∧ objs c ≠ []) →
  let n := Z.of_nat (size (fI (abs c0))) in
  ∃ ys tl, algorithm2_calls ord fid (c0 :: cs) = map Yielded ys ++ tl ∧ length ys ≤ size (fI (abs c0)) ∧
    (∀ i c y, (c0 :: cs) !! i = Some c → ys !! i = Some y → let fs := map fst (take i ys) in
       (qdiv (ncovered (abs c0) fs) n < fid)%Qc ∧ is_concept (abs c) y.1.1 y.1.2 ∧ gain (abs c0) fs y.1 ≠ ∅ ∧
       y.2 = qdiv (Z.of_nat (size (gain (abs c0) fs y.1))) n ∧
       ∀ m, m ∈ fM (abs c) → m ∉ y.1.2 →
         size (gain (abs c0) fs (down (abs c) (y.1.2 ∪ {[m]}), acl (abs c) (y.1.2 ∪ {[m]}))) ≤ size (gain (abs c0) fs y.1)) ∧
    (tl = [] ∨ ∃ c e, (c0 :: cs) !! length ys = Some c ∧ tl = e :: replicate (length cs - length ys) Stopped ∧
       let fs := map fst ys in
       ((e = Stopped ∧ (fid <= qdiv (ncovered (abs c0) fs) n)%Qc) ∨
        (e = Raised AssertionError ∧ (qdiv (ncovered (abs c0) fs) n < fid)%Qc ∧ uncovered (abs c0) fs ∩ fI (abs c) = ∅))).
Proof.
  intros Hord Hg H0 Hcs n. destruct (algorithm2_calls_spec ord fid c0 cs Hord Hg H0 Hcs) as (ys & tl & E & H1 & H2).
  exists ys, tl. split; [exact E|]. cbn [app] in H1, H2. split; [|split; [exact H1|]].
  - assert (length (map fst ys) + size (uncovered (abs c0) (map fst ys)) ≤ size (fI (abs c0))) as Hc.
    { apply gains_count. intros i f Hf. apply map_lookup_Some in Hf as (y & Hy & ->). rewrite <-map_take || rewrite firstn_map.
      assert (i < length (c0 :: cs)) as Hi.
      { apply lookup_lt_Some in Hy. assert (length (algorithm2_calls ord fid (c0 :: cs)) = length (c0 :: cs)) as L by apply calls_length.
        rewrite E, app_length, map_length in L. lia. }
      destruct (lookup_lt_is_Some_2 _ _ Hi) as [c Hc]. by destruct (H1 i c y Hc Hy) as (_ & _ & ? & _). }
    rewrite map_length in Hc. lia.
  - destruct H2 as [->|(c & e & Hc & -> & He)]; [by left|]. right. exists c, e. split; [done|]. split; [done|]. exact He.
Qed.
Print Assumptions C115_factors.
(** As long as no cross of the first context is removed, the generator ends when the
    coverage is reached, without an exception. *)
Theorem C115_kept ord fid c0 cs : (∀ k i X, ord k i X ≡ₚ elements X) → good c0 → fI (abs c0) ≠ ∅ → (fid <= Q2Qc 1)%Qc →
  (∀ c, c ∈ cs → good c ∧ fI (abs c0) ⊆ fI (abs c)) →
  let es := algorithm2_calls ord fid (c0 :: cs) in
  (∀ e, Raised e ∉ es) ∧
  (Stopped ∈ es ↔ (fid <= qdiv (ncovered (abs c0) (map fst (values es))) (Z.of_nat (size (fI (abs c0)))))%Qc ∧ length (values es) ≤ length cs) ∧
  (size (fI (abs c0)) ≤ length cs → Stopped ∈ es).
Proof.
  intros Hord Hg H0 Hfid Hcs es.
  assert (∀ c, c ∈ cs → good c ∧ objs c ≠ []) as Hcs'.
  { intros c Hc. destruct (Hcs c Hc) as [Hgc HI]. split; [done|]. intros Eo. apply set_choose_L in H0 as [[g m] Hp].
    apply HI in Hp. apply abs_fwf in Hp as [Hp _]. apply in_objs in Hp. rewrite Eo in Hp. by apply elem_of_nil in Hp. }
  destruct (C115_factors ord fid c0 cs Hord Hg H0 Hcs') as (ys & tl & E & Hlen & Hy & Ht). fold es in E. cbv zeta in *.
  assert (length es = length (c0 :: cs)) as Hl by (unfold es, algorithm2_calls; apply calls_length). cbn [length] in Hl.
  assert (∀ l : list (fconcept * Qc), values (map Yielded l) = l) as Hv1.
  { intros l. induction l as [|x l IH]; [done|]. unfold values in *. cbn. by rewrite IH. }
  assert (∀ k, values (replicate k (Stopped (A := fconcept * Qc))) = []) as Hv2.
  { induction k as [|k IH]; [done|]. exact IH. }
  assert (∀ a b : list (event (fconcept * Qc)), values (a ++ b) = values a ++ values b) as Hv3.
  { intros a b. unfold values. apply omap_app. }
  destruct Ht as [->|(c & e & Hc & -> & He)].
  - rewrite app_nil_r in E. assert (values es = ys) as Ev by by rewrite E, Hv1. assert (length ys = S (length cs)) as Hly by (rewrite <-Hl, E; by rewrite map_length).
    assert (∀ x, x ∈ es → ∃ y, x = Yielded y) as Hx. { intros x. rewrite E, elem_of_list_fmap. intros (y & -> & _). by exists y. }
    split; [by intros e [y Hy']%Hx|]. split; [|lia]. split; [by intros [y Hy']%Hx|]. intros [_ H]. rewrite Ev in H. lia.
  - assert (e = Stopped ∧ (fid <= qdiv (ncovered (abs c0) (map fst ys)) (Z.of_nat (size (fI (abs c0)))))%Qc) as [-> Hf].
    { destruct He as [He|(_ & Hlt & HU)]; [done|]. exfalso.
      assert (uncovered (abs c0) (map fst ys) = ∅) as EU.
      { apply set_eq. intros p. split; [|set_solver]. intros Hp. rewrite <-HU. apply elem_of_intersection. split; [done|].
        apply elem_of_uncovered in Hp as [Hp _]. destruct (length ys) as [|k]; cbn in Hc; [by injection Hc as <-|].
        apply (Hcs c); [by eapply elem_of_list_lookup_2|done]. }
      apply (Qclt_not_le _ _ Hlt). unfold ncovered. rewrite EU, size_empty, Z.sub_0_r, qdiv_self; [done|].
      intros E0. apply H0. apply leibniz_equiv, size_empty_inv. lia. }
    change (Stopped :: replicate (length cs - length ys) Stopped) with (replicate (S (length cs - length ys)) (Stopped (A := fconcept * Qc))) in E.
    assert (values es = ys) as Ev by (by rewrite E, Hv3, Hv1, Hv2, app_nil_r).
    assert (length ys ≤ length cs) as Hly. { apply lookup_lt_Some in Hc. cbn in Hc. lia. }
    assert (Stopped ∈ es) as Hs. { rewrite E. apply elem_of_app. right. left. }
    split; [|split].
    + intros e. rewrite E, elem_of_app, elem_of_list_fmap, elem_of_replicate. intros [(? & ? & _)|[? _]]; done.
    + rewrite Ev. done.
    + done.
Qed.
Print Assumptions C115_kept.
Definition ex3 := (set_object_intent ex [sa; sb; sc] o3).1.
Example C115_case : (∀ p, p ∈ fI (abs ex) → p ∈ fI (abs ex3)) ∧
  algorithm2_calls ord_el (Q2Qc 1) [ex; ex3; ex3; ex3] =
    [Yielded ({[o1; o2; o3]}, {[sa]}, qdiv 3 5); Yielded ({[o1; o3]}, {[sa; sb]}, qdiv 1 5); Yielded ({[o2; o3]}, {[sa; sc]}, qdiv 1 5); Stopped].
Proof. split; [|dec]. intros p Hp. assert (fI (abs ex) ⊆ fI (abs ex3)) as H by dec. by apply H. Qed.
(** Without changes: the values and the end of the loop over [algorithm2]. *)
Theorem C115_unchanged c ord fid ys r m : good c → (∀ k i X, ord k i X ≡ₚ elements X) → algorithm2 c ord fid = (ys, r) →
  algorithm2_calls ord fid (replicate m c) = resize m Stopped (map Yielded ys ++ [match r with Ok _ => Stopped | Err e => Raised e end]).
Proof. intros Hg Hord E. by apply (algorithm2_reading c ord fid ys r Hg Hord E). Qed.
Print Assumptions C115_unchanged.
Example C115_unchanged_case : algorithm2_calls ord_el (Q2Qc (2 # 1)) (replicate 5 ex) =
  map Yielded (algorithm2 ex ord_el (Q2Qc (2 # 1))).1 ++ [Raised AssertionError; Stopped].
Proof. dec. Qed.
(** With a removed cross it cannot be reached. *)
Theorem C115_removed_refuted : ∃ c0 o, good c0 ∧ o ∈ objs c0 ∧
  let c1 := (delete_object c0 o).1 in
  Raised AssertionError ∈ algorithm2_calls ord_el (Q2Qc 1) [c0; c1; c1].
Proof. exists ex, o1. split; [exact ex_good|]. split; [dec|]. intros c1. dec. Qed.
Print Assumptions C115_removed_refuted.

(** ** C116: unexplained examples while patterns are confirmed and examples added *)
Theorem C116_unexplained cp cn s0 ss : good cp → good cn → preach cp cn s0 →
  (∀ k s s', (s0 :: ss) !! k = Some s → (s0 :: ss) !! S k = Some s' → pmoves s s') →
  ∃ ys m, unexplained_calls (s0 :: ss) = map Yielded ys ++ replicate m Stopped ∧
    map fst ys `sublist_of` objs (ppos s0) ∧
    (∀ k s o X, (s0 :: ss) !! k = Some s → ys !! k = Some (o, X) →
      ¬ explained s o ∧ (∀ m, m ∈ X ↔ incident (ppos s) o m) ∧
      ∀ l1 l2, objs (ppos s0) = l1 ++ o :: l2 → ∀ o', o' ∈ l1 → o' ∈ map fst (take k ys) ∨ explained s o') ∧
    (∀ k s, (s0 :: ss) !! k = Some s → length ys ≤ k → ∀ o, o ∈ objs (ppos s0) → o ∈ map fst ys ∨ explained s o).
Proof.
  intros Hp Hn Hr Hch. pose proof (preach_inv cp cn s0 Hp Hn Hr) as Hi.
  destruct (unexplained_calls_spec s0 ss Hi Hch) as (ys & m & E & H1 & H2 & H3). exists ys, m. split; [done|]. split; [done|]. split; [|done].
  intros k s o X Hk Hy. destruct (H2 k s o X Hk Hy) as (U1 & U2 & U3). split; [done|]. split; [|done].
  intros x. rewrite U2, elem_of_up. rewrite <-elem_of_fI. split; [set_solver|]. intros H. split; [|set_solver]. by apply abs_fwf in H as [_ ?].
Qed.
Print Assumptions C116_unexplained.
Example C116_case : let s1 := pnext (PConfirm [sa]) s0 in pmoves s0 s1 ∧
  unexplained_calls [s0; s0; s0; s0] = [Yielded (o1, {[sa; sb; sc]}); Yielded (o2, {[sa]}); Yielded (o3, {[sb]}); Stopped] ∧
  unexplained_calls [s0; s1; s1] = [Yielded (o1, {[sa; sb; sc]}); Yielded (o3, {[sb]}); Stopped].
Proof.
  intros s1. split; [|split; dec]. apply rtc_once. by exists (PConfirm [sa]).
Qed.
(** An example added meanwhile is not visited. *)
Theorem C116_added_refuted : ∃ cp cn s s' o, good cp ∧ good cn ∧ preach cp cn s ∧ pmoves s s' ∧
  o ∈ objs (ppos s') ∧ ¬ explained s' o ∧
  Stopped ∈ unexplained_calls (s :: replicate 3 s') ∧ ∀ X, Yielded (o, X) ∉ unexplained_calls (s :: replicate 3 s').
Proof.
  exists px, nx, s0, (pnext (PPositive (NInt 5) {[sb]}) s0), (NInt 5). split; [apply px_good|]. split; [apply px_good|].
  split; [exact preach_s0|]. split. { apply rtc_once. exists (PPositive (NInt 5) {[sb]}). split; [cbn [pattern_call]; dec|done]. }
  split; [dec|]. split.
  { intros (P & HP & _). assert (pconf (pnext (PPositive (NInt 5) {[sb]}) s0) = []) as E by dec. rewrite E in HP. by apply elem_of_nil in HP. }
  assert (unexplained_calls (s0 :: replicate 3 (pnext (PPositive (NInt 5) {[sb]}) s0)) =
    [Yielded (o1, {[sa; sb; sc]}); Yielded (o2, {[sa]}); Yielded (o3, {[sb]}); Stopped]) as -> by dec.
  split; [dec|]. intros X HX. repeat (apply elem_of_cons in HX as [HX|HX]; [done|]). by apply elem_of_nil in HX.
Qed.
Print Assumptions C116_added_refuted.

(** ** C119: patterns while examples are added and patterns confirmed *)
(** [l0] are the patterns at the first call, [l] the patterns of the first positive
    context with the negative context at call [k]. *)
Theorem C119_patterns ord cp cn s0 ss : good cp → good cn → preach cp cn s0 →
  length (objs (ppos s0)) ≤ 63 → length (atts (ppos s0)) ≤ 63 → (∀ X : gset name, ord X ≡ₚ elements X) →
  (∀ k s s', (s0 :: ss) !! k = Some s → (s0 :: ss) !! S k = Some s' → pmoves s s') →
  ∃ ys m l0, pattern_calls ord (s0 :: ss) = map Yielded ys ++ replicate m Stopped ∧
    positive_concepts ord (ppos s0) (pneg s0) = Ok l0 ∧ ys `sublist_of` l0 ∧
    (∀ k s x, (s0 :: ss) !! k = Some s → ys !! k = Some x → ¬ occurs (pneg s) x.2) ∧
    ∀ k s, (s0 :: ss) !! k = Some s → length ys ≤ k →
      ∃ l, positive_concepts ord (ppos s0) (pneg s) = Ok l ∧ l `sublist_of` ys ∧
        ∀ x, x ∈ l ↔ x ∈ ys ∧ ¬ occurs (pneg s) x.2.
Proof.
  intros Hp Hn Hr H1 H2 Ho Hch. pose proof (preach_inv cp cn s0 Hp Hn Hr) as Hi.
  destruct (pattern_calls_spec ord Ho s0 ss Hi H1 H2 Hch) as (c1 & c2 & cs & E1 & E2 & E3 & Hnd & Hall & ys & m & Ees & S1 & S2 & S3).
  assert (∀ s, s ∈ s0 :: ss → ∃ l, positive_concepts ord (ppos s0) (pneg s) = Ok l ∧ l `sublist_of` cs ∧ ∀ x, x ∈ l ↔ x ∈ cs ∧ ¬ occurs (pneg s) x.2) as HP.
  { intros s Hs. destruct (Hall s Hs) as (I1 & I2 & I3). destruct (filter_cons_occurs ord (pneg s) cs) as (l & F1 & F2 & F3 & _); [apply I1|done|done|].
    exists l. split; [|done]. unfold positive_concepts. rewrite E1. cbn [mbind res_bind]. rewrite E2. cbn [mbind res_bind]. rewrite E3. done. }
  destruct (HP s0) as (l0 & L1 & L2 & L3); [left|].
  assert (∀ l k : list fconcept, l `sublist_of` cs → k `sublist_of` cs → (∀ x, x ∈ l → x ∈ k) → l `sublist_of` k) as Hsub.
  { clear -Hnd. intros l k Hl. revert k. induction Hl as [|x l cs Hl IH|x l cs Hl IH]; intros k Hk Hx.
    - apply sublist_nil_l.
    - apply NoDup_cons in Hnd as [Hn Hnd]. apply sublist_cons_r in Hk as [Hk|(k' & -> & Hk)].
      + exfalso. apply Hn. eapply elem_of_sub; [exact Hk|]. apply Hx. left.
      + apply sublist_skip. apply IH; [done|done|]. intros y Hy. assert (y ∈ x :: k') as Hy' by (apply Hx; by right).
        apply elem_of_cons in Hy' as [->|?]; [|done]. exfalso. apply Hn. eapply elem_of_sub; [exact Hl|done].
    - apply NoDup_cons in Hnd as [Hn Hnd]. apply sublist_cons_r in Hk as [Hk|(k' & -> & Hk)]; [by apply IH|].
      apply sublist_cons. apply IH; [done|done|]. intros y Hy. specialize (Hx y Hy). apply elem_of_cons in Hx as [->|?]; [|done].
      exfalso. apply Hn. eapply elem_of_sub; [exact Hl|done]. }
  assert (∀ k x, ys !! k = Some x → ∃ s, (s0 :: ss) !! k = Some s) as Hlook.
  { intros k x Hk. apply lookup_lt_is_Some_2. assert (k < length ys) by (by eapply lookup_lt_Some).
    assert (length (pattern_calls ord (s0 :: ss)) = length (s0 :: ss)) as El by apply calls_length.
    rewrite Ees, app_length, map_length in El. lia. }
  exists ys, m, l0. split; [done|]. split; [done|]. split.
  { apply Hsub; [done|done|]. intros x Hx. apply L3. split; [eapply elem_of_sub; [exact S1|done]|]. intros Hoc.
    apply elem_of_list_lookup in Hx as [k Hk]. destruct (Hlook k x Hk) as [s Hs]. destruct (S2 k s x Hs Hk) as [Hno _]. apply Hno.
    apply (occurs_moves s0); [done| |done].
    clear -Hch Hs. revert s Hs. induction k as [|k IH]; intros s Hs; [injection Hs as <-; apply rtc_refl|].
    destruct ((s0 :: ss) !! k) as [s1|] eqn:E.
    - eapply rtc_transitive; [by apply IH|]. by apply (Hch k).
    - apply lookup_ge_None in E. apply lookup_lt_Some in Hs. lia. }
  split. { intros k s x Hs Hk. by apply (S2 k s x). }
  intros k s Hs Hk. destruct (HP s) as (l & P1 & P2 & P3); [by eapply elem_of_list_lookup_2|].
  assert (∀ x, x ∈ l ↔ x ∈ ys ∧ ¬ occurs (pneg s) x.2) as Hx.
  { intros x. rewrite P3. split; intros [X1 X2]; (split; [|done]).
    - by destruct (S3 k s Hs Hk x X1).
    - eapply elem_of_sub; [exact S1|done]. }
  exists l. split; [done|]. split; [|done]. apply Hsub; [done|done|]. intros x Hl. by apply Hx.
Qed.
Print Assumptions C119_patterns.
(** With a negative example {a} added after the first value {a} is left out, with {a, b}
    all others are, and the pattern returned is refuted as well. *)
Example C119_case : let s1 := pnext (PNegative (NInt 9) {[sa]} None) s0 in let s2 := pnext (PNegative (NInt 9) {[sa; sb]} None) s0 in
  pmoves s0 s1 ∧ pmoves s0 s2 ∧
  pattern_calls elements [s0; s0; s0; s0] = [Yielded ({[o1]}, {[sa; sb]}); Yielded ({[o1; o2]}, {[sa]}); Yielded ({[o1; o3]}, {[sb]}); Stopped] ∧
  pattern_calls elements [s0; s1; s1] = [Yielded ({[o1]}, {[sa; sb]}); Yielded ({[o1; o3]}, {[sb]}); Stopped] ∧
  pattern_calls elements [s0; s2] = [Yielded ({[o1]}, {[sa; sb]}); Stopped] ∧ positive_concepts elements (ppos s0) (pneg s2) = Ok [].
Proof.
  intros s1 s2. split; [|split; [|split; [dec|split; [dec|split; dec]]]]; apply rtc_once.
  - exists (PNegative (NInt 9) {[sa]} None). split; [cbn [pattern_call]; dec|done].
  - exists (PNegative (NInt 9) {[sa; sb]} None). split; [cbn [pattern_call]; dec|done].
Qed.
(** A pattern that only comes with a positive example added meanwhile is not found. *)
Theorem C119_added_refuted : ∃ cp cn s s' l x, good cp ∧ good cn ∧ preach cp cn s ∧ pmoves s s' ∧
  Stopped ∈ pattern_calls elements (s :: replicate 4 s') ∧
  positive_concepts elements (ppos s') (pneg s') = Ok l ∧ x ∈ l ∧
  ∀ y, Yielded y ∈ pattern_calls elements (s :: replicate 4 s') → y.2 ≠ x.2.
Proof.
  set (s' := pnext (PPositive (NInt 5) {[sb; sc]}) s0).
  exists px, nx, s0, s', (get_ok [] (positive_concepts elements (ppos s') (pneg s'))), ({[o1; NInt 5]}, {[sb; sc]}).
  split; [apply px_good|]. split; [apply px_good|]. split; [exact preach_s0|].
  split. { apply rtc_once. exists (PPositive (NInt 5) {[sb; sc]}). split; [cbn [pattern_call]; dec|done]. }
  assert (pattern_calls elements (s0 :: replicate 4 s') =
    [Yielded ({[o1]}, {[sa; sb]}); Yielded ({[o1; o2]}, {[sa]}); Yielded ({[o1; o3]}, {[sb]}); Stopped; Stopped]) as -> by dec.
  split; [dec|]. split; [apply get_ok_eq; vm_compute; reflexivity|]. split; [dec|]. intros y Hy.
  repeat (apply elem_of_cons in Hy as [Hy|Hy]; [try done; injection Hy as ->; cbn [snd]; dec|]). by apply elem_of_nil in Hy.
Qed.
Print Assumptions C119_added_refuted.

(** ** C120: the factors of algorithm2_w_condition *)
Theorem C120_factors ord allow mn ge fid c0 cs : (∀ k i X, ord k i X ≡ₚ elements X) → good c0 → fI (abs c0) ≠ ∅ →
  (∀ c, c ∈ cs → good c ∧ objs c ≠ [] ∧ ∀ m, m ∈ atts c0 → m ∈ atts c) →
  let n := Z.of_nat (size (fI (abs c0))) in
  ∃ ys tl, w_condition_calls ord allow mn ge fid (c0 :: cs) = map Yielded ys ++ tl ∧ length ys ≤ size (fI (abs c0)) ∧
    (** how it ends *)
    (tl = [] ∨ ∃ e, tl = e :: replicate (length cs - length ys) Stopped ∧ (e = Stopped ∨ e = Raised (UserException 239))) ∧
    (∀ i y y', ys !! i = Some y → ys !! S i = Some y' → (y.2 < fid)%Qc) ∧
    (** some cross of the first context is never covered *)
    uncovered (abs c0) (map fst (map fst ys)) ≠ ∅ ∧
    ∀ i c A B q1 q2, (c0 :: cs) !! i = Some c → ys !! i = Some ((A, B), q1, q2) → let before := map fst (map fst (take i ys)) in
      is_concept (abs c) A B ∧
      (mn ≤ Z.of_nat (size A) ∧ mn ≤ Z.of_nat (size B))%Z ∧ (ge = true → size B ≤ size A) ∧
      (qdiv (ncovered (abs c0) (before ++ [(A, B)])) n <= q2)%Qc ∧
      (allow = true → gain (abs c0) before (A, B) ≠ ∅) ∧
      (allow = false → (∀ c g, c ∈ cs → g ∈ objs c0 → g ∈ objs c) → ∃ m, m ∈ B ∧ ∀ h, h ∈ before → m ∉ h.2).
Proof.
  intros Hord Hg H0 Hcs n. set (kobj := ∀ c g, c ∈ cs → g ∈ objs c0 → g ∈ objs c).
  destruct (w_condition_calls_spec ord allow mn ge fid kobj False c0 cs Hord Hg H0) as (ys & tl & E & L & _ & Q & H1 & H2 & H3).
  { intros c Hc. destruct (Hcs c Hc) as (Hgc & Ho & Ha). split; [done|]. split.
    { intros En. apply Ho. assert (length (np c) = length (objs c)) as Le by apply Hgc. rewrite En in Le. by destruct (objs c). }
    split; [intros m; rewrite !in_atts; auto|]. split; [|done]. intros Hk g. rewrite !in_objs. by apply Hk. }
  exists ys, tl. split; [exact E|]. split; [exact L|]. cbn [app] in H1, H2. split; [|split; [exact Q|split; [exact H2|]]].
  - destruct H3 as [->|(e & -> & He)]; [by left|]. right. exists e. split; [done|]. destruct He as [?|[? _]]; tauto.
  - intros i c A B q1 q2 Hc Hy before. destruct (H1 i c _ Hc Hy) as (W1 & W2 & W3 & W4 & W5 & _). cbn [fst snd] in *.
    split; [done|]. split; [|split].
    + unfold good_factor in W2. destruct ge; apply andb_true_iff in W2 as [W2 W2']; apply Z.leb_le in W2, W2'; lia.
    + intros ->. unfold good_factor in W2. apply andb_true_iff in W2 as [W2 W2']; apply Z.leb_le in W2, W2'; lia.
    + done.
Qed.
Print Assumptions C120_factors.
(** As long as no cross of the first context is removed, the smallest sizes (up to 1)
    give no exception and exact fractions. *)
Theorem C120_kept ord mn fid c0 cs : (∀ k i X, ord k i X ≡ₚ elements X) → good c0 → fI (abs c0) ≠ ∅ → (mn ≤ 1)%Z →
  (∀ c, c ∈ cs → good c ∧ fI (abs c0) ⊆ fI (abs c) ∧ ∀ m, m ∈ atts c0 → m ∈ atts c) →
  let n := Z.of_nat (size (fI (abs c0))) in
  ∃ ys m, w_condition_calls ord true mn false fid (c0 :: cs) = map Yielded ys ++ replicate m Stopped ∧
    ∀ i f q1 q2, ys !! i = Some (f, q1, q2) → let before := map fst (map fst (take i ys)) in
      q1 = qdiv (Z.of_nat (size (gain (abs c0) before f))) n ∧ q2 = qdiv (ncovered (abs c0) (before ++ [f])) n.
Proof.
  intros Hord Hg H0 Hmn Hcs n.
  destruct (w_condition_calls_spec ord true mn false fid False True c0 cs Hord Hg H0) as (ys & tl & E & L & _ & Q & H1 & H2 & H3).
  { intros c Hc. destruct (Hcs c Hc) as (Hgc & HI & Ha). split; [done|]. split.
    { apply fI_np. intros E. apply H0. apply set_eq. intros p. split; [|set_solver]. intros Hp. rewrite <-E. by apply HI. }
    split; [intros m; rewrite !in_atts; auto|]. done. }
  assert (length (c0 :: cs) = length ys + length tl) as Le.
  { assert (length (w_condition_calls ord true mn false fid (c0 :: cs)) = length (c0 :: cs)) as Le by apply calls_length.
    rewrite E, app_length, map_length in Le. lia. }
  exists ys, (length tl). split.
  - rewrite E. f_equal. destruct H3 as [->|(e & -> & He)]; [done|]. cbn [length replicate]. rewrite replicate_length. f_equal.
    destruct He as [?|[_ Hn]]; [done|]. exfalso. by apply Hn.
  - intros i f q1 q2 Hy before. assert (i < length (c0 :: cs)) as Hi by (apply lookup_lt_Some in Hy; lia).
    apply lookup_lt_is_Some_2 in Hi as [c Hc]. destruct (H1 i c _ Hc Hy) as (_ & _ & _ & _ & _ & W). cbn [app] in W. by apply W.
Qed.
Print Assumptions C120_kept.
(** Without changes: the values and the end of the loop over [algorithm2_w_condition]. *)
Theorem C120_unchanged c ord allow mn ge fid ys r m : good c → (∀ k i X, ord k i X ≡ₚ elements X) →
  algorithm2_w_condition c ord allow mn ge fid = (ys, r) →
  w_condition_calls ord allow mn ge fid (replicate m c) =
    resize m Stopped (map Yielded ys ++ [match r with Ok _ => Stopped | Err e => Raised e end]).
Proof. intros Hg Hord E. by apply (w_condition_reading c ord allow mn ge fid ys r Hg Hord E). Qed.
Print Assumptions C120_unchanged.
(** Object 3 gets all attributes; object 1 loses its attributes. *)
Definition ex0 := (set_object_intent ex [] o1).1.
Example C120_case : (∀ p, p ∈ fI (abs ex) → p ∈ fI (abs ex3)) ∧
  w_condition_calls ord_el true 1 false (Q2Qc 1) (replicate 4 ex) =
    [Yielded ({[o1; o2; o3]}, {[sa]}, qdiv 3 5, qdiv 3 5); Yielded ({[o1]}, {[sa; sb]}, qdiv 1 5, qdiv 4 5); Stopped; Stopped] ∧
  w_condition_calls ord_el true 1 false (Q2Qc 1) [ex; ex3; ex3] =
    [Yielded ({[o1; o2; o3]}, {[sa]}, qdiv 3 5, qdiv 3 5); Yielded ({[o1; o3]}, {[sa; sb]}, qdiv 1 5, qdiv 4 5); Stopped] ∧
  w_condition_calls ord_el true 1 false (Q2Qc 1) [ex; ex0; ex0] =
    [Yielded ({[o1; o2; o3]}, {[sa]}, qdiv 3 5, qdiv 3 5); Yielded ({[o2]}, {[sa; sc]}, qdiv 1 5, qdiv 4 5); Stopped].
Proof. split; [|split; [dec|split; dec]]. intros p Hp. assert (fI (abs ex) ⊆ fI (abs ex3)) as H by dec. by apply H. Qed.
(** With a removed cross the exception can occur although all sizes are allowed; with a
    deleted attribute KeyError can. *)
Theorem C120_removed_refuted : ∃ c0 c1, good c0 ∧ good c1 ∧ objs c1 = objs c0 ∧ atts c1 = atts c0 ∧
  Raised (UserException 239) ∈ w_condition_calls ord_el true 0 false (Q2Qc 1) [c0; c1; c1].
Proof.
  exists ex, ex0. split; [exact ex_good|]. split; [|split; [dec|split; [dec|dec]]].
  destruct (set_object_intent_effect ex [] o1) as (c' & E & Hg & _); [apply ex_good|apply ex_good|dec|by intros ? ?%elem_of_nil|]. unfold ex0. by rewrite E.
Qed.
Print Assumptions C120_removed_refuted.
Theorem C120_deleted_refuted : ∃ c0 m, good c0 ∧ m ∈ atts c0 ∧
  Raised KeyError ∈ w_condition_calls ord_el true 1 false (Q2Qc 1) [c0; (delete_attribute c0 m).1].
Proof. exists ex, sb. split; [exact ex_good|]. split; dec. Qed.
Print Assumptions C120_deleted_refuted.
