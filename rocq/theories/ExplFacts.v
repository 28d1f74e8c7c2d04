(** * Facts about the exploration models *)
From Verif Require Import Py Spec PyFacts SpecFacts DgSpec ContextModel ContextSpec ContextOps ContextFacts ContextInit ContextMut ContextMisc ContextEffects
  ContextFinal ClosureModel ClosureFacts DgModel DgFacts DgMain DgCons DgCxt DgFinal AiModel AiFacts AiRound AiFinal ExplModel ExplSpec.

Lemma ftrans_I K g m : (m, g) ∈ fI (ftrans K) ↔ (g, m) ∈ fI K.
Proof.
  cbn. rewrite elem_of_map. split.
  - intros ([g' m'] & [= -> ->] & H). done.
  - intros H. by exists (g, m).
Qed.

(** ** Preservation of an implication *)
Lemma holds_keep K K' i : holds K i →
  (∀ g, g ∈ fG K' →
     (g ∈ fG K ∧ ∀ m, m ∈ i.1 ∪ i.2 → (g, m) ∈ fI K' ↔ (g, m) ∈ fI K) ∨
     (∃ X, respects X i ∧ ∀ m, m ∈ i.1 ∪ i.2 → (g, m) ∈ fI K' ↔ m ∈ X)) →
  holds K' i.
Proof.
  intros H Hk g Hg Hp m Hm. destruct (Hk g Hg) as [[HG HI]|(X & HX & HI)].
  - apply HI; [set_solver|]. apply (H g HG); [|done]. intros m' Hm'. apply HI; [set_solver|]. by apply Hp.
  - apply HI; [set_solver|]. apply HX; [|done]. intros m' Hm'. apply HI; [set_solver|]. by apply Hp.
Qed.
(** A row that violates the implication refutes it. *)
Lemma holds_break K i g X : g ∈ fG K → ¬ respects X i → (∀ m, m ∈ i.1 ∪ i.2 → (g, m) ∈ fI K ↔ m ∈ X) → ¬ holds K i.
Proof.
  intros Hg HX HI H. apply HX. intros Hp m Hm. apply HI; [set_solver|]. apply (H g Hg); [|done].
  intros m' Hm'. apply HI; [set_solver|]. by apply Hp.
Qed.

(** ** Checks *)
Lemma conflict_free_spec L X : conflict_free L X = true ↔ ∀ i, i ∈ L → respects X i.
Proof.
  unfold conflict_free. rewrite forallb_forall. setoid_rewrite <-elem_of_list_In.
  assert (∀ i : fimp, negb (bool_decide (i.1 ∩ X = i.1)) || bool_decide (conclusion i ∩ X = conclusion i) = true ↔ respects X i) as E; [|by setoid_rewrite E].
  intros i. rewrite respects_conclusion, orb_true_iff, negb_true_iff, bool_decide_eq_true, bool_decide_eq_false. split.
  - intros [H|H] Hs; [exfalso; apply H; by apply subseteq_intersection_L|by apply subseteq_intersection_L].
  - intros H. destruct (decide (i.1 ⊆ X)) as [Hs|Hs].
    + right. apply subseteq_intersection_L. by apply H.
    + left. intros E. apply Hs. by apply subseteq_intersection_L.
Qed.
Lemma imp_eqb_respects i j X : imp_eqb i j = true → respects X i ↔ respects X j.
Proof. intros [E1 E2]%imp_eqb_spec. rewrite !respects_conclusion. unfold conclusion. by rewrite E2, E1. Qed.

Lemma unconfirmed_sub C R i : i ∈ unconfirmed C R → i ∈ R.
Proof. unfold unconfirmed. rewrite !elem_of_list_In, List.filter_In. tauto. Qed.
Lemma unconfirmed_entails C R i : entails R i → entails (unconfirmed C R ++ C) i.
Proof.
  intros H X HX. apply H. intros j Hj.
  destruct (existsb (imp_eqb j) C) eqn:E.
  - apply existsb_exists in E as (k & Hk & E). apply (imp_eqb_respects _ _ X E). apply HX.
    apply elem_of_app. right. by apply elem_of_list_In.
  - apply HX. apply elem_of_app. left. unfold unconfirmed. rewrite elem_of_list_In, List.filter_In, E. by rewrite <-elem_of_list_In.
Qed.
Lemma entails_sub L L' i : (∀ j, j ∈ L → j ∈ L') → entails L i → entails L' i.
Proof. intros Hs H X HX. apply H. intros j Hj. by apply HX, Hs. Qed.

(** ** Context changes *)
Lemma copy_context c : good c → ∃ c', mk_context (np c) (npz c) (objs c) (atts c) = Ok c' ∧
  good c' ∧ objs c' = objs c ∧ atts c' = atts c ∧ np c' = np c ∧ abs c' = abs c.
Proof.
  intros [Hw [Ho Ha] Hs]. destruct (mk_context_ok (np c) (npz c) (objs c) (atts c)) as [c' Hc'].
  - by apply wf_rows.
  - intros r [i Hi]%elem_of_list_lookup. by eapply wf_cols.
  - exists c'. split; [done|]. destruct (mk_context_good _ _ _ _ _ Hc' Ho Ha) as (Hg & E1 & E2 & E3).
    + intros E. specialize (Hs E). done.
    + repeat (split; [done|]). unfold abs. by rewrite E1, E2, E3.
Qed.

Lemma set_object_intent_cases c (X : gset name) o : wf c → distinct c →
  (∃ e, set_object_intent c (elements X) o = (c, Err e)) ∨
  (o ∈ objs c ∧ (∀ a, a ∈ X → a ∈ atts c) ∧ ∃ c', set_object_intent c (elements X) o = (c', Ok tt) ∧ good c' ∧
     objs c' = objs c ∧ atts c' = atts c ∧
     ∀ g m, incident c' g m ↔ (g ≠ o ∧ incident c g m) ∨ (g = o ∧ m ∈ X)).
Proof.
  intros Hw Hd. destruct (decide (o ∈ objs c ∧ Forall (λ a, a ∈ atts c) (elements X))) as [[Ho Ha]|Hn].
  - right. rewrite Forall_forall in Ha. setoid_rewrite elem_of_elements in Ha. split; [done|]. split; [done|].
    destruct (set_object_intent_effect c (elements X) o Hw Hd Ho) as (c' & H1 & H2 & H3 & H4 & H5).
    { intros a. rewrite elem_of_elements. auto. }
    exists c'. repeat (split; [done|]). intros g m. rewrite H5, elem_of_elements. done.
  - left. unfold set_object_intent. destruct (mapM (aind c) (elements X)) as [l|e] eqn:E1; cbn [mbind res_bind]; [|by eexists].
    destruct (set_flags (length (atts c)) l) as [row|e]; cbn [mbind res_bind]; [|by eexists].
    destruct (oind c o) as [i|e] eqn:E2; cbn [mbind res_bind]; [|by eexists]. exfalso. apply Hn. split.
    + apply oind_lt in E2; [|done]. by eapply elem_of_list_lookup_2.
    + apply Forall_forall. intros a Ha. destruct (decide (a ∈ atts c)) as [|Hna]; [done|].
      rewrite (mapM_aind_Err c Hw) in E1; [done|]. by exists a.
Qed.
Lemma set_attribute_extent_cases c (X : gset name) a : wf c → distinct c → objs c ≠ [] →
  (∃ e, set_attribute_extent c (elements X) a = (c, Err e)) ∨
  (a ∈ atts c ∧ (∀ g, g ∈ X → g ∈ objs c) ∧ ∃ c', set_attribute_extent c (elements X) a = (c', Ok tt) ∧ good c' ∧
     objs c' = objs c ∧ atts c' = atts c ∧
     ∀ g m, incident c' g m ↔ (m ≠ a ∧ incident c g m) ∨ (m = a ∧ g ∈ X)).
Proof.
  intros Hw Hd Hne. destruct (decide (a ∈ atts c ∧ Forall (λ g, g ∈ objs c) (elements X))) as [[Ho Ha]|Hn].
  - right. rewrite Forall_forall in Ha. setoid_rewrite elem_of_elements in Ha. split; [done|]. split; [done|].
    destruct (set_attribute_extent_effect c (elements X) a Hw Hd Hne Ho) as (c' & H1 & H2 & H3 & H4 & H5).
    { intros g. rewrite elem_of_elements. auto. }
    exists c'. repeat (split; [done|]). intros g m. rewrite H5, elem_of_elements. done.
  - left. unfold set_attribute_extent. destruct (mapM (oind c) (elements X)) as [l|e] eqn:E1; cbn [mbind res_bind]; [|by eexists].
    destruct (set_flags (length (objs c)) l) as [row|e]; cbn [mbind res_bind]; [|by eexists].
    destruct (aind c a) as [i|e] eqn:E2; cbn [mbind res_bind]; [|by eexists]. exfalso. apply Hn. split.
    + apply aind_lt in E2; [|done]. by eapply elem_of_list_lookup_2.
    + apply Forall_forall. intros g Hg. destruct (decide (g ∈ objs c)) as [|Hna]; [done|].
      rewrite (mapM_oind_Err c Hw) in E1; [done|]. by exists g.
Qed.

(** ** The invariant of BasicExploration: attributes *)
Record base (s : bexp) : Prop := Base {
  b_good : good (bcxt s);
  b_cmp : comparable (atts (bcxt s)) = true;
  b_objs : objs (bcxt s) ≠ [];
  b_jam : bjam s = false;
  b_within : within (abs (bcxt s)) (battr s);
  b_valid : valid (abs (bcxt s)) (battr s);
  b_cwithin : within (abs (bcxt s)) (bcattr s);
  b_complete : complete (abs (bcxt s)) (battr s ++ bcattr s) }.

Lemma canonical_facts c sa : good c → comparable (atts c) = true → objs c ≠ [] → sorts sa →
  ∃ R, compute_canonical_basis sa c = Ok R ∧ within (abs c) R ∧ valid (abs c) R ∧ complete (abs c) R.
Proof.
  intros Hg Hc Ho Hs. destruct (canonical_ok c Hg Hc Ho sa Hs) as (R & H1 & H2 & H3 & H4 & _).
  exists R. split; [done|]. split; [|split].
  - intros i Hi. destruct (H2 i Hi) as (e1 & e2 & _). split; [done|]. rewrite e2. apply acl_sub.
  - intros [P C] Hi. destruct (H2 _ Hi) as (e1 & e2 & e3). cbn in *. subst C. apply acl_holds; [done|apply acl_sub|done].
  - exact (canonical_entails _ R H2 H4).
Qed.

Lemma recompute_base sa so s : sorts sa → good (bcxt s) → comparable (atts (bcxt s)) = true → objs (bcxt s) ≠ [] →
  bjam s = false → within (abs (bcxt s)) (bcattr s) →
  let s' := (recompute_basis sa so s).1 in
  base s' ∧ bcxt s' = bcxt s ∧ bcattr s' = bcattr s ∧ bcobj s' = bcobj s.
Proof.
  intros Hs Hg Hc Ho Hj Hw. destruct (canonical_facts _ sa Hg Hc Ho Hs) as (R & HR & H1 & H2 & H3).
  unfold recompute_basis. rewrite HR.
  assert (within (abs (bcxt s)) (unconfirmed (bcattr s) R)) as H4 by (intros i Hi; eapply H1, unconfirmed_sub, Hi).
  assert (valid (abs (bcxt s)) (unconfirmed (bcattr s) R)) as H5 by (intros i Hi; eapply H2, unconfirmed_sub, Hi).
  assert (complete (abs (bcxt s)) (unconfirmed (bcattr s) R ++ bcattr s)) as H6.
  { intros i h1 h2 h3. by apply unconfirmed_entails, H3. }
  destruct (object_basis so (bcxt s)) as [l'|e]; cbn; (split; [by constructor|done]).
Qed.

(** What a mutation does that either fails, leaving the context alone, or succeeds. *)
Lemma mutate_base sa so f s : sorts sa → base s →
  (∃ e, f (bcxt s) = (bcxt s, Err e)) ∨
  (∃ c', f (bcxt s) = (c', Ok tt) ∧ good c' ∧ comparable (atts c') = true ∧ objs c' ≠ [] ∧ fM (abs (bcxt s)) ⊆ fM (abs c')) →
  let s' := (mutate_recompute sa so f s).1 in
  base s' ∧ bcattr s' = bcattr s ∧ bcobj s' = bcobj s ∧ bcxt s' = (f (bcxt s)).1.
Proof.
  intros Hs Hb [[e E]|(c' & E & Hg & Hc & Ho & HM)]; unfold mutate_recompute; rewrite E.
  - cbn. destruct Hb as [?????? ??]. split; [by constructor|done].
  - set (s1 := BExp c' (battr s) (bobj s) (bcattr s) (bcobj s) (bjam s)).
    destruct (recompute_base sa so s1 Hs) as (H1 & H2 & H3 & H4); [done|done|done|apply Hb| |].
    + intros i Hi. destruct (b_cwithin s Hb i Hi) as [e1 e2]. cbn in *. split; [by rewrite e1|by rewrite e2].
    + cbn. split; [exact H1|]. done.
Qed.

(** ** What the mutators do to implications *)
Lemma in_objs c g : g ∈ fG (abs c) ↔ g ∈ objs c.
Proof. cbn. apply elem_of_list_to_set. Qed.
Lemma in_atts c m : m ∈ fM (abs c) ↔ m ∈ atts c.
Proof. cbn. apply elem_of_list_to_set. Qed.
Lemma incident_dom c g m : incident c g m → g ∈ objs c ∧ m ∈ atts c.
Proof. intros (i & j & r & ? & ? & _). split; by eapply elem_of_list_lookup_2. Qed.

Definition over (U : gset name) (i : fimp) : Prop := i.1 ⊆ U ∧ i.2 ⊆ U.
Lemma over_in U i m : over U i → m ∈ i.1 ∪ i.2 → m ∈ U.
Proof. unfold over. intros [H1 H2] [H|H]%elem_of_union; auto. Qed.

Lemma add_object_imps c (X : gset name) o : wf c → distinct c → o ∉ objs c →
  ∃ c', add_object_with_intent c X o = (c', Ok tt) ∧ good c' ∧ objs c' = objs c ++ [o] ∧ atts c' = atts c ∧
    (∀ i, over (fM (abs c)) i → respects X i → holds (abs c) i → holds (abs c') i) ∧
    (∀ i, over (fM (abs c)) i → ¬ respects X i → ¬ holds (abs c') i) ∧
    (∀ i, over (fG (abs c)) i → holds (ftrans (abs c)) i → holds (ftrans (abs c')) i).
Proof.
  intros Hw Hd Hn. destruct (add_object_with_intent_effect c X o Hw Hd Hn) as (c' & H1 & H2 & H3 & H4 & H5).
  exists c'. repeat (split; [done|]).
  assert (∀ i m, over (fM (abs c)) i → m ∈ i.1 ∪ i.2 → (o, m) ∈ fI (abs c') ↔ m ∈ X) as Ho.
  { intros i m Hi Hm. rewrite elem_of_fI, H5. pose proof (over_in _ _ _ Hi Hm) as Hm'%in_atts. split.
    - intros [Hinc|(_ & _ & ?)]; [|done]. apply incident_dom in Hinc as [? _]. done.
    - tauto. }
  split; [|split].
  - intros i Hi HX Hh. apply (holds_keep (abs c)); [done|]. intros g Hg. apply in_objs in Hg. rewrite H3 in Hg.
    apply elem_of_app in Hg as [Hg|Hg].
    + left. split; [by apply in_objs|]. intros m _. rewrite !elem_of_fI, H5. split; [|tauto].
      intros [?|(-> & _)]; [done|done].
    + apply elem_of_list_singleton in Hg as ->. right. exists X. split; [done|]. intros m. by apply Ho.
  - intros i Hi HX. apply (holds_break _ _ o X); [|done|].
    + apply in_objs. rewrite H3. apply elem_of_app. right. by apply elem_of_list_singleton.
    + intros m. by apply Ho.
  - intros i Hi Hh. apply (holds_keep (ftrans (abs c))); [done|]. intros m Hm. left. split.
    + revert Hm. cbn. by rewrite H4.
    + intros g Hg. rewrite !ftrans_I, !elem_of_fI, H5. split; [|tauto].
      intros [?|(-> & _)]; [done|]. by apply (over_in _ _ _ Hi), in_objs in Hg.
Qed.
Lemma add_attribute_imps c (X : gset name) a : wf c → distinct c → objs c ≠ [] → a ∉ atts c →
  ∃ c', add_attribute_with_extent c X a = (c', Ok tt) ∧ good c' ∧ objs c' = objs c ∧ atts c' = atts c ++ [a] ∧
    (∀ i, over (fG (abs c)) i → respects X i → holds (ftrans (abs c)) i → holds (ftrans (abs c')) i) ∧
    (∀ i, over (fG (abs c)) i → ¬ respects X i → ¬ holds (ftrans (abs c')) i) ∧
    (∀ i, over (fM (abs c)) i → holds (abs c) i → holds (abs c') i).
Proof.
  intros Hw Hd Hne Hn. destruct (add_attribute_with_extent_effect c X a Hw Hd Hn) as (c' & H1 & _ & _ & H2 & H3 & H4 & H5).
  exists c'. split; [done|]. split; [by apply H2|]. repeat (split; [done|]).
  assert (∀ i g, over (fG (abs c)) i → g ∈ i.1 ∪ i.2 → (a, g) ∈ fI (ftrans (abs c')) ↔ g ∈ X) as Ho.
  { intros i g Hi Hg. rewrite ftrans_I, elem_of_fI, H5. pose proof (over_in _ _ _ Hi Hg) as Hg'%in_objs. split.
    - intros [Hinc|(_ & _ & ?)]; [|done]. apply incident_dom in Hinc as [_ ?]. done.
    - tauto. }
  split; [|split].
  - intros i Hi HX Hh. apply (holds_keep (ftrans (abs c))); [done|]. intros m Hm. apply in_atts in Hm. rewrite H4 in Hm.
    apply elem_of_app in Hm as [Hm|Hm].
    + left. split; [by apply in_atts|]. intros g _. rewrite !ftrans_I, !elem_of_fI, H5. split; [|tauto].
      intros [?|(-> & _)]; [done|done].
    + apply elem_of_list_singleton in Hm as ->. right. exists X. split; [done|]. intros g. by apply Ho.
  - intros i Hi HX. apply (holds_break _ _ a X); [|done|].
    + apply in_atts. rewrite H4. apply elem_of_app. right. by apply elem_of_list_singleton.
    + intros m. by apply Ho.
  - intros i Hi Hh. apply (holds_keep (abs c)); [done|]. intros g Hg. left. split.
    + revert Hg. cbn. by rewrite H3.
    + intros m Hm. rewrite !elem_of_fI, H5. split; [|tauto].
      intros [?|(-> & _)]; [done|]. by apply (over_in _ _ _ Hi), in_atts in Hm.
Qed.
Lemma edit_object_imps c c' (X : gset name) o : objs c' = objs c →
  (∀ g m, incident c' g m ↔ (g ≠ o ∧ incident c g m) ∨ (g = o ∧ m ∈ X)) →
  ∀ i, respects X i → holds (abs c) i → holds (abs c') i.
Proof.
  intros H3 H5 i HX Hh. apply (holds_keep (abs c)); [done|]. intros g Hg. apply in_objs in Hg. rewrite H3 in Hg.
  destruct (decide (g = o)) as [->|Hne].
  - right. exists X. split; [done|]. intros m _. rewrite elem_of_fI, H5. tauto.
  - left. split; [by apply in_objs|]. intros m _. rewrite !elem_of_fI, H5. tauto.
Qed.
Lemma edit_attribute_imps c c' (X : gset name) a : atts c' = atts c →
  (∀ g m, incident c' g m ↔ (m ≠ a ∧ incident c g m) ∨ (m = a ∧ g ∈ X)) →
  ∀ i, respects X i → holds (ftrans (abs c)) i → holds (ftrans (abs c')) i.
Proof.
  intros H3 H5 i HX Hh. apply (holds_keep (ftrans (abs c))); [done|]. intros m Hm. apply in_atts in Hm. rewrite H3 in Hm.
  destruct (decide (m = a)) as [->|Hne].
  - right. exists X. split; [done|]. intros g _. rewrite ftrans_I, elem_of_fI, H5. tauto.
  - left. split; [by apply in_atts|]. intros g _. rewrite !ftrans_I, !elem_of_fI, H5. tauto.
Qed.

(** ** The calls of BasicExploration: attributes *)
Lemma py_pos_lt n k p : py_pos n k = Some p → p < n.
Proof. unfold py_pos. repeat case_match; intros [= <-]; lia. Qed.
Lemma take_out {A} (l l2 : list A) p x : l !! p = Some x → ∀ y, y ∈ l ++ l2 ↔ y ∈ delete p l ++ l2 ++ [x].
Proof.
  intros H y. rewrite (delete_Permutation l p x H) at 1. rewrite !elem_of_app, elem_of_cons, elem_of_list_singleton. tauto.
Qed.
Lemma delete_sub {A} (l : list A) p y : y ∈ delete p l → y ∈ l.
Proof.
  rewrite !elem_of_list_lookup. intros [i Hi]. destruct (decide (i < p)) as [Hl|Hl].
  - rewrite lookup_delete_lt in Hi by done. by exists i.
  - rewrite lookup_delete_ge in Hi by lia. by exists (S i).
Qed.

Lemma confirm_attr_base k s : base s →
  base (confirm_attribute_implication k s).1 ∧
  (valid (abs (bcxt s)) (bcattr s) → valid (abs (bcxt s)) (bcattr (confirm_attribute_implication k s).1)) ∧
  bcxt (confirm_attribute_implication k s).1 = bcxt s ∧
  bcobj (confirm_attribute_implication k s).1 = bcobj s ∧ bobj (confirm_attribute_implication k s).1 = bobj s.
Proof.
  intros Hb. unfold confirm_attribute_implication. destruct (py_pos (length (battr s)) k) as [p|] eqn:E; [|done].
  apply py_pos_lt in E. destruct (lookup_lt_is_Some_2 _ _ E) as [i Hi]. rewrite Hi. cbn.
  pose proof (elem_of_list_lookup_2 _ _ _ Hi) as Hin. destruct Hb as [h1 h2 h3 h4 h5 h6 h7 h8]. split; [constructor; cbn; try done|split; [|done]].
  - intros j Hj. by eapply h5, delete_sub.
  - intros j Hj. by eapply h6, delete_sub.
  - intros j Hj. apply elem_of_app in Hj as [Hj|Hj]; [by apply h7|]. apply elem_of_list_singleton in Hj as ->. by apply h5.
  - intros j e1 e2 e3. eapply entails_sub, (h8 j e1 e2 e3). intros y Hy. by apply (take_out _ _ _ _ Hi).
  - intros Hv j Hj. apply elem_of_app in Hj as [Hj|Hj]; [by apply Hv|]. apply elem_of_list_singleton in Hj as ->. by apply h6.
Qed.
Lemma confirm_obj_base k s : base s →
  base (confirm_object_implication k s).1 ∧ bcattr (confirm_object_implication k s).1 = bcattr s ∧
  bcxt (confirm_object_implication k s).1 = bcxt s.
Proof.
  intros [h1 h2 h3 h4 h5 h6 h7 h8]. unfold confirm_object_implication. destruct (py_pos (length (bobj s)) k) as [p|]; (split; [by constructor|done]).
Qed.
Lemma counter_check_ok l C X k : counter_check l C X k = Ok tt ↔
  ∃ p i, py_pos (length l) k = Some p ∧ l !! p = Some i ∧ ¬ respects X i ∧ ∀ j, j ∈ C → respects X j.
Proof.
  unfold counter_check. split.
  - destruct (py_pos (length l) k) as [p|] eqn:E; [|done]. cbn. destruct (l !! p) as [i|] eqn:Hi; [|done]. cbn [get_or mbind res_bind].
    case_bool_decide as H1; [done|]. case_bool_decide as H2; [done|]. destruct (conflict_free C X) eqn:H3; [|done]. intros _.
    exists p, i. split; [done|]. split; [done|]. split; [|by apply conflict_free_spec].
    rewrite respects_conclusion. intros H. apply H2. apply subseteq_intersection_L. apply H. by apply subseteq_intersection_L.
  - intros (p & i & E & Hi & Hr & HC). rewrite E. cbn [mbind option_bind]. replace (l !! p) with (Some i). cbn [get_or mbind res_bind].
    rewrite respects_conclusion in Hr. rewrite bool_decide_false, bool_decide_false.
    + by apply conflict_free_spec in HC as ->.
    + intros H. apply Hr. intros _. by apply subseteq_intersection_L.
    + intros H. apply Hr. intros Hs. exfalso. apply H. by apply subseteq_intersection_L.
Qed.
Lemma conflict_check_ok C X : conflict_check C X = Ok tt ↔ ∀ j, j ∈ C → respects X j.
Proof. unfold conflict_check. rewrite <-conflict_free_spec. by destruct (conflict_free C X). Qed.
Lemma guarded_cases {S : Type} chk (s : S) f :
  (chk = Ok tt ∧ guarded chk s f = f s) ∨ (∃ e, chk = Err e ∧ guarded chk s f = (s, Err e)).
Proof. destruct chk as [[]|e]; [by left|right; by exists e]. Qed.

Lemma comparable_snoc l x : comparable (x :: l) = true → comparable (l ++ [x]) = true.
Proof. apply comparable_sub. intros y. rewrite elem_of_app, elem_of_list_singleton, elem_of_cons. tauto. Qed.

Section add.
  Context (sa so : nat → list pre → list pre) (Hs : sorts sa) (s : bexp) (Hb : base s).
  Lemma add_object_base X o : o ∉ objs (bcxt s) →
    let s' := (mutate_recompute sa so (fun c => add_object_with_intent c X o) s).1 in
    base s' ∧ bcattr s' = bcattr s ∧ bcobj s' = bcobj s ∧ objs (bcxt s') = objs (bcxt s) ++ [o] ∧ atts (bcxt s') = atts (bcxt s) ∧
    (∀ i, over (fM (abs (bcxt s))) i → respects X i → holds (abs (bcxt s)) i → holds (abs (bcxt s')) i) ∧
    (∀ i, over (fM (abs (bcxt s))) i → ¬ respects X i → ¬ holds (abs (bcxt s')) i) ∧
    (∀ i, over (fG (abs (bcxt s))) i → holds (ftrans (abs (bcxt s))) i → holds (ftrans (abs (bcxt s'))) i).
  Proof.
    intros Hn. destruct (add_object_imps (bcxt s) X o) as (c' & E & Hg & Ho & Ha & H1 & H2 & H3); [apply Hb|apply Hb|done|].
    destruct (mutate_base sa so (fun c => add_object_with_intent c X o) s Hs Hb) as (e1 & e2 & e3 & e4).
    { right. exists c'. repeat (split; [done|]). rewrite Ha, Ho. split; [apply Hb|]. split; [by destruct (objs (bcxt s))|].
      cbn. by rewrite Ha. }
    cbn in *. rewrite e4, E. cbn. by repeat (split; [done|]).
  Qed.
  Lemma add_attribute_base X a : a ∉ atts (bcxt s) → comparable (a :: atts (bcxt s)) = true →
    let s' := (mutate_recompute sa so (fun c => add_attribute_with_extent c X a) s).1 in
    base s' ∧ bcattr s' = bcattr s ∧ bcobj s' = bcobj s ∧ objs (bcxt s') = objs (bcxt s) ∧ atts (bcxt s') = atts (bcxt s) ++ [a] ∧
    (∀ i, over (fG (abs (bcxt s))) i → respects X i → holds (ftrans (abs (bcxt s))) i → holds (ftrans (abs (bcxt s'))) i) ∧
    (∀ i, over (fG (abs (bcxt s))) i → ¬ respects X i → ¬ holds (ftrans (abs (bcxt s'))) i) ∧
    (∀ i, over (fM (abs (bcxt s))) i → holds (abs (bcxt s)) i → holds (abs (bcxt s')) i).
  Proof.
    intros Hn Hc. destruct (add_attribute_imps (bcxt s) X a) as (c' & E & Hg & Ho & Ha & H1 & H2 & H3); [apply Hb|apply Hb|apply Hb|done|].
    destruct (mutate_base sa so (fun c => add_attribute_with_extent c X a) s Hs Hb) as (e1 & e2 & e3 & e4).
    { right. exists c'. repeat (split; [done|]). rewrite Ha, Ho. split; [by apply comparable_snoc|]. split; [apply Hb|].
      intros m. rewrite !in_atts, Ha, elem_of_app. tauto. }
    cbn in *. rewrite e4, E. cbn. by repeat (split; [done|]).
  Qed.
  Lemma edit_object_base X o :
    let s' := (mutate_recompute sa so (fun c => set_object_intent c (elements X) o) s).1 in
    base s' ∧ bcattr s' = bcattr s ∧ bcobj s' = bcobj s ∧ objs (bcxt s') = objs (bcxt s) ∧ atts (bcxt s') = atts (bcxt s) ∧
    (∀ i, respects X i → holds (abs (bcxt s)) i → holds (abs (bcxt s')) i).
  Proof.
    destruct (set_object_intent_cases (bcxt s) X o) as [[e E]|(_ & _ & c' & E & Hg & Ho & Ha & HI)]; [apply Hb|apply Hb| |].
    - destruct (mutate_base sa so (fun c => set_object_intent c (elements X) o) s Hs Hb) as (e1 & e2 & e3 & e4); [left; by exists e|].
      cbn in *. rewrite e4, E. by repeat (split; [done|]).
    - destruct (mutate_base sa so (fun c => set_object_intent c (elements X) o) s Hs Hb) as (e1 & e2 & e3 & e4).
      { right. exists c'. repeat (split; [done|]). rewrite Ha, Ho. split; [apply Hb|]. split; [apply Hb|]. cbn. by rewrite Ha. }
      cbn in *. rewrite e4, E. cbn. repeat (split; [done|]). by apply (edit_object_imps _ _ X o).
  Qed.
  Lemma edit_attribute_base X a :
    let s' := (mutate_recompute sa so (fun c => set_attribute_extent c (elements X) a) s).1 in
    base s' ∧ bcattr s' = bcattr s ∧ bcobj s' = bcobj s ∧ objs (bcxt s') = objs (bcxt s) ∧ atts (bcxt s') = atts (bcxt s) ∧
    (∀ i, respects X i → holds (ftrans (abs (bcxt s))) i → holds (ftrans (abs (bcxt s'))) i).
  Proof.
    destruct (set_attribute_extent_cases (bcxt s) X a) as [[e E]|(_ & _ & c' & E & Hg & Ho & Ha & HI)]; [apply Hb|apply Hb|apply Hb| |].
    - destruct (mutate_base sa so (fun c => set_attribute_extent c (elements X) a) s Hs Hb) as (e1 & e2 & e3 & e4); [left; by exists e|].
      cbn in *. rewrite e4, E. by repeat (split; [done|]).
    - destruct (mutate_base sa so (fun c => set_attribute_extent c (elements X) a) s Hs Hb) as (e1 & e2 & e3 & e4).
      { right. exists c'. repeat (split; [done|]). rewrite Ha, Ho. split; [apply Hb|]. split; [apply Hb|]. cbn. by rewrite Ha. }
      cbn in *. rewrite e4, E. cbn. repeat (split; [done|]). by apply (edit_attribute_imps _ _ X a).
  Qed.

  Lemma step_attr o : any_call s o →
    let s' := (bstep sa so o s).1 in
    base s' ∧ (¬ is_edit_attribute o → valid (abs (bcxt s)) (bcattr s) → valid (abs (bcxt s')) (bcattr s')).
  Proof.
    intros [Ho Ha]. unfold bstep. rewrite (b_jam s Hb). destruct o as [k|k|o X k|a X k|X o|X a|X a|X o]; cbn in Ho, Ha |- *.
    - destruct (confirm_attr_base k s Hb) as (H1 & H2 & -> & _). split; [done|]. by intros _.
    - destruct (confirm_obj_base k s Hb) as (H1 & -> & ->). done.
    - destruct (guarded_cases (counter_check (battr s) (bcattr s) X k) s (mutate_recompute sa so (λ c, add_object_with_intent c X o)))
        as [[Hchk ->]|(e & _ & ->)]; [|done].
      apply counter_check_ok in Hchk as (p & i & _ & _ & _ & Hr).
      destruct (add_object_base X o Ho) as (H1 & -> & _ & _ & _ & H2 & _). split; [done|]. intros _ Hv j Hj.
      apply H2; [by apply (b_cwithin s Hb)|by apply Hr|by apply Hv].
    - destruct (guarded_cases (counter_check (bobj s) (bcobj s) X k) s (mutate_recompute sa so (λ c, add_attribute_with_extent c X a)))
        as [[_ ->]|(e & _ & ->)]; [|done].
      destruct Ha as [Ha Hc]. destruct (add_attribute_base X a Ha Hc) as (H1 & -> & _ & _ & _ & _ & _ & H2). split; [done|]. intros _ Hv j Hj.
      apply H2; [by apply (b_cwithin s Hb)|by apply Hv].
    - destruct (guarded_cases (conflict_check (bcattr s) X) s (mutate_recompute sa so (λ c, add_object_with_intent c X o)))
        as [[Hchk ->]|(e & _ & ->)]; [|done]. rewrite conflict_check_ok in Hchk.
      destruct (add_object_base X o Ho) as (H1 & -> & _ & _ & _ & H2 & _). split; [done|]. intros _ Hv j Hj.
      apply H2; [by apply (b_cwithin s Hb)|by apply Hchk|by apply Hv].
    - destruct (guarded_cases (conflict_check (bcobj s) X) s (mutate_recompute sa so (λ c, add_attribute_with_extent c X a)))
        as [[_ ->]|(e & _ & ->)]; [|done].
      destruct Ha as [Ha Hc]. destruct (add_attribute_base X a Ha Hc) as (H1 & -> & _ & _ & _ & _ & _ & H2). split; [done|]. intros _ Hv j Hj.
      apply H2; [by apply (b_cwithin s Hb)|by apply Hv].
    - destruct (guarded_cases (conflict_check (bcobj s) X) s (mutate_recompute sa so (λ c, set_attribute_extent c (elements X) a)))
        as [[_ ->]|(e & _ & ->)]; [|done].
      destruct (edit_attribute_base X a) as (H1 & _). split; [done|]. intros []. done.
    - destruct (guarded_cases (conflict_check (bcattr s) X) s (mutate_recompute sa so (λ c, set_object_intent c (elements X) o)))
        as [[Hchk ->]|(e & _ & ->)]; [|done]. rewrite conflict_check_ok in Hchk.
      destruct (edit_object_base X o) as (H1 & -> & _ & _ & _ & H2). split; [done|]. intros _ Hv j Hj.
      apply H2; [by apply Hchk|by apply Hv].
  Qed.
End add.

Lemma new_base sa so c0 s : sorts sa → good c0 → comparable (atts c0) = true → objs c0 ≠ [] →
  new_exploration sa so c0 = Ok s → base s ∧ bcattr s = [] ∧ bcobj s = [] ∧ abs (bcxt s) = abs c0 ∧
    objs (bcxt s) = objs c0 ∧ atts (bcxt s) = atts c0 ∧ object_basis so (bcxt s) = Ok (bobj s).
Proof.
  intros Hs Hg Hc Ho H. destruct (copy_context c0 Hg) as (c & Ec & Hgc & Eo & Ea & _ & Eabs).
  unfold new_exploration in H. rewrite Ec in H. cbn [mbind res_bind] in H. rewrite <-Ea in Hc. rewrite <-Eo in Ho.
  destruct (canonical_facts c sa Hgc Hc Ho Hs) as (R & HR & H1 & H2 & H3). rewrite HR in H. cbn [mbind res_bind] in H.
  destruct (object_basis so c) as [l'|e] eqn:El; cbn [mbind res_bind] in H; [|done]. apply Ok_eq in H as <-. cbn.
  split; [|done]. constructor; try done; cbn; [by intros i ?%elem_of_nil|by rewrite app_nil_r].
Qed.
Lemma breach_base (allow : bexp → bop → Prop) c0 s : (∀ s o, allow s o → any_call s o) → good c0 → comparable (atts c0) = true → objs c0 ≠ [] →
  breach allow c0 s → base s ∧ ((∀ s o, allow s o → ¬ is_edit_attribute o) → valid (abs (bcxt s)) (bcattr s)).
Proof.
  intros Ha Hg Hc Ho. induction 1 as [sa so s Hsa _ H|sa so s o Hsa _ Hr [IH1 IH2] Hal].
  - destruct (new_base sa so c0 s Hsa Hg Hc Ho H) as (Hb & E & _). split; [done|]. intros _. rewrite E. by intros i ?%elem_of_nil.
  - destruct (step_attr sa so Hsa s IH1 o (Ha _ _ Hal)) as [H1 H2]. split; [done|]. intros Hne. apply H2; [by eapply Hne|by apply IH2].
Qed.

(** ** The same for objects *)
Record obase (s : bexp) : Prop := OBase {
  o_base : base s;
  o_cmp : comparable (objs (bcxt s)) = true;
  o_atts : atts (bcxt s) ≠ [];
  o_within : within (ftrans (abs (bcxt s))) (bobj s);
  o_valid : valid (ftrans (abs (bcxt s))) (bobj s);
  o_cwithin : within (ftrans (abs (bcxt s))) (bcobj s);
  o_complete : complete (ftrans (abs (bcxt s))) (bobj s ++ bcobj s) }.

Lemma object_facts c so : good c → comparable (objs c) = true → atts c ≠ [] → sorts so →
  ∃ R, object_basis so c = Ok R ∧ within (ftrans (abs c)) R ∧ valid (ftrans (abs c)) R ∧ complete (ftrans (abs c)) R.
Proof.
  intros Hg Hc Ho Hs. destruct (transpose_spec c (good_wf _ Hg) (good_distinct _ Hg)) as (t & Et & Hgt & Eo & Ea & _).
  pose proof (transpose_abs c t (good_wf _ Hg) (good_distinct _ Hg) Et) as Eabs.
  unfold object_basis. rewrite Et. cbn [mbind res_bind].
  destruct (canonical_facts t so Hgt) as (R & HR & H1 & H2 & H3); [by rewrite Ea|by rewrite Eo|done|].
  exists R. by rewrite <-Eabs.
Qed.
Lemma recompute_obj sa so s : sorts so → base (recompute_basis sa so s).1 → good (bcxt s) → comparable (objs (bcxt s)) = true → atts (bcxt s) ≠ [] →
  within (ftrans (abs (bcxt s))) (bcobj s) → bcxt (recompute_basis sa so s).1 = bcxt s →
  is_ok (compute_canonical_basis sa (bcxt s)) = true →
  obase (recompute_basis sa so s).1 ∧ (recompute_basis sa so s).2 = Ok tt.
Proof.
  intros Hs Hb Hg Hc Ha Hw _ Hok. destruct (object_facts _ so Hg Hc Ha Hs) as (R & HR & H1 & H2 & H3).
  revert Hb. unfold recompute_basis. destruct (compute_canonical_basis sa (bcxt s)); [|done]. rewrite HR. cbn. intros Hb.
  split; [|done]. constructor; cbn; try done.
  - intros i Hi. eapply H1, unconfirmed_sub, Hi.
  - intros i Hi. eapply H2, unconfirmed_sub, Hi.
  - intros i h1 h2 h3. by apply unconfirmed_entails, H3.
Qed.
Lemma mutate_obj sa so f s : sorts sa → sorts so → obase s → base (mutate_recompute sa so f s).1 →
  (∃ e, f (bcxt s) = (bcxt s, Err e)) ∨
  (∃ c', f (bcxt s) = (c', Ok tt) ∧ good c' ∧ comparable (atts c') = true ∧ comparable (objs c') = true ∧ atts c' ≠ [] ∧
     objs c' ≠ [] ∧ fG (abs (bcxt s)) ⊆ fG (abs c')) →
  obase (mutate_recompute sa so f s).1 ∧
  (is_ok (f (bcxt s)).2 = true → (mutate_recompute sa so f s).2 = Ok tt).
Proof.
  intros Hsa Hso Ho Hb' [[e E]|(c' & E & Hg & Hca & Hc & Ha & Hoc & HG)]; revert Hb'; unfold mutate_recompute; rewrite E.
  - cbn. intros _. destruct Ho as [[?????? ??]? ? ? ? ?]. split; [|done]. by constructor; [constructor|..].
  - intros Hb'. set (s1 := BExp c' (battr s) (bobj s) (bcattr s) (bcobj s) (bjam s)) in *.
    destruct (recompute_obj sa so s1 Hso Hb') as (H1 & H2); [done|done|done| | | |done].
    + intros i Hi. destruct (o_cwithin s Ho i Hi) as [e1 e2]. cbn in *. split; [by rewrite e1|by rewrite e2].
    + unfold recompute_basis. destruct (compute_canonical_basis sa (bcxt s1)); [|done]. by destruct (object_basis so (bcxt s1)).
    + destruct (canonical_facts c' sa Hg Hca Hoc Hsa) as (R & HR & _). cbn. by rewrite HR.
Qed.
Lemma confirm_obj_obase k s : obase s →
  obase (confirm_object_implication k s).1 ∧
  (valid (ftrans (abs (bcxt s))) (bcobj s) → valid (ftrans (abs (bcxt s))) (bcobj (confirm_object_implication k s).1)).
Proof.
  intros Hb. destruct (confirm_obj_base k s (o_base s Hb)) as (Hb' & _ & _). revert Hb'.
  unfold confirm_object_implication. destruct (py_pos (length (bobj s)) k) as [p|] eqn:E; [|done].
  apply py_pos_lt in E. destruct (lookup_lt_is_Some_2 _ _ E) as [i Hi]. rewrite Hi. cbn. intros Hb'.
  pose proof (elem_of_list_lookup_2 _ _ _ Hi) as Hin. destruct Hb as [h1 h2 h3 h5 h6 h7 h8]. split; [constructor; cbn; try done|].
  - intros j Hj. by eapply h5, delete_sub.
  - intros j Hj. by eapply h6, delete_sub.
  - intros j Hj. apply elem_of_app in Hj as [Hj|Hj]; [by apply h7|]. apply elem_of_list_singleton in Hj as ->. by apply h5.
  - intros j e1 e2 e3. eapply entails_sub, (h8 j e1 e2 e3). intros y Hy. by apply (take_out _ _ _ _ Hi).
  - intros Hv j Hj. apply elem_of_app in Hj as [Hj|Hj]; [by apply Hv|]. apply elem_of_list_singleton in Hj as ->. by apply h6.
Qed.
Lemma confirm_attr_obase k s : obase s → obase (confirm_attribute_implication k s).1.
Proof.
  intros Hb. destruct (confirm_attr_base k s (o_base s Hb)) as (Hb' & _ & E & E1 & E2).
  destruct Hb as [h1 h2 h3 h5 h6 h7 h8]. by constructor; rewrite ?E, ?E1, ?E2.
Qed.

Section addo.
  Context (sa so : nat → list pre → list pre) (Hsa : sorts sa) (Hso : sorts so) (s : bexp) (Hb : obase s).
  Lemma add_object_obase X o : o ∉ objs (bcxt s) → comparable (o :: objs (bcxt s)) = true →
    obase (mutate_recompute sa so (fun c => add_object_with_intent c X o) s).1 ∧
    (mutate_recompute sa so (fun c => add_object_with_intent c X o) s).2 = Ok tt.
  Proof.
    intros Hn Hc. destruct (add_object_imps (bcxt s) X o) as (c' & E & Hg & Ho & Ha & _); [apply Hb|apply Hb|done|].
    destruct (add_object_base sa so Hsa s (o_base s Hb) X o Hn) as (H1 & _).
    destruct (mutate_obj sa so (fun c => add_object_with_intent c X o) s Hsa Hso Hb H1) as [H2 H3].
    { right. exists c'. repeat (split; [done|]). rewrite Ha, Ho. split; [apply Hb|]. split; [by apply comparable_snoc|]. split; [apply Hb|].
      split; [by destruct (objs (bcxt s))|]. intros g. rewrite !in_objs, Ho, elem_of_app. tauto. }
    split; [done|]. apply H3. by rewrite E.
  Qed.
  Lemma add_attribute_obase X a : a ∉ atts (bcxt s) → comparable (a :: atts (bcxt s)) = true →
    obase (mutate_recompute sa so (fun c => add_attribute_with_extent c X a) s).1 ∧
    (mutate_recompute sa so (fun c => add_attribute_with_extent c X a) s).2 = Ok tt.
  Proof.
    intros Hn Hc. destruct (add_attribute_imps (bcxt s) X a) as (c' & E & Hg & Ho & Ha & _); [apply Hb|apply Hb|apply Hb|done|].
    destruct (add_attribute_base sa so Hsa s (o_base s Hb) X a Hn Hc) as (H1 & _).
    destruct (mutate_obj sa so (fun c => add_attribute_with_extent c X a) s Hsa Hso Hb H1) as [H2 H3].
    { right. exists c'. repeat (split; [done|]). rewrite Ha, Ho. split; [by apply comparable_snoc|]. split; [apply Hb|].
      split; [by destruct (atts (bcxt s))|]. split; [apply Hb|]. intros g. by rewrite !in_objs, Ho. }
    split; [done|]. apply H3. by rewrite E.
  Qed.
  Lemma edit_object_obase (X : gset name) o : obase (mutate_recompute sa so (fun c => set_object_intent c (elements X) o) s).1.
  Proof.
    destruct (edit_object_base sa so Hsa s (o_base s Hb) X o) as (H1 & _).
    apply (mutate_obj sa so (fun c => set_object_intent c (elements X) o) s Hsa Hso Hb H1).
    destruct (set_object_intent_cases (bcxt s) X o) as [[e E]|(_ & _ & c' & E & Hg & Ho & Ha & HI)]; [apply Hb|apply Hb| |]; [by left; exists e|].
    right. exists c'. repeat (split; [done|]). rewrite Ha, Ho. do 4 (split; [apply Hb|]). intros g. by rewrite !in_objs, Ho.
  Qed.
  Lemma edit_attribute_obase (X : gset name) a : obase (mutate_recompute sa so (fun c => set_attribute_extent c (elements X) a) s).1.
  Proof.
    destruct (edit_attribute_base sa so Hsa s (o_base s Hb) X a) as (H1 & _).
    apply (mutate_obj sa so (fun c => set_attribute_extent c (elements X) a) s Hsa Hso Hb H1).
    destruct (set_attribute_extent_cases (bcxt s) X a) as [[e E]|(_ & _ & c' & E & Hg & Ho & Ha & HI)]; [apply Hb|apply Hb|apply Hb| |]; [by left; exists e|].
    right. exists c'. repeat (split; [done|]). rewrite Ha, Ho. do 4 (split; [apply Hb|]). intros g. by rewrite !in_objs, Ho.
  Qed.

  Lemma step_obj o : any_call2 s o →
    let s' := (bstep sa so o s).1 in
    obase s' ∧ (¬ is_edit_object o → valid (ftrans (abs (bcxt s))) (bcobj s) → valid (ftrans (abs (bcxt s'))) (bcobj s')).
  Proof.
    intros [[Ho Ha] Hc]. pose proof (o_base s Hb) as Hbb. unfold bstep. rewrite (b_jam s Hbb).
    destruct o as [k|k|o X k|a X k|X o|X a|X a|X o]; cbn in Ho, Ha, Hc |- *.
    - split; [by apply confirm_attr_obase|]. by destruct (confirm_attr_base k s Hbb) as (_ & _ & -> & -> & _).
    - destruct (confirm_obj_obase k s Hb) as (H1 & H2). split; [done|]. destruct (confirm_obj_base k s Hbb) as (_ & _ & ->). by intros _.
    - destruct (guarded_cases (counter_check (battr s) (bcattr s) X k) s (mutate_recompute sa so (λ c, add_object_with_intent c X o)))
        as [[_ ->]|(e & _ & ->)]; [|done].
      split; [by apply add_object_obase|].
      destruct (add_object_base sa so Hsa s Hbb X o Ho) as (H1 & _ & -> & _ & _ & _ & _ & H2). intros _ Hv j Hj.
      apply H2; [by apply (o_cwithin s Hb)|by apply Hv].
    - destruct (guarded_cases (counter_check (bobj s) (bcobj s) X k) s (mutate_recompute sa so (λ c, add_attribute_with_extent c X a)))
        as [[Hchk ->]|(e & _ & ->)]; [|done]. destruct Ha as [Ha Hca].
      apply counter_check_ok in Hchk as (p & i & _ & _ & _ & Hr). split; [by apply add_attribute_obase|].
      destruct (add_attribute_base sa so Hsa s Hbb X a Ha Hca) as (H1 & _ & -> & _ & _ & H2 & _). intros _ Hv j Hj.
      apply H2; [by apply (o_cwithin s Hb)|by apply Hr|by apply Hv].
    - destruct (guarded_cases (conflict_check (bcattr s) X) s (mutate_recompute sa so (λ c, add_object_with_intent c X o)))
        as [[_ ->]|(e & _ & ->)]; [|done].
      split; [by apply add_object_obase|].
      destruct (add_object_base sa so Hsa s Hbb X o Ho) as (H1 & _ & -> & _ & _ & _ & _ & H2). intros _ Hv j Hj.
      apply H2; [by apply (o_cwithin s Hb)|by apply Hv].
    - destruct (guarded_cases (conflict_check (bcobj s) X) s (mutate_recompute sa so (λ c, add_attribute_with_extent c X a)))
        as [[Hchk ->]|(e & _ & ->)]; [|done]. destruct Ha as [Ha Hca]. rewrite conflict_check_ok in Hchk.
      split; [by apply add_attribute_obase|].
      destruct (add_attribute_base sa so Hsa s Hbb X a Ha Hca) as (H1 & _ & -> & _ & _ & H2 & _). intros _ Hv j Hj.
      apply H2; [by apply (o_cwithin s Hb)|by apply Hchk|by apply Hv].
    - destruct (guarded_cases (conflict_check (bcobj s) X) s (mutate_recompute sa so (λ c, set_attribute_extent c (elements X) a)))
        as [[Hchk ->]|(e & _ & ->)]; [|done]. rewrite conflict_check_ok in Hchk.
      split; [apply edit_attribute_obase|]. intros _ Hv j Hj.
      destruct (edit_attribute_base sa so Hsa s Hbb X a) as (_ & _ & E & _ & _ & H2). rewrite E in Hj.
      apply H2; [by apply Hchk|by apply Hv].
    - destruct (guarded_cases (conflict_check (bcattr s) X) s (mutate_recompute sa so (λ c, set_object_intent c (elements X) o)))
        as [[_ ->]|(e & _ & ->)]; [|done].
      split; [apply edit_object_obase|]. intros []. done.
  Qed.
End addo.

Lemma breach_obase (allow : bexp → bop → Prop) c0 s : (∀ s o, allow s o → any_call2 s o) → good c0 → comparable (atts c0) = true → objs c0 ≠ [] →
  comparable (objs c0) = true → atts c0 ≠ [] →
  breach allow c0 s → obase s ∧ ((∀ s o, allow s o → ¬ is_edit_object o) → valid (ftrans (abs (bcxt s))) (bcobj s)).
Proof.
  intros Ha Hg Hc Ho Hc2 Ha2. induction 1 as [sa so s Hsa Hso H|sa so s o Hsa Hso Hr [IH1 IH2] Hal].
  - destruct (new_base sa so c0 s Hsa Hg Hc Ho H) as (Hb & _ & E & Eabs & Eo & Ea & Eb).
    split; [|intros _; rewrite E; by intros i ?%elem_of_nil].
    destruct (object_facts (bcxt s) so) as (R & HR & H1 & H2 & H3); [apply Hb|by rewrite Eo|by rewrite Ea|done|].
    rewrite Eb in HR. apply Ok_eq in HR as <-. constructor; rewrite ?E, ?Eo, ?Ea; try done.
    + by intros i ?%elem_of_nil.
    + by rewrite app_nil_r.
  - destruct (step_obj sa so Hsa Hso s IH1 o (Ha _ _ Hal)) as [H1 H2]. split; [done|]. intros Hne. apply H2; [by eapply Hne|by apply IH2].
Qed.
Lemma new_succeeds sa so c0 : sorts sa → sorts so → good c0 → comparable (atts c0) = true → objs c0 ≠ [] → comparable (objs c0) = true → atts c0 ≠ [] →
  ∃ s, new_exploration sa so c0 = Ok s.
Proof.
  intros Hsa Hso Hg Hc Ho Hc2 Ha2. destruct (copy_context c0 Hg) as (c & Ec & Hgc & Eo & Ea & _).
  unfold new_exploration. rewrite Ec. cbn [mbind res_bind]. rewrite <-Ea in Hc, Ha2. rewrite <-Eo in Ho, Hc2.
  destruct (canonical_facts c sa Hgc Hc Ho Hsa) as (R & -> & _). cbn [mbind res_bind].
  destruct (object_facts c so Hgc Hc2 Ha2 Hso) as (R' & -> & _). by eexists.
Qed.
