(** * Facts about pattern exploration *)
From Verif Require Import Py Spec PyFacts SpecFacts ContextModel ContextSpec ContextOps ContextFacts ContextInit ContextMut ContextMisc ContextEffects
  ContextReduce ContextFinal LatticeModel LatticeSpec NorrisFacts LatticeFacts ExplFacts PatternModel PatternSpec.

Record pinv (s : pexp) : Prop := PInv {
  q_pos : good (ppos s);
  q_neg : good (pneg s);
  q_atts : (list_to_set (atts (ppos s)) : gset name) = list_to_set (atts (pneg s));
  q_conf : ∀ P, P ∈ pconf s → P ⊆ list_to_set (atts (ppos s)) ∧ occurs (ppos s) P }.

Lemma same_atts s m : pinv s → m ∈ atts (ppos s) ↔ m ∈ atts (pneg s).
Proof. intros H. rewrite <-!(elem_of_list_to_set (C:=gset name)), (q_atts s H). done. Qed.
Lemma aclosure_all c p : good c → (∀ x, x ∈ p → x ∈ atts c) →
  acl (abs c) (list_to_set p) = list_to_set (atts c) ↔ ∀ g, g ∈ objs c → has_all c g (list_to_set p) → is_full c g.
Proof.
  intros Hg Hp. split.
  - intros E g Hgo Hh m Hm. assert (m ∈ acl (abs c) (list_to_set p)) as H by (rewrite E; by apply elem_of_list_to_set).
    unfold acl in H. apply elem_of_up in H as [_ H]. apply elem_of_fI, H. apply elem_of_down. split; [by apply in_objs|].
    intros m' Hm'. apply elem_of_fI. by apply Hh.
  - intros H. apply set_eq. intros m. unfold acl. rewrite elem_of_up, in_atts, elem_of_list_to_set. split; [tauto|].
    intros Hm. split; [done|]. intros g [Hgo Hd]%elem_of_down. apply elem_of_fI. apply H; [by apply in_objs| |done].
    intros m' Hm'. by apply elem_of_fI, Hd.
Qed.
Lemma not_all c p : good c → (∀ x, x ∈ p → x ∈ atts c) →
  acl (abs c) (list_to_set p) ≠ list_to_set (atts c) → occurs c (list_to_set p).
Proof.
  intros Hg Hp E. destruct (set_choose_or_empty ((list_to_set (atts c) : gset name) ∖ acl (abs c) (list_to_set p))) as [[m Hm]|He].
  - apply elem_of_difference in Hm as [Hm Hn]. apply elem_of_list_to_set in Hm.
    destruct (set_choose_or_empty (filter (λ g, (g, m) ∉ fI (abs c)) (down (abs c) (list_to_set p)))) as [[g Hgf]|He].
    + apply elem_of_filter in Hgf as [Hng [Hgo Hd]%elem_of_down]. exists g. split; [by apply in_objs|]. split.
      * intros m' Hm'. by apply elem_of_fI, Hd.
      * intros Hf. apply Hng, elem_of_fI. by apply Hf.
    + exfalso. apply Hn. unfold acl. apply elem_of_up. split; [by apply in_atts|]. intros g Hgd.
      destruct (decide ((g, m) ∈ fI (abs c))) as [|Hng]; [done|]. exfalso. apply (not_elem_of_empty (C:=gset name) g). rewrite <-He. by apply elem_of_filter.
  - exfalso. apply E. apply set_eq. intros m. split.
    + intros H. unfold acl in H. apply elem_of_up in H as [H _]. by rewrite elem_of_list_to_set, <-in_atts.
    + intros H. destruct (decide (m ∈ acl (abs c) (list_to_set p))); [done|]. exfalso. apply (not_elem_of_empty (C:=gset name) m). rewrite <-He. by apply elem_of_difference.
Qed.
Lemma confirm_cases p s : pinv s →
  ((∃ x, x ∈ p ∧ x ∉ atts (ppos s)) ∧ confirm_pattern p s = (s, Err KeyError)) ∨
  ((∀ x, x ∈ p → x ∈ atts (ppos s)) ∧ ¬ occurs (ppos s) (list_to_set p) ∧ confirm_pattern p s = (s, Err NotAPositivePattern)) ∨
  ((∀ x, x ∈ p → x ∈ atts (ppos s)) ∧ occurs (ppos s) (list_to_set p) ∧ occurs (pneg s) (list_to_set p) ∧
     confirm_pattern p s = (s, Err NotANegativePattern)) ∨
  ((∀ x, x ∈ p → x ∈ atts (ppos s)) ∧ occurs (ppos s) (list_to_set p) ∧ ¬ occurs (pneg s) (list_to_set p) ∧
     confirm_pattern p s = (PExp (ppos s) (pneg s) (pconf s ++ [list_to_set p]), Ok tt)).
Proof.
  intros H. unfold confirm_pattern. destruct (decide (Forall (λ x, x ∈ atts (ppos s)) p)) as [Hp|Hp].
  2:{ left. apply not_Forall_Exists in Hp; [|apply _]. apply Exists_exists in Hp as (x & Hx & Hn).
      split; [by exists x|]. rewrite aclosure_KeyError; [done|apply H|by exists x]. }
  rewrite Forall_forall in Hp. right. assert (∀ x, x ∈ p → x ∈ atts (pneg s)) as Hp'. { intros x Hx. by apply (same_atts s x H), Hp. }
  assert (∀ c : context, good c → (∀ x, x ∈ p → x ∈ atts c) → 
    (acl (abs c) (list_to_set p) = list_to_set (atts c) ∧ ¬ occurs c (list_to_set p)) ∨
    (acl (abs c) (list_to_set p) ≠ list_to_set (atts c) ∧ occurs c (list_to_set p))) as Hdec.
  { intros c Hg Hc. destruct (decide (acl (abs c) (list_to_set p) = list_to_set (atts c))) as [E|E]; [left|right]; (split; [done|]).
    - intros (g & H1 & H2 & H3). apply H3. by eapply aclosure_all.
    - by apply not_all. }
  rewrite aclosure_spec by (apply H || done). destruct (Hdec (ppos s)) as [[E Ho]|[E Ho]]; [apply H|done| |].
  - left. by rewrite bool_decide_true.
  - right. rewrite bool_decide_false by done. rewrite aclosure_spec by (apply H || done).
    destruct (Hdec (pneg s)) as [[E' Ho']|[E' Ho']]; [apply H|done| |].
    + right. by rewrite bool_decide_false by (by intros ?).
    + left. by rewrite bool_decide_true.
Qed.

(** ** Histories *)
Lemma occurs_add c c' X o P : good c → o ∉ objs c → add_object_with_intent c X o = (c', Ok tt) → occurs c P → occurs c' P.
Proof.
  intros Hg Hn E (g & H1 & H2 & H3). destruct (add_object_with_intent_effect c X o) as (c2 & E2 & _ & Ho & Ha & HI); [apply Hg|apply Hg|done|].
  rewrite E in E2. injection E2 as <-. exists g. split; [rewrite Ho; apply elem_of_app; by left|]. split.
  - intros m Hm. apply HI. left. by apply H2.
  - intros Hf. apply H3. intros m Hm. destruct (proj1 (HI g m)) as [?|(-> & _)]; [by apply Hf; rewrite Ha|done|done].
Qed.
Lemma pstep_inv o s : pinv s → pattern_call s o → pinv (pstep o s).1.
Proof.
  intros H Hc. destruct o as [p|o X pat|o X]; cbn [pstep pattern_call] in *.
  - destruct (confirm_cases p s H) as [[_ ->]|[(_ & _ & ->)|[(_ & _ & _ & ->)|(H1 & H2 & H3 & ->)]]]; [done..|]. destruct H as [h1 h2 h3 h4].
    constructor; cbn; [done..|]. intros P HP. apply elem_of_app in HP as [HP|HP]; [by apply h4|]. apply elem_of_list_singleton in HP as ->.
    split; [|done]. intros x Hx. rewrite elem_of_list_to_set in *. by apply H1.
  - unfold add_negative_example. destruct (match pat with None => _ | _ => _ end); [done|].
    destruct (add_object_with_intent_effect (pneg s) X o) as (c2 & E2 & Hg & Ho & Ha & HI); [apply H|apply H|done|]. rewrite E2. cbn.
    destruct H as [h1 h2 h3 h4]. constructor; cbn; [done|done|by rewrite Ha|done].
  - unfold add_positive_example.
    destruct (add_object_with_intent_effect (ppos s) X o) as (c2 & E2 & Hg & Ho & Ha & HI); [apply H|apply H|done|]. rewrite E2. cbn.
    destruct H as [h1 h2 h3 h4]. constructor; cbn; [done|done|by rewrite Ha|]. intros P HP. rewrite Ha. split; [by apply h4|].
    eapply (occurs_add (ppos s)); [done|done|done|]. by apply h4.
Qed.
Lemma new_patterns_ok cp cn : good cp → good cn →
  ((list_to_set (atts cp) : gset name) ≠ list_to_set (atts cn) ∧ new_patterns cp cn = Err AttributeMismatch) ∨
  ∃ s, new_patterns cp cn = Ok s ∧ pinv s ∧ pconf s = [] ∧ abs (ppos s) = abs cp ∧ abs (pneg s) = abs cn.
Proof.
  intros Hp Hn. unfold new_patterns. case_bool_decide as E; [by left|]. right.
  destruct (copy_context cp Hp) as (p & -> & H1 & H2 & H3 & H4 & H5). destruct (copy_context cn Hn) as (n & -> & J1 & J2 & J3 & J4 & J5).
  cbn. eexists. split; [done|]. split; [|done]. constructor; cbn; [done|done|by rewrite H3, J3|]. intros P HP. by apply not_elem_of_nil in HP.
Qed.
Lemma preach_inv cp cn s : good cp → good cn → preach cp cn s → pinv s.
Proof.
  intros Hp Hn H. induction H as [s E|s o H IH Hc]; [|by apply pstep_inv].
  destruct (new_patterns_ok cp cn Hp Hn) as [[_ E2]|(s' & E2 & Hi & _)]; rewrite E in E2; [done|]. injection E2 as <-. done.
Qed.
Lemma add_negative_cases o X pat s : pinv s → o ∉ objs (pneg s) →
  ((∃ p, pat = Some p ∧ ¬ (list_to_set p : gset name) ⊆ X) ∧ add_negative_example o X pat s = (s, Err NotNegativeExample)) ∨
  ((∀ p, pat = Some p → (list_to_set p : gset name) ⊆ X) ∧ ∃ c', add_negative_example o X pat s = (PExp (ppos s) c' (pconf s), Ok tt) ∧
    good c' ∧ objs c' = objs (pneg s) ++ [o] ∧ atts c' = atts (pneg s) ∧
    ∀ g m, incident c' g m ↔ incident (pneg s) g m ∨ (g = o ∧ m ∈ atts (pneg s) ∧ m ∈ X)).
Proof.
  intros H Hn. unfold add_negative_example.
  destruct (add_object_with_intent_effect (pneg s) X o) as (c2 & E2 & Hg & Ho & Ha & HI); [apply H|apply H|done|]. rewrite E2.
  assert (∀ p : list name, (list_to_set p : gset name) ∖ X ≠ ∅ ↔ ¬ (list_to_set p : gset name) ⊆ X) as Hs.
  { intros p. split; intros H1 H2; apply H1; by apply subseteq_empty_difference_L || set_solver. }
  destruct pat as [p|]; cbn.
  - destruct (bool_decide (list_to_set p ∖ X ≠ ∅)) eqn:E.
    + left. split; [|done]. exists p. split; [done|]. apply Hs. by apply bool_decide_eq_true in E.
    + right. apply bool_decide_eq_false in E. split; [|by exists c2]. intros ? [= <-]. rewrite Hs in E. by apply dec_stable in E.
  - right. split; [done|]. by exists c2.
Qed.
Lemma add_positive_effect o X s : pinv s → o ∉ objs (ppos s) →
  ∃ c', add_positive_example o X s = (PExp c' (pneg s) (pconf s), Ok tt) ∧
    good c' ∧ objs c' = objs (ppos s) ++ [o] ∧ atts c' = atts (ppos s) ∧
    ∀ g m, incident c' g m ↔ incident (ppos s) g m ∨ (g = o ∧ m ∈ atts (ppos s) ∧ m ∈ X).
Proof.
  intros H Hn. unfold add_positive_example.
  destruct (add_object_with_intent_effect (ppos s) X o) as (c2 & E2 & Hg & Ho & Ha & HI); [apply H|apply H|done|]. rewrite E2. by exists c2.
Qed.
Lemma negative_refutes o X p s s' : pinv s → o ∉ objs (pneg s) → (∃ m, m ∈ atts (pneg s) ∧ m ∉ X) → (∀ m, m ∈ p → m ∈ atts (pneg s)) →
  add_negative_example o X (Some p) s = (s', Ok tt) →
  ∀ q, list_to_set q ⊆ (list_to_set p : gset name) → ∃ e, confirm_pattern q s' = (s', Err e).
Proof.
  intros H Hn (m & Hm & HmX) Hp E q Hq.
  assert (pinv s') as H'. { pose proof (pstep_inv (PNegative o X (Some p)) s H Hn) as H'. cbn in H'. by rewrite E in H'. }
  destruct (add_negative_cases o X (Some p) s H Hn) as [[_ E2]|(HX & c' & E2 & Hg & Ho & Ha & HI)]; rewrite E in E2; [done|].
  injection E2 as ->. specialize (HX p eq_refl).
  destruct (confirm_cases q _ H') as [[_ ->]|[(_ & _ & ->)|[(_ & _ & _ & ->)|(_ & _ & H3 & _)]]]; [by eexists..|]. exfalso. apply H3. cbn.
  exists o. split; [rewrite Ho; apply elem_of_app; right; by apply elem_of_list_singleton|]. split.
  - intros m' Hm'. apply HI. right. assert (m' ∈ p) by (apply (elem_of_list_to_set (C:=gset name)), Hq, Hm').
    split; [done|]. split; [by apply Hp|]. apply HX. by apply elem_of_list_to_set.
  - intros Hf. destruct (proj1 (HI o m)) as [Hi|(_ & _ & ?)]; [by apply Hf; rewrite Ha| |done]. apply Hn. by apply incident_dom in Hi as [? _].
Qed.

(** ** Examples *)
Lemma intent_spec c o (X : gset name) : good c → o ∈ objs c → X = up (abs c) {[o]} ↔ ∀ m, m ∈ X ↔ incident c o m.
Proof.
  intros Hg Ho. assert (∀ m, m ∈ up (abs c) {[o]} ↔ incident c o m) as H.
  { intros m. rewrite elem_of_up, in_atts. setoid_rewrite elem_of_singleton. setoid_rewrite elem_of_fI. split.
    - intros [_ H]. by apply H.
    - intros H. split; [by apply incident_dom in H as [_ ?]|]. by intros g ->. }
  split; [intros ->; done|]. intros HX. apply set_eq. intros m. by rewrite HX, H.
Qed.
Lemma is_explained_spec s X : is_explained s X = true ↔ ∃ P, P ∈ pconf s ∧ P ⊆ X.
Proof.
  unfold is_explained. rewrite existsb_exists. setoid_rewrite bool_decide_eq_true. split.
  - intros (P & HP & HX). exists P. split; [by apply elem_of_list_In|done].
  - intros (P & HP & HX). exists P. split; [by apply elem_of_list_In|done].
Qed.
Lemma unexplained_from_spec s os : good (ppos s) → ∀ i, drop i (objs (ppos s)) = os →
  ∃ l, unexplained_from s i os = Ok l ∧ map fst l `sublist_of` os ∧
    ∀ o X, (o, X) ∈ l ↔ o ∈ os ∧ is_explained s X = false ∧ X = up (abs (ppos s)) {[o]}.
Proof.
  intros Hg. induction os as [|o os IH]; intros i Hi; cbn.
  { exists []. split; [done|]. split; [constructor|]. intros o X. rewrite !elem_of_nil. tauto. }
  assert (objs (ppos s) !! i = Some o) as Hl. { rewrite <-(Nat.add_0_r i), <-lookup_drop, Hi. done. }
  rewrite (get_object_intent_by_index_spec (ppos s) Hg i o Hl). cbn [mbind res_bind].
  destruct (IH (S i)) as (l & -> & Hs & HI). { rewrite <-Nat.add_1_r, <-drop_drop, Hi. done. }
  cbn [mbind res_bind]. destruct (is_explained s _) eqn:E.
  - exists l. split; [done|]. split; [by constructor|]. intros o' X. rewrite HI, elem_of_cons. split; [tauto|].
    intros ([->|?] & H2 & H3); [|done]. subst X. by rewrite E in H2.
  - eexists. split; [done|]. split; [by cbn; constructor|]. intros o' X. rewrite !elem_of_cons, HI. split.
    + intros [[= -> ->]|H]; [|tauto]. split; [by left|]. done.
    + intros ([->|?] & H2 & H3); [left; by subst X|]. right. done.
Qed.
Lemma unexplained_spec s : good (ppos s) → ∃ l, unexplained_examples s = Ok l ∧ lists_objects (ppos s) (λ o, ¬ explained s o) l.
Proof.
  intros Hg. destruct (unexplained_from_spec s (objs (ppos s)) Hg 0 eq_refl) as (l & E & Hs & HI). exists l. split; [done|].
  split; [done|]. intros o X. rewrite HI. split.
  - intros (H1 & H2 & H3). split; [done|]. assert (∀ m, m ∈ X ↔ incident (ppos s) o m) as HX by by apply intent_spec. split; [|done].
    intros (P & HP & Hh). apply not_true_iff_false in H2. apply H2, is_explained_spec. exists P. split; [done|]. intros m Hm. by apply HX, Hh.
  - intros (H1 & H2 & H3). split; [done|]. split; [|by apply intent_spec]. apply not_true_iff_false. intros (P & HP & Hs')%is_explained_spec.
    apply H2. exists P. split; [done|]. intros m Hm. by apply H3, Hs'.
Qed.
Lemma pattern_examples_spec ord p s : good (ppos s) → (∀ X : gset name, ord X ≡ₚ elements X) →
  (∀ x, x ∈ p → x ∈ atts (ppos s)) →
  ∃ l, pattern_examples ord p s = Ok l ∧ NoDup (map fst l) ∧
    ∀ o X, (o, X) ∈ l ↔ o ∈ objs (ppos s) ∧ has_all (ppos s) o (list_to_set p) ∧ ∀ m, m ∈ X ↔ incident (ppos s) o m.
Proof.
  intros Hg Hord Hp. unfold pattern_examples. rewrite aprime_spec by (apply Hg || done). cbn [mbind res_bind].
  set (A := down (abs (ppos s)) (list_to_set p)).
  assert (∀ os, (∀ o, o ∈ os → o ∈ objs (ppos s)) →
    mapM (λ o, X ← get_object_intent (ppos s) o; Ok (o, X)) os = Ok (map (λ o, (o, up (abs (ppos s)) {[o]})) os)) as HM.
  { induction os as [|o os IH]; intros Hos; [done|]. cbn. rewrite get_object_intent_spec; [|done..|apply Hos; left]. cbn.
    rewrite IH; [done|]. intros o' Ho'. apply Hos. by right. }
  rewrite HM. 2:{ intros o Ho. rewrite (Hord A), elem_of_elements in Ho. apply elem_of_down in Ho as [Ho _]. by apply in_objs. }
  eexists. split; [done|]. split.
  { rewrite map_map. cbn. rewrite map_id, (Hord A). apply NoDup_elements. }
  intros o X. rewrite elem_of_list_fmap. setoid_rewrite (Hord A). setoid_rewrite elem_of_elements. unfold A. setoid_rewrite elem_of_down.
  unfold has_all. setoid_rewrite elem_of_fI. split.
  - intros (o' & [= <- ->] & Ho & H). apply in_objs in Ho. split; [done|]. split; [done|]. by apply intent_spec.
  - intros (Ho & H & HX). exists o. split; [|split; [by apply in_objs|done]]. f_equal. by apply intent_spec.
Qed.

Lemma elem_of_sub {A} (k l : list A) x : k `sublist_of` l → x ∈ k → x ∈ l.
Proof. induction 1; rewrite ?elem_of_cons; naive_solver. Qed.
Lemma NoDup_sub {A} (k l : list A) : k `sublist_of` l → NoDup l → NoDup k.
Proof.
  induction 1 as [|x k l Hs IH|x k l Hs IH]; [done| |]; intros [Hn Hd]%NoDup_cons; [|by apply IH].
  constructor; [|by apply IH]. intros Hx. apply Hn. by eapply elem_of_sub.
Qed.

(** ** The default generator *)
Lemma concept_restrict_atts K K1 A B : fG K1 = fG K → fM K1 ⊆ fM K → (∀ g m, (g, m) ∈ fI K1 ↔ m ∈ fM K1 ∧ (g, m) ∈ fI K) →
  (∀ X, X ⊆ fG K → ocl K1 X = ocl K X) →
  is_concept K1 A B ↔ ∃ B', is_concept K A B' ∧ B = B' ∩ fM K1.
Proof.
  intros HG HM HI Hcl. assert (∀ X, up K1 X = up K X ∩ fM K1) as Hup.
  { intros X. apply set_eq. intros m. rewrite elem_of_intersection, !elem_of_up. setoid_rewrite HI. split.
    - intros [Hm H]. split; [|done]. split; [by apply HM|]. intros g Hg. by apply H.
    - intros [[_ H] Hm]. split; [done|]. intros g Hg. split; [done|]. by apply H. }
  split.
  - intros (H1 & H2 & H3 & H4). rewrite HG in H1. exists (up K A). split; [|by rewrite <-Hup].
    split; [done|]. split; [apply up_sub|]. split; [done|]. change (ocl K A = A). rewrite <-Hcl by done. unfold ocl. by rewrite H3.
  - intros (B' & (H1 & H2 & H3 & H4) & ->). split; [by rewrite HG|]. split; [set_solver|].
    assert (up K1 A = B' ∩ fM K1) as E by by rewrite Hup, H3. split; [done|]. rewrite <-E. change (ocl K1 A = A). rewrite Hcl by done.
    unfold ocl. by rewrite H3.
Qed.
Lemma is_concept_ftrans K A B : is_concept (ftrans K) B A ↔ is_concept K A B.
Proof. unfold is_concept. rewrite up_ftrans, down_ftrans. cbn. tauto. Qed.
Lemma concept_restrict_objs K K1 A B : fM K1 = fM K → fG K1 ⊆ fG K → (∀ g m, (g, m) ∈ fI K1 ↔ g ∈ fG K1 ∧ (g, m) ∈ fI K) →
  (∀ X, X ⊆ fM K → acl K1 X = acl K X) →
  is_concept K1 A B ↔ ∃ A', is_concept K A' B ∧ A = A' ∩ fG K1.
Proof.
  intros HM HG HI Hcl. rewrite <-is_concept_ftrans. setoid_rewrite <-(is_concept_ftrans K).
  apply (concept_restrict_atts (ftrans K) (ftrans K1)); [done|done| |].
  - intros m g. rewrite !ftrans_I. apply HI.
  - intros X HX. unfold ocl. rewrite !up_ftrans, !down_ftrans. by apply Hcl.
Qed.
Lemma filter_cons_occurs ord cn cs : good cn → (∀ X : gset name, ord X ≡ₚ elements X) → 
  (∀ x, x ∈ cs → x.2 ⊆ list_to_set (atts cn)) →
  ∃ l, positive_filter ord cn cs = Ok l ∧ l `sublist_of` cs ∧ (∀ x, x ∈ l ↔ x ∈ cs ∧ ¬ occurs cn x.2) ∧
    first_positive ord cn cs = Ok (head l).
Proof.
  intros Hg Hord. induction cs as [|x cs IH]; intros Hcs; cbn.
  { exists []. split; [done|]. split; [done|]. split; [|done]. intros x. rewrite !elem_of_nil. tauto. }
  destruct IH as (l & H1 & H2 & H3 & H4). { intros y Hy. apply Hcs. by right. }
  assert (∀ y, y ∈ ord x.2 → y ∈ atts cn) as Hx.
  { intros y Hy. rewrite (Hord x.2), elem_of_elements in Hy. apply (elem_of_list_to_set (C:=gset name)), (Hcs x); [left|done]. }
  assert ((list_to_set (ord x.2) : gset name) = x.2) as Es.
  { apply set_eq. intros y. by rewrite elem_of_list_to_set, (Hord x.2), elem_of_elements. }
  rewrite aclosure_spec by (apply Hg || done). cbn [mbind res_bind]. rewrite H1. cbn [mbind res_bind].
  destruct (bool_decide (acl (abs cn) (list_to_set (ord x.2)) = list_to_set (atts cn))) eqn:E.
  - apply bool_decide_eq_true in E. exists (x :: l). split; [done|]. split; [by constructor|]. split; [|done].
    intros y. rewrite !elem_of_cons, H3. split; [|tauto]. intros [->|?]; [|tauto]. split; [by left|]. intros (g & Hgo & Hh & Hf).
    apply Hf. eapply aclosure_all; [done|exact Hx|done|done|]. by rewrite Es.
  - apply bool_decide_eq_false in E. exists l. split; [done|]. split; [by constructor|]. split; [|done].
    intros y. rewrite elem_of_cons, H3. split; [tauto|]. intros [[->|?] Hn]; [|done]. exfalso. apply Hn. rewrite <-Es. by apply not_all.
Qed.
Lemma positive_concepts_spec ord cp cn : good cp → good cn → (list_to_set (atts cp) : gset name) = list_to_set (atts cn) →
  length (objs cp) ≤ 63 → length (atts cp) ≤ 63 → (∀ X : gset name, ord X ≡ₚ elements X) →
  ∃ c1 c2 cs l, reduce_attributes cp = Ok c1 ∧ reduce_objects c1 = Ok c2 ∧ norris c2 = Ok cs ∧
    positive_concepts ord cp cn = Ok l ∧ l `sublist_of` cs ∧ NoDup l ∧
    (∀ A B, (A, B) ∈ l ↔ (∃ A' B', is_concept (abs cp) A' B' ∧ A = A' ∩ list_to_set (objs c2) ∧ B = B' ∩ list_to_set (atts c1)) ∧ ¬ occurs cn B) ∧
    first_positive ord cn cs = Ok (head l).
Proof.
  intros Hp Hn Ha Ho63 Ha63 Hord.
  destruct (reduce_attributes_final cp Hp Ho63) as (c1 & E1 & Hg1 & Ho1 & Ha1 & HI1 & Hcl1 & _).
  destruct (reduce_final c1 Hg1) as (c2 & E2 & Hg2 & Ha2 & Ho2 & HI2 & Hcl2 & _). { apply sublist_length in Ha1. lia. }
  destruct (norris_spec c2 Hg2) as (cs & E3 & Hnd & _ & Hcs).
  assert (∀ A B, is_concept (abs c2) A B ↔
    ∃ A' B', is_concept (abs cp) A' B' ∧ A = A' ∩ list_to_set (objs c2) ∧ B = B' ∩ list_to_set (atts c1)) as HC.
  { intros A B. rewrite (concept_restrict_objs (abs c1) (abs c2)).
    - split.
      + intros (A' & HA' & ->). rewrite (concept_restrict_atts (abs cp) (abs c1)) in HA'.
        * destruct HA' as (B' & HB' & ->). exists A', B'. done.
        * cbn. by rewrite Ho1.
        * intros m. rewrite !in_atts. intros Hm. by eapply elem_of_sub.
        * intros g m. rewrite !elem_of_fI, in_atts. apply HI1.
        * intros X HX. assert (∀ x, x ∈ elements X → x ∈ objs cp) as HXo. { intros x Hx%elem_of_elements. by apply in_objs, HX. }
          pose proof (Hcl1 (elements X) _ (oclosure_spec cp Hp (elements X) HXo)) as E.
          rewrite oclosure_spec in E by (done || by rewrite Ho1). rewrite list_to_set_elements_L in E. by injection E.
      + intros (A' & B' & HC & -> & ->). exists A'. split; [|done]. apply (concept_restrict_atts (abs cp) (abs c1)).
        * cbn. by rewrite Ho1.
        * intros m. rewrite !in_atts. intros Hm. by eapply elem_of_sub.
        * intros g m. rewrite !elem_of_fI, in_atts. apply HI1.
        * intros X HX. assert (∀ x, x ∈ elements X → x ∈ objs cp) as HXo. { intros x Hx%elem_of_elements. by apply in_objs, HX. }
          pose proof (Hcl1 (elements X) _ (oclosure_spec cp Hp (elements X) HXo)) as E.
          rewrite oclosure_spec in E by (done || by rewrite Ho1). rewrite list_to_set_elements_L in E. by injection E.
        * by exists B'.
    - cbn. by rewrite Ha2.
    - intros g. rewrite !in_objs. intros Hm. by eapply elem_of_sub.
    - intros g m. rewrite !elem_of_fI, in_objs. apply HI2.
    - intros X HX. assert (∀ x, x ∈ elements X → x ∈ atts c1) as HXo. { intros x Hx%elem_of_elements. by apply in_atts, HX. }
      pose proof (Hcl2 (elements X) _ (aclosure_spec c1 Hg1 (elements X) HXo)) as E.
      rewrite aclosure_spec in E by (done || by rewrite Ha2). rewrite list_to_set_elements_L in E. by injection E. }
  destruct (filter_cons_occurs ord cn cs Hn Hord) as (l & E4 & Hs & Hl & Hf).
  { intros [A B] HAB. apply Hcs in HAB as (_ & HB & _). cbn [snd]. rewrite <-Ha. intros m Hm. apply HB, in_atts in Hm. rewrite Ha2 in Hm.
    apply elem_of_list_to_set. by eapply elem_of_sub. }
  exists c1, c2, cs, l. split; [done|]. split; [done|]. split; [done|]. split.
  { unfold positive_concepts. rewrite E1. cbn [mbind res_bind]. rewrite E2. cbn [mbind res_bind]. rewrite E3. done. }
  split; [done|]. split; [by eapply NoDup_sub|]. split; [|done]. intros A B. rewrite Hl, Hcs, HC. done.
Qed.
Lemma unconfirmed_default_spec ord s : pinv s → length (objs (ppos s)) ≤ 63 → length (atts (ppos s)) ≤ 63 →
  (∀ X : gset name, ord X ≡ₚ elements X) →
  ∃ l, positive_concepts ord (ppos s) (pneg s) = Ok l ∧
    unconfirmed_patterns_default ord s = (match l with [] => Ok [] | _ => Err TypeError end).
Proof.
  intros H H1 H2 Hord. destruct (positive_concepts_spec ord (ppos s) (pneg s)) as (c1 & c2 & cs & l & E1 & E2 & E3 & E4 & _ & _ & _ & E5); [apply H..|done|done|done|].
  exists l. split; [done|]. unfold unconfirmed_patterns_default. destruct (unexplained_spec s (q_pos s H)) as (ex & -> & _). cbn [mbind res_bind].
  rewrite E1. cbn [mbind res_bind]. rewrite E2. cbn [mbind res_bind]. rewrite E3. cbn [mbind res_bind]. rewrite E5. by destruct l.
Qed.

(** ** Sorting *)
Lemma insert_pattern_perm x l : insert_pattern x l ≡ₚ x :: l.
Proof. induction l as [|y l IH]; cbn [insert_pattern]; [done|]. destruct (y.2 <? x.2)%nat; [done|]. rewrite IH. apply perm_swap. Qed.
Lemma sort_patterns_perm l : sort_patterns l ≡ₚ l.
Proof.
  unfold sort_patterns. assert (∀ acc, foldl (λ acc x, insert_pattern x acc) acc l ≡ₚ acc ++ l) as H; [|by rewrite H].
  induction l as [|x l IH]; intros acc; cbn [foldl]; [by rewrite app_nil_r|]. rewrite IH, insert_pattern_perm. cbn. apply Permutation_middle.
Qed.
Definition desc (x y : gset name * nat) : Prop := y.2 ≤ x.2.
Lemma insert_pattern_sorted x l : StronglySorted desc l → StronglySorted desc (insert_pattern x l).
Proof.
  induction 1 as [|y l Hs IH Hf]; cbn [insert_pattern app]; [by repeat constructor|]. destruct (y.2 <? x.2)%nat eqn:E.
  - apply Nat.ltb_lt in E. constructor; [by constructor|]. constructor; [unfold desc; lia|]. eapply Forall_impl; [exact Hf|].
    unfold desc. intros z Hz. cbn in *. lia.
  - apply Nat.ltb_ge in E. constructor; [done|]. rewrite insert_pattern_perm. by constructor.
Qed.
Lemma sort_patterns_sorted l : StronglySorted desc (sort_patterns l).
Proof.
  unfold sort_patterns. assert (∀ acc, StronglySorted desc acc → StronglySorted desc (foldl (λ acc x, insert_pattern x acc) acc l)) as H; [|apply H; constructor].
  induction l as [|x l IH]; intros acc Ha; cbn [foldl]; [done|]. apply IH. by apply insert_pattern_sorted.
Qed.
(** Patterns with the same number keep their order. *)
Lemma insert_pattern_stable k x l : StronglySorted desc l →
  List.filter (λ y, (y.2 =? k)%nat) (insert_pattern x l) = List.filter (λ y, (y.2 =? k)%nat) (l ++ [x]).
Proof.
  induction 1 as [|y l Hs IH Hf]; cbn [insert_pattern app]; [done|]. destruct (y.2 <? x.2)%nat eqn:E; cbn [List.filter].
  - apply Nat.ltb_lt in E. rewrite List.filter_app. cbn. destruct (x.2 =? k)%nat eqn:Ex.
    + apply Nat.eqb_eq in Ex. destruct (y.2 =? k)%nat eqn:Ey; [apply Nat.eqb_eq in Ey; lia|].
      assert (List.filter (λ y, (y.2 =? k)%nat) l = []) as ->; [|done].
      clear -Hf E Ex. induction Hf as [|z l Hz Hf IH]; [done|]. cbn. unfold desc in Hz. destruct (z.2 =? k)%nat eqn:Ez; [apply Nat.eqb_eq in Ez; lia|done].
    + destruct (y.2 =? k)%nat; by rewrite app_nil_r.
  - by rewrite IH.
Qed.
Lemma sort_patterns_stable k l : List.filter (λ y, (y.2 =? k)%nat) (sort_patterns l) = List.filter (λ y, (y.2 =? k)%nat) l.
Proof.
  unfold sort_patterns. assert (∀ acc, StronglySorted desc acc →
    List.filter (λ y, (y.2 =? k)%nat) (foldl (λ acc x, insert_pattern x acc) acc l) = List.filter (λ y, (y.2 =? k)%nat) (acc ++ l)) as H; [|apply H; constructor].
  induction l as [|x l IH]; intros acc Ha; cbn [foldl]; [by rewrite app_nil_r|]. rewrite IH by by apply insert_pattern_sorted.
  rewrite !List.filter_app, insert_pattern_stable, List.filter_app by done. rewrite <-app_assoc. f_equal. cbn. by destruct (x.2 =? k)%nat.
Qed.

Lemma stable_filter k (l : list (gset name * nat)) : List.filter (λ y, (y.2 =? k)%nat) l = filter (λ x, x.2 = k) l.
Proof.
  induction l as [|y l IH]; [done|]. rewrite filter_cons. cbn [List.filter]. rewrite IH.
  destruct (Nat.eqb_spec (y.2) k), (decide (y.2 = k)); done.
Qed.
Lemma not_explained_filter {F} (s : pexp) (gen : list (gset name * F)) :
  List.filter (fun q => negb (is_explained s q.1)) gen = filter (λ q : gset name * F, Forall (λ P, ¬ P ⊆ q.1) (pconf s)) gen.
Proof.
  induction gen as [|q gen IH]; [done|]. rewrite filter_cons. cbn [List.filter]. rewrite IH.
  destruct (is_explained s q.1) eqn:E; cbn [negb].
  - rewrite decide_False; [done|]. apply is_explained_spec in E as (P & HP & Hs). intros Hf. rewrite Forall_forall in Hf. by apply (Hf P).
  - rewrite decide_True; [done|]. apply Forall_forall. intros P HP Hs. apply not_true_iff_false in E. apply E, is_explained_spec. eauto.
Qed.
Lemma filter_count (P : gset name) (ex : list (name * gset name)) :
  List.filter (fun e : name * gset name => bool_decide (P ⊆ e.2)) ex = filter (λ e : name * gset name, P ⊆ e.2) ex.
Proof.
  induction ex as [|e ex IH]; [done|]. rewrite filter_cons. cbn [List.filter]. rewrite IH. by destruct (decide (P ⊆ e.2)) as [H|H]; [rewrite bool_decide_true|rewrite bool_decide_false].
Qed.
Lemma sublist_filter {A} (P : A → Prop) `{∀ x, Decision (P x)} (l : list A) : filter P l `sublist_of` l.
Proof. induction l as [|x l IH]; [done|]. rewrite filter_cons. destruct (decide (P x)); by constructor. Qed.
Lemma sublist_map {A B} (f : A → B) (l k : list A) : l `sublist_of` k → map f l `sublist_of` map f k.
Proof. induction 1; cbn; by constructor. Qed.
Lemma unconfirmed_spec {F} (gen : list (gset name * F)) s : pinv s →
  ∃ ex l, unexplained_examples s = Ok ex ∧ unconfirmed_patterns gen s = Ok l ∧
    map fst l ≡ₚ map fst (filter (λ q : gset name * F, Forall (λ P, ¬ P ⊆ q.1) (pconf s)) gen) ∧
    (∀ P n, (P, n) ∈ l → n = length (filter (λ e : name * gset name, P ⊆ e.2) ex)) ∧
    StronglySorted (λ x y, y.2 ≤ x.2) l ∧
    ∀ k, map fst (filter (λ x : gset name * nat, x.2 = k) l) `sublist_of` map fst gen.
Proof.
  intros H. destruct (unexplained_spec s (q_pos s H)) as (ex & E & _). unfold unconfirmed_patterns. rewrite E. cbn [mbind res_bind].
  eexists ex, _. split; [done|]. split; [done|]. rewrite not_explained_filter.
  set (g := filter _ gen). set (m := map _ g).
  assert (map fst m = map fst g) as Hm by (unfold m; by rewrite map_map).
  split; [by rewrite sort_patterns_perm, Hm|]. split.
  - intros P n Hn. rewrite sort_patterns_perm in Hn. unfold m in Hn. apply elem_of_list_In, in_map_iff in Hn as (q & Hq & _).
    injection Hq as <- <-. by rewrite filter_count.
  - split; [apply sort_patterns_sorted|]. intros k. rewrite <-stable_filter, sort_patterns_stable, stable_filter.
    etrans; [apply sublist_map, sublist_filter|]. rewrite Hm. apply sublist_map, sublist_filter.
Qed.
