(** * Facts about many-valued contexts, scales and scaling *)
From Verif Require Import Py Spec PyFacts SpecFacts ContextModel ContextSpec ContextOps ContextFacts ContextInit
  ContextMut ContextEffects ContextMisc ContextFinal MvModel.

(** ** ManyValuedContext *)
Lemma mv_row_np c i : wf c → mv_row c i = np_row c i.
Proof. intros H. unfold mv_row, np_row. by rewrite (wf_cross c H). Qed.
Lemma mv_cell_cell c i j : wf c → mv_cell c i j = cell c i j.
Proof. intros H. unfold mv_cell, cell. by rewrite mv_row_np. Qed.
Lemma mapM_ext {A B} (f g : A → res B) l : (∀ x, f x = g x) → mapM f l = mapM g l.
Proof. intros H. induction l as [|x l IH]; [done|]. cbn. by rewrite H, IH. Qed.
Lemma new_mv_cells {V} (truth : V → bool) t os ats c : new_mv truth t os ats = Ok c →
  wf c ∧ length (objs c) = length os ∧ length (atts c) = length ats ∧
  (NoDup os → objs c = os) ∧ (NoDup ats → atts c = ats) ∧ (NoDup os → NoDup ats → good c) ∧
  ∀ i j, mv_cell c i j = (r ← get_or IndexError (t !! i); v ← get_or IndexError (r !! j); Ok (truth v)).
Proof.
  intros H. pose proof (mk_context_wf _ _ _ _ _ H) as Hw. pose proof H as (Hl & _ & Ho & Ha & Hn & Hc & _)%mk_context_Ok.
  split; [done|]. rewrite Ho, Ha, !uniquify_length. split; [done|]. split; [done|]. split; [by apply uniquify_NoDup|]. split; [by apply uniquify_NoDup|].
  split.
  - intros H1 H2. by destruct (mk_context_good _ _ _ _ _ H H1 H2).
  - intros i j. unfold mv_cell, mv_row. rewrite Hc, list_lookup_fmap. destruct (t !! i) as [r|]; cbn; [|done].
    rewrite list_lookup_fmap. by destruct (r !! j).
Qed.
Lemma new_mv_truth {V W} (truth : V → bool) (truth' : W → bool) t t' os ats :
  map (map truth) t = map (map truth') t' → new_mv truth t os ats = new_mv truth' t' os ats.
Proof. unfold new_mv. by intros ->. Qed.
Lemma new_mv_ok {V} (truth : V → bool) t os ats :
  is_ok (new_mv truth t os ats) = true ↔ length t = length os ∧ ∀ r, r ∈ t → length r = length ats.
Proof.
  unfold new_mv. rewrite mk_context_spec, map_length.
  assert (Forall (λ r : list bool, length r = length ats) (map (map truth) t) ↔ ∀ r, r ∈ t → length r = length ats) as E.
  { rewrite Forall_forall. split.
    - intros H r Hr. rewrite <-(map_length truth r). apply H, elem_of_list_fmap. eauto.
    - intros H r (r' & -> & Hr)%elem_of_list_fmap. rewrite map_length. by apply H. }
  case_decide as H; cbn; [|split; [done|]]; rewrite <-E; naive_solver.
Qed.
Lemma mv_extract_subcontext_spec c ns : wf c → mv_extract_subcontext c ns = extract_subcontext c ns.
Proof.
  intros H. unfold mv_extract_subcontext, extract_subcontext, extract_subtable.
  destruct (check_attribute_names c ns) as [[]|]; cbn; [|done]. destruct (mapM _ ns) as [inds|]; cbn; [|done].
  rewrite (wf_cross c H). rewrite (mapM_ext _ (λ i, mapM (λ j, cell c i j) inds)); [done|].
  intros i. apply mapM_ext. intros j. by apply mv_cell_cell.
Qed.

Lemma mv_select c (p : nat → bool) (P : name → Prop) : wf c → distinct c →
  (∀ i g, objs c !! i = Some g → p i = true ↔ P g) →
  ∃ c', (os ← mapM (oname c) (List.filter p (seq 0 (length (cross c)))); t ← mapM (mv_row c) (List.filter p (seq 0 (length (cross c)))); mk_context t None os (atts c)) = Ok c' ∧
    good c' ∧ atts c' = atts c ∧ objs c' `sublist_of` objs c ∧
    (∀ g, g ∈ objs c' ↔ g ∈ objs c ∧ P g) ∧ ∀ g m, incident c' g m ↔ g ∈ objs c' ∧ incident c g m.
Proof.
  intros Hwf Hd HpP. rewrite (wf_cross c Hwf), (wf_rows c Hwf). set (inds := List.filter p _).
  assert (∀ i, i ∈ inds → i < length (objs c)) as Hlt.
  { intros i Hi%elem_of_list_In. apply filter_In in Hi as [Hi%elem_of_list_In _]. apply elem_of_seq in Hi. lia. }
  destruct (select_rows_ok c inds Hwf Hlt) as (os & t & Hos & Ht). rewrite (mapM_ext (mv_row c) (np_row c)) by (intros; by apply mv_row_np).
  rewrite Hos, Ht. cbn [mbind res_bind].
  edestruct (select_rows_spec c inds os t) as (c' & Hc' & Hg & Ho' & Ha' & Hos' & Hinc); try done.
  { unfold inds. apply NoDup_ListNoDup, List.NoDup_filter, seq_NoDup. }
  exists c'. split; [done|]. split; [done|]. split; [done|].
  assert (∀ g, g ∈ os ↔ g ∈ objs c ∧ P g) as HP.
  { intros g. split.
    - intros [k Hk]%elem_of_list_lookup. destruct (mapM_lookup_r _ _ _ _ _ Hos Hk) as (i & Hi & Hn). unfold oname in Hn.
      destruct (objs c !! i) as [g'|] eqn:E; [|done]. injection Hn as ->. split; [by eapply elem_of_list_lookup_2|].
      apply (HpP i); [done|]. apply elem_of_list_lookup_2, elem_of_list_In, filter_In in Hi. tauto.
    - intros [[i Hi]%elem_of_list_lookup HP]. assert (i ∈ inds) as [k Hk]%elem_of_list_lookup.
      { apply elem_of_list_In, filter_In. split; [|by apply (HpP i g)]. apply elem_of_list_In, elem_of_seq. split; [lia|]. by eapply lookup_lt_Some. }
      destruct (mapM_lookup _ _ _ _ _ Hos Hk) as (g' & Hg' & Hn). unfold oname in Hn. rewrite Hi in Hn. injection Hn as ->.
      by eapply elem_of_list_lookup_2. }
  split; [|split].
  - rewrite Ho'. assert (∃ Q : name → Prop, ∃ _ : ∀ g, Decision (Q g), os = filter Q (objs c)) as (Q & ? & ->); [|apply sublist_filter_list].
    exists (λ g, g ∈ os), _. apply (select_filter_order c p os (λ g, g ∈ os) Hos).
    intros i g Hi. rewrite HP, (HpP i g Hi). split; [|tauto]. intros; split; [by eapply elem_of_list_lookup_2|done].
  - intros g. by rewrite Ho'.
  - intros g m. by rewrite Ho', Hinc.
Qed.
Lemma mv_extract_by_condition_spec c (cond : nat → bool) : wf c → distinct c →
  ∃ c', mv_extract_by_condition c cond = Ok c' ∧ good c' ∧ atts c' = atts c ∧ objs c' `sublist_of` objs c ∧
    (∀ i g, objs c !! i = Some g → g ∈ objs c' ↔ cond i = true) ∧ ∀ g m, incident c' g m ↔ g ∈ objs c' ∧ incident c g m.
Proof.
  intros Hwf Hd. destruct (mv_select c cond (λ g, ∃ i, objs c !! i = Some g ∧ cond i = true) Hwf Hd) as (c' & E & Hg & Ha & Ho & HP & HI).
  - intros i g Hi. split; [eauto|]. intros (i' & Hi' & H). assert (i = i') as <-; [|done]. exact (NoDup_lookup (objs c) i i' g (proj1 Hd) Hi Hi').
  - exists c'. split; [exact E|]. split; [done|]. split; [done|]. split; [done|]. split; [|done]. intros i g Hi. rewrite HP. split.
    + intros (_ & i' & Hi' & H). assert (i = i') as <-; [|done]. exact (NoDup_lookup (objs c) i i' g (proj1 Hd) Hi Hi').
    + intros H. split; [by eapply elem_of_list_lookup_2|eauto].
Qed.

Lemma cellb_incident c i j g a : distinct c → wf c → objs c !! i = Some g → atts c !! j = Some a → cellb c i j = Some (bool_decide (incident c g a)).
Proof.
  intros Hd Hw Hi Hj. destruct (cellb_exists c Hw i j) as [b Hb]; [by eapply lookup_lt_Some..|]. rewrite Hb. f_equal.
  pose proof (incident_cell c i j g a Hd Hi Hj) as E. rewrite elem_of_fI, Hb in E. destruct b.
  - symmetry. apply bool_decide_eq_true. by apply E.
  - symmetry. apply bool_decide_eq_false. intros H. by apply E in H.
Qed.
Lemma mv_has_values_spec {V} (eqv : bool → V → bool) c i g vals : wf c → distinct c → objs c !! i = Some g →
  (∀ a v, (a, v) ∈ vals → a ∈ atts c) →
  ∃ b, mv_has_values eqv c i vals = Ok b ∧ (b = true ↔ ∀ a v, (a, v) ∈ vals → eqv (bool_decide (incident c g a)) v = true).
Proof.
  intros Hw Hd Hi. induction vals as [|[a v] vals IH]; intros Hin; cbn [mv_has_values].
  - exists true. split; [done|]. split; [|done]. by intros _ a v ?%elem_of_nil.
  - destruct (py_index_Some a (atts c)) as [j Hj]; [by eapply Hin, elem_of_list_here|]. rewrite Hj. cbn [mbind res_bind].
    rewrite mv_cell_cell by done. pose proof (cellb_incident c i j g a Hd Hw Hi (py_index_Ok _ _ _ Hj)) as Hc.
    apply cell_Ok in Hc. rewrite Hc. cbn [mbind res_bind].
    destruct (eqv (bool_decide (incident c g a)) v) eqn:E.
    + destruct IH as (b & -> & Hb); [intros; by eapply Hin, elem_of_list_further|]. exists b. split; [done|]. rewrite Hb. split.
      * intros H a' v' [[= -> ->]|H']%elem_of_cons; [done|by apply H].
      * intros H a' v' H'. apply H. by apply elem_of_list_further.
    + exists false. split; [done|]. split; [done|]. intros H. rewrite (H a v) in E; [done|by apply elem_of_list_here].
Qed.
Lemma mv_extract_by_values_spec {V} (eqv : bool → V → bool) c vals : wf c → distinct c → (∀ a v, (a, v) ∈ vals → a ∈ atts c) →
  ∃ c', mv_extract_by_values eqv c vals = Ok c' ∧ good c' ∧ atts c' = atts c ∧ objs c' `sublist_of` objs c ∧
    (∀ g, g ∈ objs c' ↔ g ∈ objs c ∧ ∀ a v, (a, v) ∈ vals → eqv (bool_decide (incident c g a)) v = true) ∧
    ∀ g m, incident c' g m ↔ g ∈ objs c' ∧ incident c g m.
Proof.
  intros Hw Hd Hin. unfold mv_extract_by_values. rewrite check_names_ok.
  2:{ intros a (p & -> & H)%elem_of_list_fmap. destruct p as [a v]. by eapply Hin. }
  cbn [mbind res_bind]. set (p := λ i, match mv_has_values eqv c i vals with Ok b => b | Err _ => false end).
  assert (∀ i g, objs c !! i = Some g → mv_has_values eqv c i vals = Ok (p i) ∧ (p i = true ↔ ∀ a v, (a, v) ∈ vals → eqv (bool_decide (incident c g a)) v = true)) as Hp.
  { intros i g Hi. unfold p. by destruct (mv_has_values_spec eqv c i g vals Hw Hd Hi Hin) as (b & -> & Hb). }
  rewrite (filterM_spec _ p).
  2:{ intros i [_ Hi]%elem_of_seq. rewrite (wf_cross c Hw), (wf_rows c Hw) in Hi. destruct (lookup_lt_is_Some_2 (objs c) i) as [g Hg]; [lia|]. by apply (Hp i g). }
  cbn [mbind res_bind]. apply (mv_select c p (λ g, ∀ a v, (a, v) ∈ vals → eqv (bool_decide (incident c g a)) v = true)); [done|done|].
  intros i g Hi. by apply (Hp i g).
Qed.
