(** * Callbacks of the basis computation: the final statements (C127) *)
From Verif Require Import Py Spec PyFacts SpecFacts DgSpec ContextModel ContextSpec ContextOps ContextFacts ContextReduce
  ClosureModel ClosureFacts DgModel DgFacts DgMain DgCons DgCxt DgFinal CallModel CallSpec CallFacts
  Properties_Context Properties_Closure Properties_Dg.

(** ** C127 *)
(** Callbacks that only record or cache, so that their answers do not depend on the state,
    change nothing; no further hypotheses, failing callbacks included. *)
Theorem C127_stateless {St} ms (aclose : St → gset name → St * res (gset name)) close L0 (cond : St → gset name → St * bool) a0 c0 :
  (∀ st X, (aclose st X).2 = a0 X) → (∀ st X, (cond st X).2 = c0 X) →
  ∀ st, (calling_dg_basis ms aclose close L0 cond st).2 = generalized_compute_dg_basis ms a0 close L0 c0.
Proof. exact (calling_stateless ms aclose close L0 cond a0 c0). Qed.
Print Assumptions C127_stateless.
(** An arbitrary [cond]: the sets are put to the callbacks in lectic order, so none twice; [cond]
    is asked about the sets that are not closed, right after their closure was taken; the result
    are the implications it agreed to; and a [cond] without state would have given the same. *)
Theorem C127_calls {St} ms cl L0 ords (aclose : St → gset name → St * res (gset name)) (cond : St → gset name → St * bool) close :
  NoDup ms → comparable ms = true → growing_op (list_to_set ms) cl → (∀ i, i ∈ L0 → i.1 ⊆ (list_to_set ms : gset name) ∧ i.2 ⊆ (list_to_set ms : gset name)) →
  (∀ s L k X, ords s L k X ≡ₚ elements X) → (∀ st X, X ⊆ list_to_set ms → (aclose st X).2 = Ok (cl X)) →
  close = simple_close ∨ close = lin_close ords →
  ∀ st, ∃ qs, calling_dg_basis ms aclose close (Some L0) cond st = ((put cl aclose cond st qs).1, Ok (put cl aclose cond st qs).2) ∧
    StronglySorted (lectic ms) qs ∧ (∀ X, X ∈ qs → X ⊆ list_to_set ms ∧ X ≠ list_to_set ms) ∧
    ∃ cond', generalized_compute_dg_basis ms (λ X, Ok (cl X)) close (Some L0) cond' = Ok (put cl aclose cond st qs).2.
Proof.
  intros Hms Hc Hcl HL0 Ho Ha Hclo st. exact (calls ms Hms Hc cl Hcl L0 HL0 ords Ho aclose Ha cond close Hclo (λ X, Ok (cl X)) (λ _ _, eq_refl) st).
Qed.
Print Assumptions C127_calls.
(** In a context, for [compute_dg_basis] itself: whatever [cond] does, only implications that hold
    are returned. *)
Theorem C127_context {St} c ords L0 (cond : St → gset name → St * bool) st : good c → comparable (atts c) = true → objs c ≠ [] →
  (∀ i, i ∈ L0 → i.1 ⊆ fM (abs c) ∧ i.2 ⊆ fM (abs c)) → (∀ s L k X, ords s L k X ≡ₚ elements X) →
  ∃ R, (calling_compute_dg_basis c ords (Some L0) cond st).2 = Ok R ∧
    (∀ i, i ∈ R → i.1 ⊆ fM (abs c) ∧ i.2 = acl (abs c) i.1 ∧ i.1 ≠ i.2 ∧ holds (abs c) i) ∧ StronglySorted (lectic (atts c)) (map fst R) ∧
    ∃ cond', compute_dg_basis c ords (Some L0) cond' = Ok R.
Proof.
  intros Hg Hc Hne HL0 Ho.
  assert (∀ X, X ⊆ list_to_set (atts c) → cxt_aclose c X = Ok (acl (abs c) X)) as Hax by (intros X HX; by apply cxt_aclose_spec).
  destruct (calls (atts c) (proj2 (good_distinct _ Hg)) Hc (acl (abs c)) (closure_growing _ _ (acl_closure_op (abs c))) L0 HL0 ords Ho
    (λ st X, (st, cxt_aclose c X)) (λ st X HX, Hax X HX) cond (lin_close ords) (or_intror eq_refl) (cxt_aclose c)
    Hax st) as (qs & E & _ & _ & cond' & Ep).
  exists (put (acl (abs c)) (λ st X, (st, cxt_aclose c X)) cond st qs).2. unfold calling_compute_dg_basis. rewrite E. split; [done|].
  destruct (dg_cond_final c cond' L0 ords Hg Hc Hne HL0 Ho _ (or_intror eq_refl)) as (R & ER & HR & HS & _).
  unfold compute_dg_basis in *. rewrite Ep in ER. injection ER as <-. split; [|split; [done|by exists cond']].
  intros i Hi. destruct (HR i Hi) as (? & ? & ? & _ & ?). done.
Qed.
Print Assumptions C127_context.
(** If [cond] always agrees the closure is taken of every pseudo-closed set, of closed sets and of no
    other set, each once and in lectic order: [log] is the record of the calls. *)
Theorem C127_each_once ms cl L0 : NoDup ms → comparable ms = true → closure_op (list_to_set ms) cl →
  (∀ i, i ∈ L0 → i.1 ⊆ (list_to_set ms : gset name) ∧ i.2 ⊆ (list_to_set ms : gset name)) →
  ∃ log R, calling_dg_basis ms (λ l X, (l ++ [X], Ok (cl X))) simple_close (Some L0) (λ l X, (l, true)) [] = (log, Ok R) ∧
    pseudo_family (list_to_set ms) cl L0 (λ P, P ∈ map fst R) ∧
    StronglySorted (lectic ms) log ∧ (∀ X, X ∈ log → X ⊆ list_to_set ms ∧ X ≠ list_to_set ms) ∧
    map fst R = List.filter (λ X, bool_decide (X ≠ cl X)) log ∧
    ∀ Cs, (∀ X, X ⊆ list_to_set ms → X ≠ list_to_set ms → X = cl X → X ∈ Cs) → length log ≤ length R + length Cs.
Proof.
  intros Hms Hc Hcl HL0. set (ac := λ (l : list (gset name)) (X : gset name), (l ++ [X], Ok (cl X))).
  set (cd := λ (l : list (gset name)) (X : gset name), (l, true)).
  destruct (calls ms Hms Hc cl (closure_growing _ _ Hcl) L0 HL0 elts elts_perm ac (λ _ _ _, eq_refl) cd simple_close (or_introl eq_refl)
    (λ X, Ok (cl X)) (λ _ _, eq_refl) []) as (qs & E & HS & Hq & _).
  assert (∀ qs st, (put cl ac cd st qs).1 = st ++ qs) as Hlog.
  { clear. intros qs. induction qs as [|X qs IH]; intros st; [by rewrite app_nil_r|]. cbn [put ac fst]. destruct (decide (X = cl X)).
    - rewrite IH. by rewrite <-app_assoc.
    - cbn [cd]. specialize (IH (st ++ [X])). destruct (put cl ac cd (st ++ [X]) qs). cbn in *. by rewrite IH, <-app_assoc. }
  rewrite Hlog in E. cbn [app] in E.
  exists qs, (put cl ac cd [] qs).2. split; [exact E|].
  destruct (dg_basis_spec ms Hms cl Hcl (λ X, Ok (cl X)) (λ _ _, eq_refl) simple_close L0) as (R & ER & Hp).
  { intros i Hi. by apply HL0. }
  { intros R X [HR _] HX. apply simple_closure_spec. intros i [Hi|Hi]%elem_of_app.
    - destruct (HR i Hi) as (H1 & H2 & _). apply (hashable_within ms Hc); [done|]. rewrite H2. by apply (cl_sub _ _ Hcl).
    - destruct (HL0 i Hi). by apply (hashable_within ms Hc). }
  { apply simple_closure_spec. intros i Hi. destruct (HL0 i Hi). by apply (hashable_within ms Hc). }
  pose proof (calling_stateless ms ac simple_close (Some L0) cd (λ X, Ok (cl X)) (λ _, true) (λ _ _, eq_refl) (λ _ _, eq_refl) []) as Es.
  rewrite E in Es. cbn [snd] in Es. rewrite ER in Es. injection Es as Es. rewrite Es.
  split; [by apply (post_family _ _ _ _ Hp)|]. split; [done|]. split; [done|].
  assert (map fst R = List.filter (λ X, bool_decide (X ≠ cl X)) qs) as EP.
  { rewrite <-Es, put_agree by done. rewrite map_map. apply map_id. }
  split; [done|]. intros Cs HCs. rewrite (split_count (λ X, bool_decide (X ≠ cl X)) qs), <-EP, map_length.
  apply Nat.add_le_mono_l. apply submseteq_length, NoDup_submseteq.
  - apply NoDup_ListNoDup, List.NoDup_filter, NoDup_ListNoDup. by eapply lectic_NoDup.
  - intros X HX. apply elem_of_list_In, List.filter_In in HX as [HX%elem_of_list_In Hb]. destruct (Hq X HX) as [H1 H2].
    apply HCs; [done|done|]. apply negb_true_iff, bool_decide_eq_false in Hb. by destruct (decide (X = cl X)).
Qed.
Print Assumptions C127_each_once.
(** Not every closed set is among them: the closure reached from a pseudo-closed set is not taken again. *)
Definition dgx_log := (calling_dg_basis (atts dgx) (λ l X, (l ++ [X], Ok (acl (abs dgx) X))) simple_close (Some []) (λ l X, (l, true)) []).1.
Theorem C127_all_closed_refuted : ∃ ms cl X, NoDup ms ∧ comparable ms = true ∧ closure_op (list_to_set ms) cl ∧
  X ⊆ list_to_set ms ∧ X ≠ list_to_set ms ∧ X = cl X ∧
  X ∉ (calling_dg_basis ms (λ l X, (l ++ [X], Ok (cl X))) simple_close (Some []) (λ l X, (l, true)) []).1.
Proof.
  exists (atts dgx), (acl (abs dgx)), {[sb; sc; sd]}. split; [dec|]. split; [reflexivity|]. split; [exact (acl_closure_op (abs dgx))|].
  split; [dec|]. split; [dec|]. split; [dec|]. change (({[sb; sc; sd]} : gset name) ∉ dgx_log). dec.
Qed.
Print Assumptions C127_all_closed_refuted.
(** Concrete cases: of the 32 sets the closure of 13 is taken, 6 pseudo-intents and 7 intents; a [cond] that
    agrees to two implications and then to none; and one that agrees to every other. *)
Example C127_case : length dgx_log = 13 ∧ length (List.filter (λ X, bool_decide (X ≠ acl (abs dgx) X)) dgx_log) = 6 ∧
  calling_compute_dg_basis dgx elts (Some []) (λ k X, (S k, k <? 2)) 0 = (6, Ok (take 2 dgx_basis)) ∧
  calling_compute_dg_basis dgx elts (Some []) (λ k X, (S k, Nat.odd k)) 0 =
    (7, Ok [({[sd]}, {[sb; sc; sd]}); ({[sb; sc]}, {[sb; sc; sd]}); ({[sa; se]}, {[sa; sb; sc; sd; se]})]).
Proof. split; [dec|]. split; [dec|]. split; dec. Qed.
