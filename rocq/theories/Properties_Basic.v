(** * BasicExploration with truthful answers: the final statements (C125, C126) *)
From Verif Require Import Py Spec PyFacts SpecFacts DgSpec ContextModel ContextSpec ContextOps ContextFacts ContextInit ContextFinal
  ClosureModel ClosureFacts DgModel DgCxt AiModel ExplModel ExplSpec ExplFacts ExplDb ExplFinal BasicSpec BasicFacts
  Properties_Context Properties_Closure Properties_Dg Properties_Ai Properties_Expl.

(** ** C125 *)
(** A domain is given by the closure operator of its intents; the rows at the start are
    taken from it.  At most [2 ^ n] questions are answered, in whatever order they are
    taken and whatever else is added meanwhile; the rows stay in the domain and the
    confirmed implications are those of the domain; with no question left the intents of
    the context are the intents of the domain, and the confirmed implications have
    exactly the implications of the domain as consequences. *)
Theorem C125_truthful c0 cl n s : good c0 → comparable (atts c0) = true → objs c0 ≠ [] → comparable (objs c0) = true → atts c0 ≠ [] →
  closure_op (fM (abs c0)) cl → (∀ g, g ∈ objs c0 → cl (up (abs c0) {[g]}) = up (abs c0) {[g]}) →
  asked (answer_attr (fM (abs c0)) cl) (aside_attr (fM (abs c0)) cl) c0 n s →
  n ≤ 2 ^ length (atts c0) ∧ good (bcxt s) ∧ atts (bcxt s) = atts c0 ∧
  (∀ g, g ∈ objs (bcxt s) → cl (up (abs (bcxt s)) {[g]}) = up (abs (bcxt s)) {[g]}) ∧
  (∀ i, i ∈ bcattr s → i.1 ⊆ fM (abs c0) ∧ i.2 = cl i.1 ∧ i.1 ≠ i.2) ∧
  (battr s = [] → (∀ X, X ⊆ fM (abs c0) → acl (abs (bcxt s)) X = cl X) ∧
     ∀ i, i.1 ⊆ fM (abs c0) → i.2 ⊆ fM (abs c0) → entails (bcattr s) i ↔ i.2 ⊆ cl i.1).
Proof.
  intros Hg Hc Ho Hc2 Ha Hcl Hr Ht. pose proof (asked_attr_results c0 Hg Hc Ho Hc2 Ha cl Hcl Hr n s Ht) as (h1 & h2 & h3 & h4 & h5 & h6 & _). done.
Qed.
Print Assumptions C125_truthful.
(** Every open implication can be answered: it is valid in the domain and can be confirmed,
    or the closure of its premise is a counterexample, under any new name; and a truthful
    answer is never turned down. *)
Theorem C125_answerable c0 cl n s : good c0 → comparable (atts c0) = true → objs c0 ≠ [] → comparable (objs c0) = true → atts c0 ≠ [] →
  closure_op (fM (abs c0)) cl → (∀ g, g ∈ objs c0 → cl (up (abs c0) {[g]}) = up (abs c0) {[g]}) →
  asked (answer_attr (fM (abs c0)) cl) (aside_attr (fM (abs c0)) cl) c0 n s →
  (∀ k i, item (battr s) k i → if bool_decide (i.2 ⊆ cl i.1) then answer_attr (fM (abs c0)) cl s (BConfirmAttr k)
     else ∀ o, o ∉ objs (bcxt s) → comparable (o :: objs (bcxt s)) = true → answer_attr (fM (abs c0)) cl s (BCounterAttr o (cl i.1) k)) ∧
  ∀ sa so o, sorts sa → sorts so → answer_attr (fM (abs c0)) cl s o → (bstep sa so o s).2 = Ok tt.
Proof.
  intros Hg Hc Ho Hc2 Ha Hcl Hr Ht. pose proof (asked_attr_results c0 Hg Hc Ho Hc2 Ha cl Hcl Hr n s Ht) as (_ & _ & _ & _ & _ & _ & h7 & h8).
  split; [|done]. intros k i Hi. case_bool_decide as Hv; [by exists i|]. intros o Hn Hcm.
  assert (i ∈ battr s) as Hin. { apply item_pos in Hi as (p & _ & Hi). by eapply elem_of_list_lookup_2. }
  destruct (h8 i Hin) as [e1 e2]. pose proof (cl_sub _ _ Hcl i.1 e1) as Hs. cbn [answer_attr]. split_and!; try done.
  - replace (cl i.1 ∩ fM (abs c0)) with (cl i.1) by set_solver. by apply (cl_idem _ _ Hcl).
  - exists i. split; [done|]. intros Hre. apply Hv, Hre. by apply (cl_ext _ _ Hcl).
Qed.
Print Assumptions C125_answerable.
(** The confirmed implications of a finished exploration can be more than the canonical basis has. *)
Definition ax0 := get_ok (BExp empty_cxt [] [] [] [] true) (new_exploration cpython_sort cpython_sort aix).
Lemma ax0_built : new_exploration cpython_sort cpython_sort aix = Ok ax0.
Proof. apply get_ok_eq. vm_compute. reflexivity. Qed.
Definition confirmed n s := Nat.iter n (next (BConfirmAttr 0)) s.
Lemma confirm_first M cl s : match battr s with [] => false | i :: _ => bool_decide (i.2 ⊆ cl i.1) end = true →
  answer_attr M cl s (BConfirmAttr 0).
Proof.
  cbn [answer_attr]. destruct (battr s) as [|i l]; [done|]. intros H%bool_decide_eq_true. exists i. split; [|done]. left. by split.
Qed.
Theorem C125_canonical_refuted : ∃ c0 n s R, good c0 ∧ comparable (atts c0) = true ∧ objs c0 ≠ [] ∧ comparable (objs c0) = true ∧ atts c0 ≠ [] ∧
  asked (answer_attr (fM (abs c0)) (acl (abs c0))) (aside_attr (fM (abs c0)) (acl (abs c0))) c0 n s ∧ battr s = [] ∧
  compute_dg_basis (bcxt s) elts (Some []) always = Ok R ∧ length R < length (bcattr s).
Proof.
  exists aix, 5, (confirmed 5 ax0), aix_dg. split; [exact aix_good|]. split; [reflexivity|]. split; [done|]. split; [reflexivity|]. split; [done|].
  split; [|split; [dec|]; split; [dec|vm_compute; lia]].
  unfold confirmed, Nat.iter. cbn [nat_rect].
  do 5 (eapply (asked_answer _ _ aix cpython_sort cpython_sort);
    [apply cpython_sorts|apply cpython_sorts| |apply confirm_first; vm_compute; reflexivity]).
  exact (asked_new _ _ aix cpython_sort cpython_sort ax0 cpython_sorts cpython_sorts ax0_built).
Qed.
Print Assumptions C125_canonical_refuted.

(** Concrete cases: the domain has a fourth object with {b}; [b → a] is refuted, then [{b, c} → a] is confirmed. *)
Definition bd := get_ok empty_cxt (mk_context (bx_table ++ [[false; true; false]]) None [o1; o2; o3; o4] [sa; sb; sc]).
Definition bd1 := next (BCounterAttr o4 {[sb]} 0) b0.
Definition bd2 := next (BConfirmAttr (-1)) bd1.
Lemma bd_rows : ∀ g, g ∈ objs bx → acl (abs bd) (up (abs bx) {[g]}) = up (abs bx) {[g]}.
Proof. apply Forall_forall. dec. Qed.
Example C125_case : closure_op (fM (abs bx)) (acl (abs bd)) ∧
  asked (answer_attr (fM (abs bx)) (acl (abs bd))) (aside_attr (fM (abs bx)) (acl (abs bd))) bx 2 bd2 ∧ battr bd2 = [] ∧
  bcattr bd2 = [({[sb; sc]}, {[sa; sb; sc]})] ∧ length (objs (bcxt bd2)) = 4 ∧ battr b0 = [({[sb]}, {[sa; sb]})] ∧
  ¬ (∀ X, X ⊆ fM (abs bx) → acl (abs bx) X = acl (abs bd) X).
Proof.
  split; [assert (fM (abs bx) = fM (abs bd)) as -> by dec; apply acl_closure_op|]. split.
  - apply (asked_answer _ _ bx cpython_sort cpython_sort 1 bd1 (BConfirmAttr (-1)) cpython_sorts cpython_sorts).
    + apply (asked_answer _ _ bx cpython_sort cpython_sort 0 b0 (BCounterAttr o4 {[sb]} 0) cpython_sorts cpython_sorts).
      * exact (asked_new _ _ bx cpython_sort cpython_sort b0 cpython_sorts cpython_sorts b0_built).
      * split; [dec|]. split; [reflexivity|]. split; [dec|]. exists ({[sb]}, {[sa; sb]}). split; [left; split; [lia|dec]|]. unfold respects. dec.
    + exists ({[sb; sc]}, {[sa; sb; sc]}). split; [right; split; [lia|]; split; [vm_compute; done|dec]|dec].
  - split; [dec|]. split; [dec|]. split; [dec|]. split; [dec|]. intros H. specialize (H {[sb]}). revert H.
    assert ({[sb]} ⊆ fM (abs bx)) as H1 by dec. intros H. specialize (H H1). revert H. apply (bool_decide_unpack _). vm_compute. exact I.
Qed.

(** ** C126 *)
(** The same for implications between objects; the domain consists of possible extents of
    attributes, and attributes are the examples. *)
Theorem C126_truthful c0 cl n s : good c0 → comparable (atts c0) = true → objs c0 ≠ [] → comparable (objs c0) = true → atts c0 ≠ [] →
  closure_op (fG (abs c0)) cl → (∀ m, m ∈ atts c0 → cl (down (abs c0) {[m]}) = down (abs c0) {[m]}) →
  asked (answer_obj (fG (abs c0)) cl) (aside_obj (fG (abs c0)) cl) c0 n s →
  n ≤ 2 ^ length (objs c0) ∧ good (bcxt s) ∧ objs (bcxt s) = objs c0 ∧
  (∀ m, m ∈ atts (bcxt s) → cl (down (abs (bcxt s)) {[m]}) = down (abs (bcxt s)) {[m]}) ∧
  (∀ i, i ∈ bcobj s → i.1 ⊆ fG (abs c0) ∧ i.2 = cl i.1 ∧ i.1 ≠ i.2) ∧
  (bobj s = [] → (∀ X, X ⊆ fG (abs c0) → down (abs (bcxt s)) (up (abs (bcxt s)) X) = cl X) ∧
     ∀ i, i.1 ⊆ fG (abs c0) → i.2 ⊆ fG (abs c0) → entails (bcobj s) i ↔ i.2 ⊆ cl i.1).
Proof.
  intros Hg Hc Ho Hc2 Ha Hcl Hr Ht. pose proof (asked_obj_results c0 Hg Hc Ho Hc2 Ha cl Hcl Hr n s Ht) as (h1 & h2 & h3 & h4 & h5 & h6 & _). done.
Qed.
Print Assumptions C126_truthful.
Theorem C126_answerable c0 cl n s : good c0 → comparable (atts c0) = true → objs c0 ≠ [] → comparable (objs c0) = true → atts c0 ≠ [] →
  closure_op (fG (abs c0)) cl → (∀ m, m ∈ atts c0 → cl (down (abs c0) {[m]}) = down (abs c0) {[m]}) →
  asked (answer_obj (fG (abs c0)) cl) (aside_obj (fG (abs c0)) cl) c0 n s →
  (∀ k i, item (bobj s) k i → if bool_decide (i.2 ⊆ cl i.1) then answer_obj (fG (abs c0)) cl s (BConfirmObj k)
     else ∀ a, a ∉ atts (bcxt s) → comparable (a :: atts (bcxt s)) = true → answer_obj (fG (abs c0)) cl s (BCounterObj a (cl i.1) k)) ∧
  ∀ sa so o, sorts sa → sorts so → answer_obj (fG (abs c0)) cl s o → (bstep sa so o s).2 = Ok tt.
Proof.
  intros Hg Hc Ho Hc2 Ha Hcl Hr Ht. pose proof (asked_obj_results c0 Hg Hc Ho Hc2 Ha cl Hcl Hr n s Ht) as (_ & _ & _ & _ & _ & _ & h7 & h8).
  split; [|done]. intros k i Hi. case_bool_decide as Hv; [by exists i|]. intros a Hn Hcm.
  assert (i ∈ bobj s) as Hin. { apply item_pos in Hi as (p & _ & Hi). by eapply elem_of_list_lookup_2. }
  destruct (h8 i Hin) as [e1 e2]. pose proof (cl_sub _ _ Hcl i.1 e1) as Hs. cbn [answer_obj]. split_and!; try done.
  - replace (cl i.1 ∩ fG (abs c0)) with (cl i.1) by set_solver. by apply (cl_idem _ _ Hcl).
  - exists i. split; [done|]. intros Hre. apply Hv, Hre. by apply (cl_ext _ _ Hcl).
Qed.
Print Assumptions C126_answerable.
(** Concrete case: the domain has a fourth attribute with extent {3}; [3 → 2] is refuted, then [{1, 3} → 2] is confirmed. *)
Definition od := get_ok empty_cxt (mk_context [[true; true; false; false]; [true; false; true; false]; [false; false; true; true]] None [o1; o2; o3] [sa; sb; sc; sd]).
Definition od1 := next (BCounterObj sd {[o3]} 0) b0.
Definition od2 := next (BConfirmObj 0) od1.
Lemma od_columns : ∀ m, m ∈ atts bx → acl (ftrans (abs od)) (down (abs bx) {[m]}) = down (abs bx) {[m]}.
Proof. apply Forall_forall. dec. Qed.
Example C126_case : closure_op (fG (abs bx)) (acl (ftrans (abs od))) ∧
  asked (answer_obj (fG (abs bx)) (acl (ftrans (abs od)))) (aside_obj (fG (abs bx)) (acl (ftrans (abs od)))) bx 2 od2 ∧ bobj od2 = [] ∧
  bcobj od2 = [({[o1; o3]}, {[o1; o2; o3]})] ∧ length (atts (bcxt od2)) = 4 ∧ bobj b0 = [({[o3]}, {[o2; o3]})].
Proof.
  split; [assert (fG (abs bx) = fM (ftrans (abs od))) as -> by dec; apply acl_closure_op|]. split.
  - apply (asked_answer _ _ bx cpython_sort cpython_sort 1 od1 (BConfirmObj 0) cpython_sorts cpython_sorts).
    + apply (asked_answer _ _ bx cpython_sort cpython_sort 0 b0 (BCounterObj sd {[o3]} 0) cpython_sorts cpython_sorts).
      * exact (asked_new _ _ bx cpython_sort cpython_sort b0 cpython_sorts cpython_sorts b0_built).
      * split; [dec|]. split; [reflexivity|]. split; [dec|]. exists ({[o3]}, {[o2; o3]}). split; [left; split; [lia|dec]|]. unfold respects. dec.
    + exists ({[o1; o3]}, {[o1; o2; o3]}). split; [left; split; [lia|dec]|dec].
  - split; [dec|]. split; [dec|]. split; dec.
Qed.
