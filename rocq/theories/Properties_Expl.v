(** * Attribute exploration: the final statements (C56-C60, C75) *)
From Verif Require Import Py Spec PyFacts SpecFacts ContextModel ContextSpec ContextOps ContextFacts ContextInit ContextFinal
  ClosureModel ClosureFacts DgModel AiModel ExplModel ExplSpec ExplFacts ExplDb ExplFinal
  Properties_Context Properties_Closure Properties_Dg Properties_Ai.

(** The example: objects 1, 2, 3 with {a, b}, {a, c}, {c}. *)
Definition bx_table := [[true; true; false]; [true; false; true]; [false; false; true]].
Definition bx := get_ok empty_cxt (mk_context bx_table None [o1; o2; o3] [sa; sb; sc]).
Example bx_built : mk_context bx_table None [o1; o2; o3] [sa; sb; sc] = Ok bx.
Proof. reflexivity. Qed.
Example bx_good : good bx.
Proof. eapply (mk_context_good bx_table None); [apply bx_built| | |done]; by apply (bool_decide_unpack _). Qed.
Example bx_explorable : comparable (atts bx) = true ∧ objs bx ≠ [] ∧ comparable (objs bx) = true ∧ atts bx ≠ [].
Proof. by repeat split. Qed.
Lemma cpython_sorts : sorts cpython_sort.
Proof. exact cpython_sort_perm. Qed.
Definition b0 := get_ok (BExp empty_cxt [] [] [] [] true) (new_exploration cpython_sort cpython_sort bx).
Lemma b0_built : new_exploration cpython_sort cpython_sort bx = Ok b0.
Proof. apply get_ok_eq. vm_compute. reflexivity. Qed.
Definition next (o : bop) (s : bexp) : bexp := (bstep cpython_sort cpython_sort o s).1.
Lemma breach_b0 allow : breach allow bx b0.
Proof. exact (breach_new allow bx cpython_sort cpython_sort b0 cpython_sorts cpython_sorts b0_built). Qed.
Lemma breach_next (allow : bexp → bop → Prop) s o : breach allow bx s → allow s o → breach allow bx (next o s).
Proof. intros H Ha. exact (breach_step allow bx cpython_sort cpython_sort s o cpython_sorts cpython_sorts H Ha). Qed.
Lemma breach_mono (P Q : bexp → bop → Prop) c0 s : (∀ s o, P s o → Q s o) → breach P c0 s → breach Q c0 s.
Proof.
  intros HPQ H. induction H as [sa so s h1 h2 h3|sa so s o h1 h2 h3 IH h4].
  - exact (breach_new Q c0 sa so s h1 h2 h3).
  - exact (breach_step Q c0 sa so s o h1 h2 IH (HPQ s o h4)).
Qed.
Lemma holds_forall K i : holds K i ↔
  set_Forall (λ g, set_Forall (λ m, (g, m) ∈ fI K) i.1 → set_Forall (λ m, (g, m) ∈ fI K) i.2) (fG K).
Proof. done. Qed.

(** ** C56 *)
(** Histories without [edit_attribute]: what was confirmed holds. *)
Theorem C56_confirmed_hold c0 s : good c0 → comparable (atts c0) = true → objs c0 ≠ [] → breach attr_call c0 s →
  ∀ i, i ∈ bcattr s → holds (abs (bcxt s)) i.
Proof. intros Hg Hc Ho. exact (confirmed_valid c0 Hg Hc Ho s). Qed.
Print Assumptions C56_confirmed_hold.
(** All histories: the open implications hold, and everything that holds follows
    from them and the confirmed ones. *)
Theorem C56_open c0 s : good c0 → comparable (atts c0) = true → objs c0 ≠ [] → breach any_call c0 s →
  (∀ i, i ∈ battr s → i.1 ⊆ fM (abs (bcxt s)) ∧ i.2 ⊆ fM (abs (bcxt s))) ∧
  (∀ i, i ∈ battr s → holds (abs (bcxt s)) i) ∧
  ∀ i, i.1 ⊆ fM (abs (bcxt s)) → i.2 ⊆ fM (abs (bcxt s)) → holds (abs (bcxt s)) i → entails (battr s ++ bcattr s) i.
Proof. intros Hg Hc Ho. exact (open_valid c0 Hg Hc Ho s). Qed.
Print Assumptions C56_open.
(** The same for implications between objects; they are implications of the
    transposed context. *)
Theorem C56_confirmed_objects_hold c0 s : good c0 → comparable (atts c0) = true → objs c0 ≠ [] →
  comparable (objs c0) = true → atts c0 ≠ [] → breach obj_call c0 s →
  ∀ i, i ∈ bcobj s → holds (ftrans (abs (bcxt s))) i.
Proof. intros Hg Hc Ho Hc' Ha. exact (confirmed_obj_valid c0 Hg Hc Ho Hc' Ha s). Qed.
Print Assumptions C56_confirmed_objects_hold.
Theorem C56_open_objects c0 s : good c0 → comparable (atts c0) = true → objs c0 ≠ [] →
  comparable (objs c0) = true → atts c0 ≠ [] → breach any_call2 c0 s →
  (∀ i, i ∈ bobj s → i.1 ⊆ fG (abs (bcxt s)) ∧ i.2 ⊆ fG (abs (bcxt s))) ∧
  (∀ i, i ∈ bobj s → holds (ftrans (abs (bcxt s))) i) ∧
  ∀ i, i.1 ⊆ fG (abs (bcxt s)) → i.2 ⊆ fG (abs (bcxt s)) → holds (ftrans (abs (bcxt s))) i → entails (bobj s ++ bcobj s) i.
Proof. intros Hg Hc Ho Hc' Ha. exact (open_obj_valid c0 Hg Hc Ho Hc' Ha s). Qed.
Print Assumptions C56_open_objects.
(** With [edit_attribute] it fails: {b} -> {a, b} is confirmed, then column a is emptied. *)
Theorem C56_edit_attribute_refuted : ∃ c0 s, good c0 ∧ comparable (atts c0) = true ∧ objs c0 ≠ [] ∧ breach any_call c0 s ∧
  ∃ i, i ∈ bcattr s ∧ ¬ holds (abs (bcxt s)) i.
Proof.
  exists bx, (next (BEditAttribute ∅ sa) (next (BConfirmAttr 0) b0)). split; [exact bx_good|]. split; [reflexivity|]. split; [done|]. split.
  { apply breach_next; [|done]. apply breach_next; [apply breach_b0|done]. }
  exists ({[sb]}, {[sa; sb]}). split; [dec|]. rewrite holds_forall. dec.
Qed.
Print Assumptions C56_edit_attribute_refuted.
(** It fails too when an attribute is added under a name in use: both are renamed
    and the confirmed implication speaks of an attribute that no longer exists. *)
Theorem C56_used_name_refuted : ∃ c0 s, good c0 ∧ comparable (atts c0) = true ∧ objs c0 ≠ [] ∧
  breach (λ s o, ¬ is_edit_attribute o ∧ fresh_objects s o) c0 s ∧
  ∃ i, i ∈ bcattr s ∧ ¬ holds (abs (bcxt s)) i.
Proof.
  exists bx, (next (BAddAttribute {[o3]} sa) (next (BConfirmAttr 0) b0)). split; [exact bx_good|]. split; [reflexivity|]. split; [done|]. split.
  { apply breach_next; [|by split; [intros []|]]. apply breach_next; [apply breach_b0|by split; [intros []|]]. }
  exists ({[sb]}, {[sa; sb]}). split; [dec|]. rewrite holds_forall. dec.
Qed.
Print Assumptions C56_used_name_refuted.
(** A history: confirm, be refused an object, add one, add an attribute. *)
Definition bcase :=
  next (BAddAttribute {[o3]} sd) (next (BAddObject {[sa; sb; sc]} o4) (next (BAddObject {[sb]} o4) (next (BConfirmAttr 0) b0))).
Example C56_case : breach attr_call bx bcase ∧ breach obj_call bx bcase ∧ bcattr bcase = [({[sb]}, {[sa; sb]})] ∧
  (bstep cpython_sort cpython_sort (BAddObject {[sb]} o4) (next (BConfirmAttr 0) b0)).2 = Err BasisConflict ∧
  length (objs (bcxt bcase)) = 4 ∧ length (atts (bcxt bcase)) = 4 ∧ battr bcase ≠ [].
Proof.
  assert (breach (λ s o, attr_call s o ∧ obj_call s o) bx bcase) as H.
  { repeat (apply breach_next; [|split; (split; [split|]); try done; try (by intros []); try dec; split; dec]). apply breach_b0. }
  split; [|split].
  - eapply breach_mono, H. by intros s o [].
  - eapply breach_mono, H. by intros s o [].
  - split; [dec|]. split; [dec|]. split; [dec|]. split; [dec|]. vm_compute. done.
Qed.

(** ** C57 *)
(** BasicExploration: an accepted counter-example refutes the open implication it was given for. *)
Theorem C57_basic_refutes c0 sa so s s' o X k : good c0 → comparable (atts c0) = true → objs c0 ≠ [] → sorts sa →
  breach any_call c0 s → o ∉ objs (bcxt s) → bstep sa so (BCounterAttr o X k) s = (s', Ok tt) →
  ∃ i, item (battr s) k i ∧ holds (abs (bcxt s)) i ∧ ¬ holds (abs (bcxt s')) i ∧ bcattr s' = bcattr s ∧
    objs (bcxt s') = objs (bcxt s) ++ [o] ∧ atts (bcxt s') = atts (bcxt s).
Proof. intros Hg Hc Ho. exact (counter_refutes c0 Hg Hc Ho sa so s s' o X k). Qed.
Print Assumptions C57_basic_refutes.
(** No item at that index, a set respecting the implication, or one in conflict
    with a confirmed implication: an exception, and nothing changes. *)
Theorem C57_basic_refused sa so s o X k :
  (∀ i, item (battr s) k i → respects X i) ∨ (∃ j, j ∈ bcattr s ∧ ¬ respects X j) →
  ∃ e, bstep sa so (BCounterAttr o X k) s = (s, Err e).
Proof. exact (counter_refused sa so s o X k). Qed.
Print Assumptions C57_basic_refused.
(** Every genuine counter-example without conflict is accepted. *)
Theorem C57_basic_accepted c0 sa so s o X k i : good c0 → comparable (atts c0) = true → objs c0 ≠ [] →
  comparable (objs c0) = true → atts c0 ≠ [] → sorts sa → sorts so → breach any_call2 c0 s →
  o ∉ objs (bcxt s) → comparable (o :: objs (bcxt s)) = true →
  item (battr s) k i → ¬ respects X i → (∀ j, j ∈ bcattr s → respects X j) →
  ∃ s', bstep sa so (BCounterAttr o X k) s = (s', Ok tt).
Proof. intros Hg Hc Ho Hc' Ha. exact (counter_accepted c0 Hg Hc Ho Hc' Ha sa so s o X k i). Qed.
Print Assumptions C57_basic_accepted.
(** The same for implications between objects. *)
Theorem C57_basic_objects c0 sa so s a X k : good c0 → comparable (atts c0) = true → objs c0 ≠ [] →
  comparable (objs c0) = true → atts c0 ≠ [] → sorts sa → sorts so → breach any_call2 c0 s →
  a ∉ atts (bcxt s) → comparable (a :: atts (bcxt s)) = true →
  (∀ s', bstep sa so (BCounterObj a X k) s = (s', Ok tt) →
     ∃ i, item (bobj s) k i ∧ holds (ftrans (abs (bcxt s))) i ∧ ¬ holds (ftrans (abs (bcxt s'))) i ∧ bcobj s' = bcobj s ∧
       objs (bcxt s') = objs (bcxt s) ∧ atts (bcxt s') = atts (bcxt s) ++ [a]) ∧
  (∀ i, item (bobj s) k i → ¬ respects X i → (∀ j, j ∈ bcobj s → respects X j) →
     ∃ s', bstep sa so (BCounterObj a X k) s = (s', Ok tt)).
Proof. intros Hg Hc Ho Hc' Ha. exact (counter_obj c0 Hg Hc Ho Hc' Ha sa so s a X k). Qed.
Print Assumptions C57_basic_objects.
Theorem C57_basic_objects_refused sa so s a X k :
  (∀ i, item (bobj s) k i → respects X i) ∨ (∃ j, j ∈ bcobj s ∧ ¬ respects X j) →
  ∃ e, bstep sa so (BCounterObj a X k) s = (s, Err e).
Proof. exact (counter_obj_refused sa so s a X k). Qed.
Print Assumptions C57_basic_objects_refused.
(** AttributeExploration: the expert names at least one example. *)
Theorem C57_attribute_exploration c0 L0 ords i o es Xs d d' : good c0 → comparable (atts c0) = true → objs c0 ≠ [] →
  (∀ j, j ∈ L0 → j.1 ⊆ fM (abs c0) ∧ j.2 ⊆ fM (abs c0)) → no_repeats L0 → dreach c0 L0 d → (∀ n, lists_sets (ords n)) →
  i.1 ⊆ fM (abs (dcxt d)) → i.2 ⊆ fM (abs (dcxt d)) →
  ae_reject ords i (o :: es) Xs d = (d', Ok tt) → ¬ holds (abs (dcxt d')) i.
Proof.
  intros Hg Hc Ho HL HR Hd Hs H1 H2 E. destruct (dreach_inv c0 L0 d Hg Hc Ho HL HR Hd) as [Hi _].
  exact (proj1 (ae_reject_refutes ords i o es Xs d d' Hs Hi (conj H1 H2) E)).
Qed.
Print Assumptions C57_attribute_exploration.
Theorem C57_attribute_exploration_refused ords i es X Xs d : respects X i →
  ae_reject ords i es (X :: Xs) d = (d, Err NotCounterexample).
Proof. exact (ae_reject_refused ords i es X Xs d). Qed.
Print Assumptions C57_attribute_exploration_refused.
(** ExplorationSession. *)
Theorem C57_session s i o X x x' : good (xcxt x) → o ∉ objs (xcxt x) →
  i.1 ⊆ fM (abs (xcxt x)) → i.2 ⊆ fM (abs (xcxt x)) →
  xstep (XReject s i o X) x = (x', Ok tt) → ¬ holds (abs (xcxt x')) i.
Proof. intros Hg Hn H1 H2 E. exact (proj1 (x_reject_refutes s i o X x x' Hg Hn (conj H1 H2) E)). Qed.
Print Assumptions C57_session.
Theorem C57_session_refused s i o X x : respects X i → ∃ e, xstep (XReject s i o X) x = (x, Err e).
Proof. exact (x_reject_refused s i o X x). Qed.
Print Assumptions C57_session_refused.
(** Concrete cases. *)
Example C57_case : item (battr b0) (-1) ({[sb]}, {[sa; sb]}) ∧ o4 ∉ objs (bcxt b0) ∧
  (bstep cpython_sort cpython_sort (BCounterAttr o4 {[sb]} (-1)) b0).2 = Ok tt ∧
  (bstep cpython_sort cpython_sort (BCounterAttr o4 {[sa]} 0) b0).2 = Err NotCounterExamplePremise ∧
  (bstep cpython_sort cpython_sort (BCounterAttr o4 {[sa; sb; sc]} 0) b0).2 = Err NotCounterExampleConclusion ∧
  (bstep cpython_sort cpython_sort (BCounterObj sd {[o3]} 0) b0).2 = Ok tt.
Proof. split; [right; split; [lia|]; split; [vm_compute; done|dec]|]. split; [dec|]. split; [dec|]. split; [dec|]. split; dec. Qed.
Definition d0 := get_ok (EDB empty_cxt [] always [] true) (new_db elts bx [] always).
Lemma elts_lists : lists_sets elts.
Proof. exact elts_perm. Qed.
Lemma d0_built : new_db elts bx [] always = Ok d0.
Proof. apply get_ok_eq. vm_compute. reflexivity. Qed.
Lemma dreach_d0 : dreach bx [] d0.
Proof. exact (dreach_new bx [] elts d0 elts_lists d0_built). Qed.
Lemma bx_background : (∀ j : fimp, j ∈ [] → j.1 ⊆ fM (abs bx) ∧ j.2 ⊆ fM (abs bx)) ∧ no_repeats [].
Proof. split; [by intros j Hj%not_elem_of_nil|]. intros p q i j H. by rewrite lookup_nil in H. Qed.
Example C57_database_case : (ae_reject (λ _, elts) ({[sb]}, {[sa; sb]}) [o4] [{[sb; sc]}] d0).2 = Ok tt ∧
  (ae_reject (λ _, elts) ({[sb]}, {[sa; sb]}) [o4] [{[sa; sb]}] d0).2 = Err NotCounterexample.
Proof. split; dec. Qed.
Definition x0 := (xstep XCreate (new_xpl bx)).1.
Example C57_session_case : (xstep (XReject 0 ({[sb]}, {[sa; sb]}) o4 {[sb; sc]}) x0).2 = Ok tt ∧
  (xstep (XReject 0 ({[sb]}, {[sa; sb]}) o4 {[sa; sc]}) x0).2 = Err FalseCounterexample.
Proof. split; dec. Qed.

(** ** C58 *)
(** Background knowledge valid at the start stays valid. *)
Theorem C58_background c0 L0 d : good c0 → comparable (atts c0) = true → objs c0 ≠ [] →
  (∀ j, j ∈ L0 → j.1 ⊆ fM (abs c0) ∧ j.2 ⊆ fM (abs c0)) → no_repeats L0 → (∀ i, i ∈ L0 → holds (abs c0) i) →
  dreach c0 L0 d → ∀ i, i ∈ dimps d → holds (abs (dcxt d)) i.
Proof. intros Hg Hc Ho HL HR Hv. exact (background_valid c0 L0 Hg Hc Ho HL HR d Hv). Qed.
Print Assumptions C58_background.
(** Nothing open: what holds follows from the background. *)
Theorem C58_finished c0 L0 d : good c0 → comparable (atts c0) = true → objs c0 ≠ [] →
  (∀ j, j ∈ L0 → j.1 ⊆ fM (abs c0) ∧ j.2 ⊆ fM (abs c0)) → no_repeats L0 → dreach c0 L0 d → dopen d = [] →
  ∀ i, i.1 ⊆ fM (abs (dcxt d)) → i.2 ⊆ fM (abs (dcxt d)) → holds (abs (dcxt d)) i → entails (dimps d) i.
Proof. intros Hg Hc Ho HL HR. exact (finished c0 L0 Hg Hc Ho HL HR d). Qed.
Print Assumptions C58_finished.
(** Something open: it holds and does not follow. *)
Theorem C58_question c0 L0 d i : good c0 → comparable (atts c0) = true → objs c0 ≠ [] →
  (∀ j, j ∈ L0 → j.1 ⊆ fM (abs c0) ∧ j.2 ⊆ fM (abs c0)) → no_repeats L0 → dreach c0 L0 d →
  i ∈ dopen d → holds (abs (dcxt d)) i ∧ ¬ entails (dimps d) i.
Proof. intros Hg Hc Ho HL HR. exact (question c0 L0 Hg Hc Ho HL HR d i). Qed.
Print Assumptions C58_question.
(** Confirming all open implications finishes the exploration. *)
Theorem C58_confirm_all c0 L0 ords d : good c0 → comparable (atts c0) = true → objs c0 ≠ [] →
  (∀ j, j ∈ L0 → j.1 ⊆ fM (abs c0) ∧ j.2 ⊆ fM (abs c0)) → no_repeats L0 → dreach c0 L0 d → (∀ n, lists_sets (ords n)) →
  ∃ d', ae_confirm ords (dopen d) d = (d', Ok tt) ∧ dcxt d' = dcxt d ∧ dimps d' = dimps d ++ dopen d ∧ dopen d' = [].
Proof.
  intros Hg Hc Ho HL HR Hd Hs. destruct (dreach_inv c0 L0 d Hg Hc Ho HL HR Hd) as [Hi _].
  destruct (confirm_everything ords d Hs Hi) as (d' & H1 & _ & H2). by exists d'.
Qed.
Print Assumptions C58_confirm_all.
(** Sessions of exploration2, for their own accepted implications. *)
Theorem C58_session ords s x L : lists_sets ords → good (xcxt x) → comparable (atts (xcxt x)) = true → objs (xcxt x) ≠ [] →
  xbases x !! s = Some L → (∀ j, j ∈ L → j.1 ⊆ fM (abs (xcxt x)) ∧ j.2 ⊆ fM (abs (xcxt x))) → no_repeats L →
  ∃ R, x_candidates ords s x = Ok R ∧
    (R = [] → ∀ i, i.1 ⊆ fM (abs (xcxt x)) → i.2 ⊆ fM (abs (xcxt x)) → holds (abs (xcxt x)) i → entails L i) ∧
    ∀ i, i ∈ R → holds (abs (xcxt x)) i ∧ ¬ entails L i.
Proof. exact (x_candidates_spec ords s x L). Qed.
Print Assumptions C58_session.
Example C58_case : dopen d0 = [({[sb]}, {[sa; sb]})] ∧
  (let d := (dstep elts (DConfirm ({[sb]}, {[sa; sb]})) d0).1 in dopen d = [] ∧ length (dimps d) = 1) ∧
  dreach bx [] (dstep elts (DConfirm ({[sb]}, {[sa; sb]})) d0).1.
Proof.
  split; [dec|]. split; [split; dec|]. apply dreach_step; [exact elts_lists|exact dreach_d0|]. cbn [db_call]. dec.
Qed.

(** ** C59 *)
Theorem C59_delete ords d o : djam d = false →
  dstep ords (DDeleteExample o) d = (d, Err AttributeError) ∧ dstep ords (DDeleteAttribute o) d = (d, Err AttributeError).
Proof. intros H. unfold dstep. by rewrite H. Qed.
Print Assumptions C59_delete.
Theorem C59_edit_attribute ords d a old X : djam d = false → good (dcxt d) → objs (dcxt d) ≠ [] → dimps d ≠ [] →
  dstep ords (DEditAttribute a old X) d = (d, Err TypeError).
Proof. intros H Hg Ho Hi. unfold dstep. by rewrite H, (edit_attribute_type_error d a old X Hg Ho Hi). Qed.
Print Assumptions C59_edit_attribute.
(** The states reached by an exploration qualify. *)
Theorem C59_reachable c0 L0 ords d a old X : good c0 → comparable (atts c0) = true → objs c0 ≠ [] →
  (∀ j, j ∈ L0 → j.1 ⊆ fM (abs c0) ∧ j.2 ⊆ fM (abs c0)) → no_repeats L0 → dreach c0 L0 d →
  dstep ords (DDeleteExample old) d = (d, Err AttributeError) ∧ dstep ords (DDeleteAttribute old) d = (d, Err AttributeError) ∧
  (dimps d ≠ [] → dstep ords (DEditAttribute a old X) d = (d, Err TypeError)).
Proof.
  intros Hg Hc Ho HL HR Hd. destruct (dreach_inv c0 L0 d Hg Hc Ho HL HR Hd) as [Hi _].
  destruct (C59_delete ords d old (d_jam d Hi)) as [H1 H2]. split; [exact H1|]. split; [exact H2|].
  exact (C59_edit_attribute ords d a old X (d_jam d Hi) (d_good d Hi) (d_objs d Hi)).
Qed.
Print Assumptions C59_reachable.
Example C59_case : (let d := (dstep elts (DConfirm ({[sb]}, {[sa; sb]})) d0).1 in
  djam d = false ∧ dimps d ≠ [] ∧ (dstep elts (DEditAttribute sa sa {[o1]}) d).2 = Err TypeError) ∧
  (dstep elts (DEditAttribute sd sa {[o1]}) d0).2 = Ok tt.
Proof. split; [split; [dec|]; split; [vm_compute; done|dec]|dec]. Qed.

(** ** C60 *)
(** While no further session is created, every row added after an implication was
    accepted in the current session respects it. *)
Theorem C60_enforced l x s L : wf (xcxt x) → NoDup (atts (xcxt x)) → xcur x = Some s → xbases x !! s = Some L →
  Forall no_create l →
  atts (xcxt (xrun l x)) = atts (xcxt x) ∧ (∃ L', xbases (xrun l x) !! s = Some (L ++ L')) ∧
  ∃ rows, np (xcxt (xrun l x)) = np (xcxt x) ++ rows ∧
    ∀ i r, i ∈ L → i.1 ⊆ list_to_set (atts (xcxt x)) → i.2 ⊆ list_to_set (atts (xcxt x)) → r ∈ rows →
      respects (row_set (atts (xcxt x)) r) i.
Proof.
  intros Hw Hd Hc HL Hl. destruct (xrun_single l x s L (conj Hw Hd) Hc HL Hl) as (_ & _ & H1 & H2 & rows & H3 & H4).
  split; [exact H1|]. split; [exact H2|]. exists rows. split; [exact H3|].
  intros i r Hi h1 h2. exact (H4 i r Hi (conj h1 h2)).
Qed.
Print Assumptions C60_enforced.
(** A new session enforces nothing: any object can be added next. *)
Theorem C60_new_session x g X : wf (xcxt x) → NoDup (atts (xcxt x)) →
  ∃ c', xstep (XAddObject g X) (xstep XCreate x).1 = (Xpl c' (xbases x ++ [[]]) (Some (length (xbases x))), Ok tt) ∧
    np c' = np (xcxt x) ++ [map (λ a, bool_decide (a ∈ X)) (atts (xcxt x))].
Proof. intros Hw Hd. exact (fresh_session x g X (conj Hw Hd)). Qed.
Print Assumptions C60_new_session.
(** Even a rejection made through the first session is then checked against the
    second session only. *)
Theorem C60_first_session_refuted : ∃ x i j o X x', good (xcxt x) ∧ xbases x = [[i]; []] ∧ holds (abs (xcxt x)) i ∧
  xstep (XReject 0 j o X) x = (x', Ok tt) ∧ xbases x' = [[i]; []] ∧ ¬ holds (abs (xcxt x')) i.
Proof.
  set (x1 := xrun [XCreate; XAccept 0 ({[sb]}, {[sa; sb]}); XCreate] (new_xpl bx)).
  set (r := xstep (XReject 0 ({[sc]}, {[sa]}) o4 {[sb; sc]}) x1).
  exists x1, ({[sb]}, {[sa; sb]}), ({[sc]}, {[sa]}), o4, {[sb; sc]}, r.1.
  split; [exact bx_good|]. split; [reflexivity|]. split; [rewrite holds_forall; dec|].
  assert (r.2 = Ok tt) as Hr by dec. split; [change (r = (r.1, Ok tt)); destruct r as [? ?]; cbn in *; by subst|].
  split; [dec|]. rewrite holds_forall. dec.
Qed.
Print Assumptions C60_first_session_refuted.
Theorem C60_no_session o X c : xstep (XAddObject o X) (new_xpl c) = (new_xpl c, Err AttributeError).
Proof. exact (x_no_session o X c). Qed.
Print Assumptions C60_no_session.
Example C60_case : let x := xrun [XCreate; XAccept 0 ({[sb]}, {[sa; sb]})] (new_xpl bx) in
  xcur x = Some 0 ∧ xbases x = [[({[sb]}, {[sa; sb]})]] ∧
  (xstep (XAddObject o4 {[sb]}) x).2 = Err IllegalContextModification ∧ (xstep (XAddObject o4 {[sa; sb; sc]}) x).2 = Ok tt.
Proof. split; [reflexivity|]. split; [dec|]. split; dec. Qed.

(** ** C75 *)
(** [edit_example] with a new name in use: the exception comes after the intent has
    been replaced, and the open implications are not recomputed. *)
Theorem C75_edit_example_not_atomic c0 L0 ords o old X d : good c0 → comparable (atts c0) = true → objs c0 ≠ [] →
  (∀ j, j ∈ L0 → j.1 ⊆ fM (abs c0) ∧ j.2 ⊆ fM (abs c0)) → no_repeats L0 → dreach c0 L0 d →
  old ∈ objs (dcxt d) → o ∈ objs (dcxt d) → o ≠ old →
  (∀ a, a ∈ X → a ∈ atts (dcxt d)) → (∀ j, j ∈ dimps d → respects X j) → X ≠ up (abs (dcxt d)) {[old]} →
  ∃ d', dstep ords (DEditExample o old X) d = (d', Err NotUniqueObjectName) ∧ dopen d' = dopen d ∧
    up (abs (dcxt d')) {[old]} = X ∧ objs (dcxt d') = objs (dcxt d).
Proof.
  intros Hg Hc Ho HL HR Hd. destruct (dreach_inv c0 L0 d Hg Hc Ho HL HR Hd) as [Hi _].
  exact (edit_example_used ords o old X d Hi).
Qed.
Print Assumptions C75_edit_example_not_atomic.
(** Then an open implication need not hold. *)
Theorem C75_open_refuted : ∃ ords o old X d d', dreach bx [] d ∧
  dstep ords (DEditExample o old X) d = (d', Err NotUniqueObjectName) ∧ ∃ i, i ∈ dopen d' ∧ ¬ holds (abs (dcxt d')) i.
Proof.
  set (r := dstep elts (DEditExample o1 o3 {[sb]}) d0). exists elts, o1, o3, {[sb]}, d0, r.1.
  split; [exact dreach_d0|]. assert (r.2 = Err NotUniqueObjectName) as Hr by dec.
  split; [change (r = (r.1, Err NotUniqueObjectName)); destruct r as [? ?]; cbn in *; by subst|].
  exists ({[sb]}, {[sa; sb]}). split; [dec|]. rewrite holds_forall. dec.
Qed.
Print Assumptions C75_open_refuted.
