(** * The basis of a context computed through its memoising wrappers: the final statements (C133) *)
From Verif Require Import Py Spec PyFacts SpecFacts ContextModel ContextSpec ContextOps ContextFacts ContextEffects ContextMisc
  ClosureModel ClosureFacts DgModel DgSpec DgCxt MemoModel MemoFacts CallModel CallFacts WrapModel WrapSpec WrapFacts
  Properties_Context Properties_Dg Properties_Memo.

(** ** C133 *)
(** As long as no basis computation has raised, the attribute implications are the basis of the
    current table, and a call that returns leaves the context as it was. *)
Theorem C133_current c l ords confirmed cond : calm (fresh c) l → wf (run c (mutators l)) →
  let m := mrun (fresh c) l in
  let r := compute_dg_basis (run c (mutators l)) ords confirmed cond in
  (get_attribute_implications m ords confirmed cond).2 = r ∧
  (is_ok r = true → (get_attribute_implications m ords confirmed cond).1 = m).
Proof.
  intros Hc Hw m r. destruct (calm_bare (fresh c) l) as [Hb Hm]; [done|done|]. fold m in Hb, Hm. cbn [fresh mc] in Hm.
  subst r. rewrite <-Hm in *. exact (attribute_implications_bare m ords confirmed cond Hw Hb).
Qed.
Print Assumptions C133_current.
(** In any state the result is determined by what the getters show: when that is the table of
    [c0], the result is the one of a new context [c0].  The getters show the same afterwards. *)
Theorem C133_shown m c0 ords confirmed cond : wf (mc m) → wf c0 → sees m c0 →
  (get_attribute_implications m ords confirmed cond).2 = (get_attribute_implications (fresh c0) ords confirmed cond).2 ∧
  sees (get_attribute_implications m ords confirmed cond).1 c0.
Proof.
  intros Hw Hw0 Hs. destruct (attribute_implications_sees m c0 ords confirmed cond Hw Hw0 Hs) as (H1 & H2 & _).
  destruct (attribute_implications_bare (fresh c0) ords confirmed cond Hw0) as [H3 _]; [done|].
  split; [by rewrite H1, H3|]. by eapply sees_view.
Qed.
Print Assumptions C133_shown.
(** Wrappers pile up: a call that raises adds one to each getter, a call that returns none. *)
Theorem C133_layers m c0 ords confirmed cond : wf (mc m) → wf c0 → sees m c0 →
  let '(m', r) := get_attribute_implications m ords confirmed cond in
  mc m' = mc m ∧
  length (ilayers m') = (if is_ok r then length (ilayers m) else S (length (ilayers m))) ∧
  length (elayers m') = (if is_ok r then length (elayers m) else S (length (elayers m))).
Proof.
  intros Hw Hw0 Hs. destruct (attribute_implications_sees m c0 ords confirmed cond Hw Hw0 Hs) as (H1 & H2 & n & -> & H3 & H4).
  destruct (get_attribute_implications m ords confirmed cond) as [m' r]. cbn [fst snd] in *. subst r.
  split; [apply H2|]. by destruct (is_ok _).
Qed.
Print Assumptions C133_layers.
(** Once wrappers are left over and every getter has been called, the basis is the one of the
    table shown then, for ever: whatever changes, reads, and basis computations follow, as long
    as the context has the same names when it is asked. *)
Theorem C133_stale_for_ever m c0 l ords confirmed cond :
  wf (mc m) → distinct (mc m) → good c0 → objs c0 ≠ [] → sees m c0 → ilayers m ≠ [] → elayers m ≠ [] →
  let m' := mrun m (read_all (length (objs c0)) (length (atts c0)) ++ l) in
  wf (mc m') → objs (mc m') = objs c0 → atts (mc m') = atts c0 →
  (get_attribute_implications m' ords confirmed cond).2 = compute_dg_basis c0 ords confirmed cond.
Proof.
  intros Hw Hd Hg Hne Hs Hil Hel m' Hw' Ho Ha. apply attribute_implications_sees; [done|apply Hg|].
  by apply (sees_for_ever m c0 l).
Qed.
Print Assumptions C133_stale_for_ever.

(** The attribute implications of [ex]; [left_over] is [ex] after [object_implications] raised. *)
Definition left_over : mcxt := mrun (fresh ex) [MObjImps elts None].
Definition change : list mop := [MMutate (OpSetObjectIntent [sc] o1)].
Lemma left_over_eq : left_over = push (fresh ex).
Proof.
  unfold left_over. cbn [mrun mstep].
  rewrite (object_implications_default (fresh ex) elts ex_good ltac:(done) eq_refl). done.
Qed.
Lemma left_over_sees : sees left_over ex.
Proof. rewrite left_over_eq. eapply sees_view; [|apply push_view]. by apply (bare_sees (fresh ex)). Qed.
Example C133_current_case : calm (fresh ex) change ∧
  (get_attribute_implications (fresh ex) elts (Some []) always).2 = Ok [({[sc]}, {[sa; sc]}); ({[sb]}, {[sa; sb]})] ∧
  (get_attribute_implications (mrun (fresh ex) change) elts (Some []) always).2 = Ok [({[sb]}, {[sa; sb; sc]})].
Proof. split; [by split|]. split; dec. Qed.
Example C133_stale_case :
  wf (mc left_over) ∧ distinct (mc left_over) ∧ sees left_over ex ∧ ilayers left_over ≠ [] ∧ elayers left_over ≠ [] ∧
  let m' := mrun left_over (read_all 4 3 ++ change) in
  good (mc m') ∧ objs (mc m') = objs ex ∧ atts (mc m') = atts ex.
Proof.
  split; [rewrite left_over_eq; apply ex_good|]. split; [rewrite left_over_eq; apply ex_good|]. split; [apply left_over_sees|].
  split; [by rewrite left_over_eq|]. split; [by rewrite left_over_eq|]. cbv zeta.
  destruct (set_object_intent_effect ex [sc] o1) as (c' & E & Hg & Ho & Ha & _); [apply ex_good..|dec| |].
  { intros a ->%elem_of_list_singleton. dec. }
  assert (mc (mrun left_over (read_all 4 3 ++ change)) = c') as ->; [|done].
  rewrite mrun_app. cbn [change mrun mstep mc fst]. rewrite read_all_mc, left_over_eq. cbn [push fresh mc step]. by rewrite E.
Qed.
(** The natural expectation "the attribute implications hold in the context" fails: *)
Theorem C133_holds_refuted :
  ∃ m R, m = mrun left_over (read_all 4 3 ++ change) ∧ good (mc m) ∧
    (get_attribute_implications m elts (Some []) always).2 = Ok R ∧ ({[sc]}, {[sa; sc]}) ∈ R ∧ sa ∉ acl (abs (mc m)) {[sc]}.
Proof.
  exists (mrun left_over (read_all 4 3 ++ change)), [({[sc]}, {[sa; sc]}); ({[sb]}, {[sa; sb]})].
  split; [done|]. split; [apply C133_stale_case|]. split; [dec|]. split; [dec|]. dec.
Qed.
Print Assumptions C133_holds_refuted.
(** and when only the rows have been read before the change, the result mixes the two tables: it
    contains an implication that fails in the new table and one that failed in the old one. *)
Theorem C133_one_table_refuted :
  ∃ m R, m = mrun left_over (map MReadI (seq 0 4) ++ change) ∧
    (get_attribute_implications m elts (Some []) always).2 = Ok R ∧
    ({[sc]}, {[sa]}) ∈ R ∧ sa ∉ acl (abs (mc m)) {[sc]} ∧ ({[sb]}, {[sa; sb; sc]}) ∈ R ∧ sc ∉ acl (abs ex) {[sb]}.
Proof.
  exists (mrun left_over (map MReadI (seq 0 4) ++ change)), [({[sc]}, {[sa]}); ({[sb]}, {[sa; sb; sc]})].
  split; [done|]. split; [dec|]. split; [dec|]. split; [dec|]. split; [dec|]. dec.
Qed.
Print Assumptions C133_one_table_refuted.
