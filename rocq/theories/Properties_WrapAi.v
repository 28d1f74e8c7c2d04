(** * The incremental basis of a context computed through its memoising wrappers: the final statements (C134) *)
From Verif Require Import Py Spec PyFacts SpecFacts ContextModel ContextSpec ContextOps ContextFacts ContextEffects ContextMisc
  ClosureModel ClosureFacts DgModel MemoModel MemoFacts AiModel WrapModel WrapSpec WrapFacts WrapAiModel WrapAiFacts
  Properties_Context Properties_Dg Properties_Memo Properties_Ai Properties_Wrap.

(** ** C134 *)
Theorem C134_current c l srt : calm (fresh c) l → good (run c (mutators l)) →
  let m := mrun (fresh c) l in
  let r := compute_canonical_basis srt (run c (mutators l)) in
  (get_attribute_canonical_basis m srt).2 = r ∧
  (is_ok r = true → (get_attribute_canonical_basis m srt).1 = m).
Proof.
  intros Hc Hg m r. destruct (calm_bare (fresh c) l) as [Hb Hm]; [done|done|]. fold m in Hb, Hm. cbn [fresh mc] in Hm.
  subst r. rewrite <-Hm in *. exact (canonical_bare m srt Hg Hb).
Qed.
Print Assumptions C134_current.
(** The result is the one of a new context with the table shown by the getters, which show the
    same afterwards; a call that raises adds a wrapper to each getter. *)
Theorem C134_shown m c0 srt : wf (mc m) → distinct (mc m) → good c0 → sees m c0 →
  let '(m', r) := get_attribute_canonical_basis m srt in
  r = (get_attribute_canonical_basis (fresh c0) srt).2 ∧ sees m' c0 ∧ mc m' = mc m ∧
  length (ilayers m') = (if is_ok r then length (ilayers m) else S (length (ilayers m))) ∧
  length (elayers m') = (if is_ok r then length (elayers m) else S (length (elayers m))).
Proof.
  intros Hw Hd Hg Hs. destruct (canonical_sees m c0 srt Hw Hd Hg Hs) as (H1 & H2 & n & -> & H3 & H4).
  destruct (canonical_bare (fresh c0) srt Hg) as [H5 _]; [done|]. rewrite H5. cbn [fresh mc].
  destruct (get_attribute_canonical_basis m srt) as [m' r]. cbn [fst snd] in *. subst r.
  split; [done|]. split; [by eapply sees_view|]. split; [apply H2|]. by destruct (is_ok _).
Qed.
Print Assumptions C134_shown.
(** The two ways to compute a basis look at the same table, also when it is an old one. *)
Theorem C134_same_table m c0 srt ords confirmed cond : wf (mc m) → distinct (mc m) → good c0 → sees m c0 →
  (get_attribute_implications (get_attribute_canonical_basis m srt).1 ords confirmed cond).2
    = compute_dg_basis c0 ords confirmed cond ∧
  (get_attribute_canonical_basis (get_attribute_implications m ords confirmed cond).1 srt).2 = compute_canonical_basis srt c0.
Proof.
  intros Hw Hd Hg Hs. destruct (canonical_sees m c0 srt Hw Hd Hg Hs) as (_ & H2 & _).
  destruct (attribute_implications_sees m c0 ords confirmed cond Hw (good_wf _ Hg) Hs) as (_ & G2 & _). split.
  - apply attribute_implications_sees; [by rewrite (proj1 H2)|apply Hg|by eapply sees_view].
  - apply canonical_sees; [by rewrite (proj1 G2)..|done|by eapply sees_view].
Qed.
Print Assumptions C134_same_table.
Theorem C134_stale_for_ever m c0 l srt :
  wf (mc m) → distinct (mc m) → good c0 → objs c0 ≠ [] → sees m c0 → ilayers m ≠ [] → elayers m ≠ [] →
  let m' := mrun m (read_all (length (objs c0)) (length (atts c0)) ++ l) in
  good (mc m') → objs (mc m') = objs c0 → atts (mc m') = atts c0 →
  (get_attribute_canonical_basis m' srt).2 = compute_canonical_basis srt c0.
Proof.
  intros Hw Hd Hg Hne Hs Hil Hel m' Hg' Ho Ha. apply canonical_sees; [apply Hg'|apply Hg'|done|].
  apply (sees_for_ever m c0 l); try done. apply Hg'.
Qed.
Print Assumptions C134_stale_for_ever.
Example C134_case : calm (fresh ex) change ∧
  (get_attribute_canonical_basis (fresh ex) cpython_sort).2 = Ok [({[sb]}, {[sa; sb]}); ({[sc]}, {[sa; sc]})] ∧
  (get_attribute_canonical_basis (mrun (fresh ex) change) cpython_sort).2 = Ok [({[sb]}, {[sa; sb; sc]})].
Proof. split; [by split|]. split; dec. Qed.
(** The premises of [C134_stale_for_ever] and [C134_same_table] hold in [C133_stale_case]. *)
Theorem C134_holds_refuted :
  ∃ m R, m = mrun left_over (read_all 4 3 ++ change) ∧ good (mc m) ∧
    (get_attribute_canonical_basis m cpython_sort).2 = Ok R ∧ ({[sc]}, {[sa; sc]}) ∈ R ∧ sa ∉ acl (abs (mc m)) {[sc]}.
Proof.
  exists (mrun left_over (read_all 4 3 ++ change)), [({[sb]}, {[sa; sb]}); ({[sc]}, {[sa; sc]})].
  split; [done|]. split; [apply C133_stale_case|]. split; [dec|]. split; [dec|]. dec.
Qed.
Print Assumptions C134_holds_refuted.
