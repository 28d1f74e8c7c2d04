(** * Numbers of steps: the final statements (C135) *)
From Verif Require Import Py Spec PyFacts SpecFacts ContextModel ContextSpec ContextFacts ClosureModel ClosureFacts LatticeModel
  CostModel CostFacts Properties_Context Properties_Closure Properties_Dg.

(** ** C135 *)
(** Counting does not change the results. *)
Theorem C135_results ord s imps c :
  (simple_closure_count s imps).1 = simple_closure s imps ∧
  (lin_closure_count ord s imps).1 = lin_closure ord s imps ∧
  (r ← norris_count c; Ok r.1) = norris c.
Proof.
  split; [|split].
  - unfold simple_closure_count, simple_closure. destruct (forallb hashable imps); [|done]. apply simple_count_erase.
  - unfold lin_closure_count, lin_closure. destruct imps; [done|]. destruct (forallb hashable _); [|done]. cbv zeta. apply lin_count_erase.
  - unfold norris_count, norris, norris_run. destruct (examples c) as [exs|e]; [|done]. cbn [mbind res_bind].
    by rewrite (norris_count_erase _ _ _ [(∅, list_to_set (atts c))]).
Qed.
Print Assumptions C135_results.
(** [simple_closure] with [n] implications makes at most [n + 1] passes and tests premises at most
    [n (n + 1) / 2] times. *)
Theorem C135_simple s imps passes tests r : simple_closure_count s imps = (r, (passes, tests)) →
  passes ≤ length imps + 1 ∧ 2 * tests ≤ length imps * (length imps + 1).
Proof.
  unfold simple_closure_count. destruct (forallb hashable imps); intros E; [|injection E as _ <- <-; lia].
  pose proof (simple_count_bound (S (length imps)) imps s 0 0 ltac:(lia)) as [H1 H2]. rewrite E in H1, H2. cbn [fst snd] in *. lia.
Qed.
Print Assumptions C135_simple.
(** [lin_closure] takes every attribute of the closure up exactly once, and decreases counters
    once for each attribute of the closure in each premise: at most as often as the premises have
    elements. *)
Theorem C135_linear ord s imps C : imps ≠ [] → (∀ k X, ord k X ≡ₚ elements X) → lin_closure ord s imps = Ok C →
  ∃ pops calls, lin_closure_count ord s imps = (Ok C, (pops, calls)) ∧ pops = size C ∧
    calls = sum_list (map (λ i : fimp, size (i.1 ∩ C)) imps) ∧ calls ≤ sum_list (map (λ i : fimp, size i.1) imps).
Proof.
  intros Hne Hord E. eexists _, _. split; [by apply lin_closure_count_exact|]. split; [done|]. split; [done|].
  unfold occurrences. clear. induction imps as [|i l IH]; [done|]. cbn. pose proof (subseteq_size (i.1 ∩ C) i.1 ltac:(set_solver)). lia.
Qed.
Print Assumptions C135_linear.
(** [norris] looks at concepts at most (number of objects) x (number of concepts) times, and at
    earlier objects at most n (n - 1) / 2 times for each concept. *)
Theorem C135_norris c cs visits checks : wf c → norris_count c = Ok (cs, (visits, checks)) →
  visits ≤ length (objs c) * length cs ∧
  2 * checks ≤ length (objs c) * (length (objs c) - 1) * length cs.
Proof.
  intros Hw. unfold norris_count. destruct (examples c) as [exs|e] eqn:Hex; [|done]. cbn [mbind res_bind]. intros E.
  set (rows := take _ _) in E. pose proof (norris_count_bound [] rows [(∅, list_to_set (atts c))] 0 0) as H.
  assert (length rows ≤ length (objs c)) as Hl.
  { unfold rows. rewrite take_length, (wf_rows c Hw). lia. }
  assert (norris_rows_count [] rows [(∅, list_to_set (atts c))] 0 0 = (cs, (visits, checks))) as E' by congruence.
  rewrite E' in H. destruct H as (_ & H1 & H2). cbn [length] in H2. split.
  - etransitivity; [exact H1|]. cbn. by apply Nat.mul_le_mono_r.
  - etransitivity; [exact H2|]. cbn. apply Nat.mul_le_mono_r. rewrite Nat.mul_comm. apply Nat.mul_le_mono; lia.
Qed.
Print Assumptions C135_norris.

(** The bounds are reached: two implications against their order, and a table of three full rows. *)
Definition chain : list fimp := [({[sb]}, {[sc]}); ({[sa]}, {[sb]})].
Definition full := get_ok empty_cxt (mk_context [[true]; [true]; [true]] None [o1; o2; o3] [sa]).
Example C135_case :
  simple_closure_count {[sa]} chain = (Ok {[sa; sb; sc]}, (3, 3)) ∧
  lin_closure_count (λ _, elements) {[sa]} chain = (Ok {[sa; sb; sc]}, (3, 2)) ∧
  (r ← norris_count full; Ok (length r.1, r.2)) = Ok (1, (3, 0)) ∧
  (r ← norris_count ex; Ok (length r.1, r.2)) = Ok (5, (11, 13)).
Proof. split; [dec|]. split; [dec|]. split; dec. Qed.
