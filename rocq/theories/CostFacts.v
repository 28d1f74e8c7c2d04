(** * Facts on the numbers of steps *)
From Verif Require Import Py Spec PyFacts SpecFacts ContextModel ContextSpec ContextFacts ClosureModel ClosureFacts LatticeModel CostModel.

(** ** simple_closure *)
Lemma simple_count_erase fuel unused C p t : (simple_loop_count fuel unused C p t).1 = simple_loop fuel unused C.
Proof.
  revert unused C p t. induction fuel as [|fuel IH]; intros unused C p t; [done|]. cbn [simple_loop_count simple_loop].
  destruct (foldl simple_pass (C, []) unused) as [C' [|i rem]]; [done|]. apply IH.
Qed.
Lemma simple_pass_rem unused C rem : 
  ∀ i, i ∈ (foldl simple_pass (C, rem) unused).2 → i ∈ rem ∨ i ∈ unused.
Proof.
  revert C rem. induction unused as [|j l IH]; intros C rem i; cbn [foldl]; [by left|]. unfold simple_pass at 2. cbn [fst snd].
  destruct (bool_decide (j.1 ⊆ C)); intros [H|H]%IH; [|right; by right|by left|right; by right].
  apply elem_of_cons in H as [->|H]; [right; left|by left].
Qed.
Lemma imp_eqb_refl i : imp_eqb i i = true.
Proof. unfold imp_eqb. by rewrite !bool_decide_true. Qed.
Lemma filter_length_lt {A} (f : A → bool) l x : x ∈ l → f x = false → length (List.filter f l) < length l.
Proof.
  assert (∀ l, length (List.filter f l) ≤ length l) as Hle.
  { clear. induction l as [|y l IH]; [done|]. cbn. destruct (f y); cbn; lia. }
  intros Hx Hf. induction l as [|y l IH]; [by apply elem_of_nil in Hx|]. cbn. apply elem_of_cons in Hx as [<-|Hx].
  - rewrite Hf. pose proof (Hle l). lia.
  - pose proof (IH Hx). destruct (f y); cbn; lia.
Qed.
Lemma simple_count_bound fuel unused C p t : length unused < fuel →
  (simple_loop_count fuel unused C p t).2.1 ≤ S (length unused) + p ∧
  2 * (simple_loop_count fuel unused C p t).2.2 ≤ length unused * S (length unused) + 2 * t.
Proof.
  revert unused C p t. induction fuel as [|fuel IH]; intros unused C p t Hf; [lia|]. cbn [simple_loop_count].
  pose proof (simple_pass_rem unused C []) as Hrem.
  destruct (foldl simple_pass (C, []) unused) as [C' [|i rem]]; cbn [fst snd] in *; [nia|].
  assert (i ∈ unused) as Hi. { destruct (Hrem i) as [H|H]; [left|by apply elem_of_nil in H|done]. }
  set (un := List.filter _ unused).
  assert (length un < length unused) as Hlt.
  { apply (filter_length_lt _ _ i Hi). cbn [existsb]. by rewrite imp_eqb_refl. }
  destruct (IH un C' (S p) (t + length unused)) as [H1 H2]; [lia|]. split; [lia|].
  assert (length un * S (length un) ≤ (length unused - 1) * length unused) by (apply Nat.mul_le_mono; lia). nia.
Qed.

(** ** lin_closure *)
Lemma lin_count_erase ord imps fuel k update C count p q :
  (lin_loop_count ord imps fuel k update C count p q).1 = lin_loop ord imps fuel k update C count.
Proof.
  revert k update C count p q. induction fuel as [|fuel IH]; intros k update C count p q; destruct update as [|m update]; try done.
  cbn [lin_loop_count lin_loop]. destruct (decrease_all count _) as [count' a]. apply IH.
Qed.
(** How often the attributes of [D] occur in the premises. *)
Definition occurrences (imps : list fimp) (D : gset name) : nat := sum_list (map (λ i : fimp, size (i.1 ∩ D)) imps).
Lemma occurrences_empty imps : occurrences imps ∅ = 0.
Proof.
  induction imps as [|i l IH]; [done|]. unfold occurrences in *. cbn. rewrite IH.
  assert (i.1 ∩ ∅ = ∅) as -> by set_solver. by rewrite size_empty.
Qed.
Lemma occurrences_add imps (D : gset name) m : m ∉ D →
  occurrences imps ({[m]} ∪ D) = occurrences imps D + length (List.filter (fun i : fimp => bool_decide (m ∈ i.1)) imps).
Proof.
  intros Hm. induction imps as [|i l IH]; [done|]. unfold occurrences in *. cbn. rewrite IH. case_bool_decide as Hi; cbn.
  - assert (i.1 ∩ ({[m]} ∪ D) = {[m]} ∪ i.1 ∩ D) as -> by (clear -Hi; set_solver).
    rewrite size_union, size_singleton by (clear -Hm; set_solver). lia.
  - assert (i.1 ∩ ({[m]} ∪ D) = i.1 ∩ D) as -> by (clear -Hi; set_solver). lia.
Qed.
Lemma step_set (C add : gset name) m (u o : list name) : m ∈ C → m ∉ u → add ## C → o ≡ₚ elements add →
  (C ∪ add) ∖ list_to_set (reverse o ++ u) = {[m]} ∪ (C ∖ list_to_set (m :: u)).
Proof.
  intros HmC Hmu Hdis Ho. apply set_eq. intros x.
  rewrite elem_of_difference, !elem_of_union, elem_of_difference, elem_of_list_to_set, elem_of_list_to_set,
    elem_of_app, elem_of_reverse, Ho, elem_of_elements, elem_of_singleton, elem_of_cons.
  specialize (Hdis x). destruct (decide (x = m)) as [->|Hx]; [|tauto].
  split; [by left|]. intros _. split; [by left|]. intros [H|H]; tauto.
Qed.
Lemma lin_count_exact ord imps fuel k update C count p q C' : (∀ k X, ord k X ≡ₚ elements X) →
  NoDup update → (∀ x, x ∈ update → x ∈ C) →
  p = size (C ∖ list_to_set update) → q = occurrences imps (C ∖ list_to_set update) →
  (lin_loop_count ord imps fuel k update C count p q).1 = Ok C' →
  (lin_loop_count ord imps fuel k update C count p q).2 = (size C', occurrences imps C').
Proof.
  intros Hord. revert k update C count p q. induction fuel as [|fuel IH]; intros k update C count p q Hnd Hsub Hp Hq.
  - destruct update; [|done]. cbn [lin_loop_count fst snd]. intros E. assert (C' = C) as -> by congruence.
    rewrite Hp, Hq, list_to_set_nil, difference_empty_L. done.
  - destruct update as [|m update]; cbn [lin_loop_count].
    + cbn [fst snd]. intros E. assert (C' = C) as -> by congruence. rewrite Hp, Hq, list_to_set_nil, difference_empty_L. done.
    + destruct (decrease_all count _) as [count' a]. apply NoDup_cons in Hnd as [Hm Hnd].
      assert (m ∈ C) as HmC by (apply Hsub; left). assert (∀ x, x ∈ update → x ∈ C) as Hsub' by (intros x Hx; apply Hsub; by right).
      clear Hsub. assert (a ∖ C ## C) as Hdis by (intros x [_ H1]%elem_of_difference H2; done).
      revert Hdis. generalize (a ∖ C). intros add Hdis.
      assert (m ∉ C ∖ list_to_set (m :: update)) as Hnew.
      { intros [_ H]%elem_of_difference. apply H, elem_of_list_to_set. left. }
      pose proof (step_set C add m update (ord k add) HmC Hm Hdis (Hord k add)) as Hstep.
      apply IH.
      * apply NoDup_app. split; [rewrite reverse_Permutation, Hord; apply NoDup_elements|]. split; [|done].
        intros x. rewrite elem_of_reverse, Hord, elem_of_elements. intros Hx Hu. by apply (Hdis x Hx), Hsub'.
      * intros x. rewrite elem_of_app, elem_of_reverse, Hord, elem_of_elements, elem_of_union. intros [Hx|Hx]; [by right|left; auto].
      * rewrite Hstep, size_union, size_singleton; [lia|]. intros x ->%elem_of_singleton. done.
      * rewrite Hstep, occurrences_add by done. by rewrite Hq.
Qed.
Lemma lin_closure_count_exact ord s imps C : imps ≠ [] → (∀ k X, ord k X ≡ₚ elements X) →
  lin_closure ord s imps = Ok C →
  lin_closure_count ord s imps = (Ok C, (size C, occurrences imps C)).
Proof.
  intros Hne Hord. destruct imps as [|i0 l]; [done|]. unfold lin_closure, lin_closure_count. generalize (i0 :: l). clear Hne i0 l. intros imps.
  destruct (forallb hashable imps); [|done]. cbv zeta. rewrite <-(lin_count_erase _ _ _ _ _ _ _ 0 0). intros E.
  match type of E with (lin_loop_count ?o ?i ?f ?k ?u ?c ?ct 0 0).1 = _ =>
    pose proof (lin_count_exact o i f k u c ct 0 0 C Hord) as H; destruct (lin_loop_count o i f k u c ct 0 0) as [r pq] end.
  cbn [fst snd] in *. subst r. f_equal. apply H; [| | | |done].
  - rewrite reverse_Permutation, Hord. apply NoDup_elements.
  - intros x. by rewrite elem_of_reverse, Hord, elem_of_elements.
  - match goal with |- 0 = size (?X ∖ ?Y) => assert (X ∖ Y = ∅) as -> end; [|by rewrite size_empty].
    apply set_eq. intros x. rewrite elem_of_difference, elem_of_list_to_set, elem_of_reverse, Hord, elem_of_elements. set_solver.
  - match goal with |- 0 = occurrences _ (?X ∖ ?Y) => assert (X ∖ Y = ∅) as -> end; [|by rewrite occurrences_empty].
    apply set_eq. intros x. rewrite elem_of_difference, elem_of_list_to_set, elem_of_reverse, Hord, elem_of_elements. set_solver.
Qed.

(** ** Norris' algorithm *)
Lemma norris_count_erase prev rows cs tr v q : (norris_rows_count prev rows cs v q).1 = (norris_rows prev rows cs tr).1.
Proof. revert prev cs tr v q. induction rows as [|row rows IH]; intros prev cs tr v q; [done|]. cbn. apply IH. Qed.
Lemma norris_new_count_le prev A N : norris_new_count prev A N ≤ length prev.
Proof. induction prev as [|p prev IH]; [done|]. cbn. destruct (_ && _); lia. Qed.
Lemma norris_count_bound prev rows cs v q :
  let '(cs', (v', q')) := norris_rows_count prev rows cs v q in
  length cs ≤ length cs' ∧ v' ≤ v + length rows * length cs' ∧
  2 * q' ≤ 2 * q + (2 * length prev + (length rows - 1)) * length rows * length cs'.
Proof.
  revert prev cs v q. induction rows as [|row rows IH]; intros prev cs v q; cbn [norris_rows_count]; [lia|].
  set (r := map (norris_one prev row) cs). set (w := sum_list _).
  specialize (IH (prev ++ [row]) (map fst r ++ omap snd r) (v + length cs) (q + w)).
  destruct (norris_rows_count _ rows _ _ _) as [cs' [v' q']]. destruct IH as (H1 & H2 & H3).
  rewrite app_length in H1. unfold r in H1. rewrite !map_length in H1. rewrite app_length in H3. cbn [length] in *.
  assert (w ≤ length prev * length cs) as Hw.
  { unfold w. clear. induction cs as [|x cs IH]; cbn; [lia|]. pose proof (norris_new_count_le prev x.1 (x.2 ∩ row.2)).
    destruct (bool_decide _); nia. }
  assert (length cs ≤ length cs') as Hle by lia. split; [lia|]. split; [nia|].
  assert (length prev * length cs ≤ length prev * length cs') by nia.
  destruct rows as [|row' rows]; cbn [length] in *; nia.
Qed.
