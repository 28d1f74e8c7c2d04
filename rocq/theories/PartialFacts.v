(** * Facts about partial contexts *)
From Verif Require Import Py Spec PyFacts SpecFacts ContextModel ContextSpec ContextInit ContextOps ContextFacts ContextEffects
  ContextFinal ClosureModel ClosureFacts DgSpec DgModel DgFacts DgMain DgCons DgCxt DgFinal StrModel StrFacts PartialModel PartialSpec.

Lemma elem_of_row c g m : m ∈ row c g ↔ incident c g m.
Proof.
  unfold row. rewrite elem_of_up, <-elem_of_fI. split.
  - intros [_ H]. apply H. by apply elem_of_singleton.
  - intros H. split; [|by intros ? ->%elem_of_singleton].
    apply elem_of_fI in H as (i & j & r & _ & Hj & _). cbn. apply elem_of_list_to_set. by eapply elem_of_list_lookup_2.
Qed.
Lemma row_atts c g m : m ∈ row c g → m ∈ atts c.
Proof. intros (i & j & r & _ & Hj & _)%elem_of_row. by eapply elem_of_list_lookup_2. Qed.
Lemma row_sub p g : partial_ok p → row (px p) g ⊆ row (pq p) g.
Proof. intros Hp m. rewrite !elem_of_row. apply (ok_sub _ Hp). Qed.
Lemma get_row c g : good c → g ∈ objs c → get_object_intent c g = Ok (row c g).
Proof. intros Hg. apply get_object_intent_spec; apply Hg. Qed.

(** ** Construction *)
Lemma subseteq_table_true arr l r b : subseteq_table arr l r = Ok b → b = true ∧ length l = length r ∧ ∃ l' r', l = [] :: l' ∧ r = [] :: r'.
Proof.
  unfold subseteq_table. destruct (Nat.eqb_spec (length l) (length r)) as [E|]; [|done]. cbn [negb].
  destruct l as [|rl l'], r as [|rr r']; [done..|]. destruct (Nat.eqb_spec (length rl) (length rr)) as [E'|]; [|done].
  cbn [negb]. destruct (Nat.eqb_spec (length (rl :: l') * length rl) 0) as [E2|]; [|done]. intros [= <-].
  split; [done|]. split; [done|]. destruct rl; [|cbn in E2; lia]. destruct rr; [|done]. eauto.
Qed.

Lemma new_partial_inv arr xt qt os ats p : new_partial arr xt qt os ats = Ok p →
  ats = [] ∧ os ≠ [] ∧ xt = replicate (length os) [] ∧ qt = replicate (length os) [] ∧
  p_objs p = os ∧ p_atts p = [] ∧ atts (px p) = [] ∧ atts (pq p) = [].
Proof.
  unfold new_partial. destruct (subseteq_table arr xt qt) as [b|] eqn:E; [|done].
  apply subseteq_table_true in E as (-> & El & l' & r' & Ex & Eq). cbn [mbind res_bind].
  destruct (mk_context xt None os ats) as [x|] eqn:Hx; [|done]. cbn [mbind res_bind].
  destruct (mk_context qt None os ats) as [q|] eqn:Hq; [|done]. cbn [mbind res_bind]. intros [= <-]. cbn.
  apply mk_context_Ok in Hx as (Hx1 & Hx2 & _ & Hx3 & _). apply mk_context_Ok in Hq as (Hq1 & Hq2 & _ & Hq3 & _).
  assert (ats = []) as ->. { subst xt. apply Forall_cons in Hx2 as [H _]. by destruct ats. }
  assert (∀ t : list (list bool), length t = length os → Forall (λ r, length r = length (A := name) []) t → t = replicate (length os) []) as H.
  { intros t Hl Ht. rewrite <-Hl. clear -Ht. induction Ht as [|r t Hr Ht IH]; [done|]. cbn. rewrite <-IH. by destruct r. }
  split; [done|]. split. { intros ->. subst xt. done. }
  split; [by apply H|]. split; [by apply H|]. done.
Qed.
Lemma new_partial_ok arr xt qt os ats : is_ok (new_partial arr xt qt os ats) = true ↔
  ats = [] ∧ os ≠ [] ∧ xt = replicate (length os) [] ∧ qt = replicate (length os) [].
Proof.
  split.
  - destruct (new_partial arr xt qt os ats) as [p|] eqn:E; [|done]. intros _.
    apply new_partial_inv in E. tauto.
  - intros (-> & Hne & -> & ->). destruct os as [|o os]; [done|]. unfold new_partial.
    assert (subseteq_table arr (replicate (length (o :: os)) []) (replicate (length (o :: os)) []) = Ok true) as ->.
    { unfold subseteq_table. rewrite Nat.eqb_refl. cbn. by rewrite Nat.mul_0_r. }
    cbn [mbind res_bind]. destruct (mk_context_ok (replicate (length (o :: os)) []) None (o :: os) []) as [c ->].
    + apply replicate_length.
    + by intros r [-> _]%elem_of_replicate.
    + done.
Qed.
Lemma new_partial_cells arr xt qt os ats rx rq : length xt = length qt → xt !! 0 = Some rx → qt !! 0 = Some rq →
  length rx = length rq → rx ≠ [] → new_partial arr xt qt os ats = Err (if arr then IndexError else TypeError).
Proof.
  intros H1 H2 H3 H4 H5. unfold new_partial, subseteq_table. destruct xt as [|rx' xt], qt as [|rq' qt]; [done..|].
  injection H2 as ->. injection H3 as ->. rewrite (proj2 (Nat.eqb_eq _ _) H1), (proj2 (Nat.eqb_eq _ _) H4). cbn [negb].
  destruct rx as [|b rx]; [done|]. destruct (Nat.eqb_spec (length ((b :: rx) :: xt) * length (b :: rx)) 0) as [E|]; [cbn in E; lia|done].
Qed.

Lemma reinit_atts c t z os : atts c = [] → atts (reinit c t z os []).1 = [].
Proof.
  intros H. unfold reinit. destruct (mk_context t z os []) as [c'|] eqn:E; [|done].
  apply mk_context_Ok in E as (_ & _ & _ & E & _). exact E.
Qed.
Lemma add_object_no_atts c row o : atts c = [] → atts (add_object c row o).1 = [].
Proof.
  intros H. unfold add_object. repeat case_match; try done; rewrite ?H; by apply reinit_atts.
Qed.
Lemma set_object_intent_no_atts c l o : atts c = [] → atts (set_object_intent c l o).1 = [].
Proof. intros H. unfold set_object_intent. case_match; [|done]. rewrite H. by apply reinit_atts. Qed.
Definition no_atts (p : pcontext) : Prop := p_objs p ≠ [] ∧ p_atts p = [] ∧ atts (px p) = [] ∧ atts (pq p) = [].
Lemma complete_object_no_atts imps p o : no_atts p → no_atts (complete_object imps p o).1.
Proof.
  intros (H0 & H1 & H2 & H3). unfold complete_object. match goal with |- context [match ?r with Ok _ => _ | Err _ => _ end] => destruct r as [[g g0]|e] end; [|done].
  pose proof (set_object_intent_no_atts (px p) (elements g) o H2) as Hx.
  destruct (set_object_intent (px p) (elements g) o) as [x [[]|e]]; [|done]. cbn in Hx.
  destruct (keep_possible imps g g0 (elements g0)) as [nq|]; [|done].
  pose proof (set_object_intent_no_atts (pq p) nq o H3) as Hq. by destruct (set_object_intent (pq p) nq o) as [q r].
Qed.
Lemma complete_loop_no_atts imps p l : no_atts p → no_atts (complete_loop imps p l).1.
Proof.
  revert p. induction l as [|o l IH]; intros p Hp; [done|]. cbn [complete_loop].
  pose proof (complete_object_no_atts imps p o Hp) as H. destruct (complete_object imps p o) as [p' [[]|e]]; [|done]. by apply IH.
Qed.
Lemma p_transpose_err p : no_atts p → p_transpose p = Err IndexError.
Proof. intros (_ & H & _). unfold p_transpose. by rewrite H. Qed.
Lemma reachable_no_atts p : reachable p → no_atts p.
Proof.
  induction 1 as [arr xt qt os ats p H|p p' _ IH H|p p' _ IH H|p intent o _ IH|p imps _ IH].
  - apply new_partial_inv in H as (_ & H1 & _ & _ & <- & H2 & H3 & H4). done.
  - unfold p_deepcopy in H. apply new_partial_inv in H as (_ & H1 & _ & _ & E & H2 & H3 & H4). unfold no_atts. by rewrite E.
  - by rewrite p_transpose_err in H.
  - destruct IH as (H0 & H1 & H2 & H3). unfold p_add_object_with_intent. case_bool_decide; [|done].
    unfold add_object_with_intent.
    pose proof (add_object_no_atts (px p) (map (λ a, bool_decide (a ∈ intent.1)) (atts (px p))) o H2) as Hx.
    destruct (add_object (px p) _ o) as [x [[]|e]]; [|done].
    pose proof (add_object_no_atts (pq p) (map (λ a, bool_decide (a ∈ intent.2)) (atts (pq p))) o H3) as Hq.
    destruct (add_object (pq p) _ o) as [q [[]|e]]; [|done]. split; [|done]. cbn. by destruct (p_objs p).
  - by apply complete_loop_no_atts.
Qed.

(** ** Adding an example *)
Lemma p_add_spec p C P o : partial_ok p → C ⊆ P → P ⊆ list_to_set (p_atts p) → o ∉ p_objs p →
  ∃ p', p_add_object_with_intent p (C, P) o = (p', Ok tt) ∧ partial_ok p' ∧ p_objs p' = p_objs p ++ [o] ∧ p_atts p' = p_atts p ∧
    row (px p') o = C ∧ row (pq p') o = P ∧
    ∀ g, g ≠ o → row (px p') g = row (px p) g ∧ row (pq p') g = row (pq p) g.
Proof.
  intros Hp HCP HP Ho. unfold p_add_object_with_intent. cbn [fst snd]. rewrite bool_decide_true by done.
  destruct Hp as [Hx Hq E1 E2 E3 E4 Hs].
  destruct (add_object_with_intent_effect (px p) C o) as (x & -> & Hgx & Ex1 & Ex2 & HIx); [apply Hx|apply Hx|by rewrite E1|].
  destruct (add_object_with_intent_effect (pq p) P o) as (q & -> & Hgq & Eq1 & Eq2 & HIq); [apply Hq|apply Hq|by rewrite E2|].
  assert (∀ m, m ∈ P → m ∈ p_atts p) as HPa. { intros m Hm%HP. by apply elem_of_list_to_set in Hm. }
  assert (∀ c m, objs c = p_objs p → ¬ incident c o m) as Hno.
  { intros c m E (i & j & r & Hi & _). apply Ho. rewrite <-E. by eapply elem_of_list_lookup_2. }
  eexists. split; [done|]. cbn. split; [constructor; cbn|].
  - done.
  - done.
  - by rewrite Ex1, E1.
  - by rewrite Eq1, E2.
  - by rewrite Ex2.
  - by rewrite Eq2.
  - intros g m. rewrite HIx, HIq, E3, E4. clear -HCP Hs. set_solver.
  - split; [done|]. split; [done|]. split; [|split].
    + apply set_eq. intros m. rewrite elem_of_row, HIx, E3. split.
      * intros [H|H]; [by apply Hno in H|tauto].
      * intros Hm. right. split; [done|]. split; [|done]. by apply HPa, HCP.
    + apply set_eq. intros m. rewrite elem_of_row, HIq, E4. split.
      * intros [H|H]; [by apply Hno in H|tauto].
      * intros Hm. right. split; [done|]. split; [|done]. by apply HPa.
    + intros g Hg. split; apply set_eq; intros m; rewrite !elem_of_row, ?HIx, ?HIq; tauto.
Qed.
Lemma p_add_inconsistent p C P o : ¬ C ⊆ P → p_add_object_with_intent p (C, P) o = (p, Err ValueError).
Proof. intros H. unfold p_add_object_with_intent. cbn [fst snd]. by rewrite bool_decide_false. Qed.

(** ** Completion *)
Section complete.
  Context (L : list fimp) (Hh : ∀ i, i ∈ L → hashable i = true).

  Lemma keep_possible_spec nx qi l : ∃ k, keep_possible L nx qi l = Ok k ∧
    ∀ a, a ∈ k ↔ a ∈ l ∧ (a ∈ nx ∨ ∃ C, is_closure L (nx ∪ {[a]}) C ∧ C ⊆ qi).
  Proof.
    induction l as [|a l (k & Hk & IH)]; cbn [keep_possible].
    { exists []. split; [done|]. intros a. rewrite elem_of_nil. tauto. }
    destruct (simple_closure_spec (nx ∪ {[a]}) L Hh) as (C & HC & Hcl).
    assert (∀ D, is_closure L (nx ∪ {[a]}) D → D = C) as Hu.
    { intros D (D1 & D2 & D3). destruct Hcl as (C1 & C2 & C3). apply set_eq. intros x. split; [by apply D3|by apply C3]. }
    rewrite HC, Hk. destruct (bool_decide (a ∈ nx)) eqn:E1; [apply bool_decide_eq_true in E1|apply bool_decide_eq_false in E1]; cbn [mbind res_bind].
    - exists (a :: k). split; [done|]. intros b. rewrite !elem_of_cons, IH. split; [|tauto].
      intros [->|?]; tauto.
    - destruct (bool_decide (C ⊆ qi)) eqn:E2; [apply bool_decide_eq_true in E2|apply bool_decide_eq_false in E2]; cbn [mbind res_bind].
      + exists (a :: k). split; [done|]. intros b. rewrite !elem_of_cons, IH. split; [|tauto].
        intros [->|?]; [|tauto]. split; [by left|]. right. by exists C.
      + exists k. split; [done|]. intros b. rewrite elem_of_cons, IH. split; [tauto|].
        intros [[->|Hb] HH]; [|tauto]. exfalso. destruct HH as [?|(D & HD & HDq)]; [done|]. apply E2. by rewrite <-(Hu D).
  Qed.

  Lemma fills_closure C P D : is_closure L C D → (∃ Y, fills L C P Y) ↔ D ⊆ P.
  Proof.
    intros (H1 & H2 & H3). split.
    - intros (Y & Y1 & Y2 & Y3). trans Y; [by apply H3|done].
    - intros H. by exists D.
  Qed.

  Lemma complete_object_none p o : partial_ok p → o ∈ p_objs p → ¬ (∃ Y, fills L (row (px p) o) (row (pq p) o) Y) →
    complete_object L p o = (p, Err ValueError).
  Proof.
    intros Hp Ho Hno. unfold complete_object.
    rewrite (get_row (px p)) by (first [exact (ok_x _ Hp)|by rewrite (ok_xo _ Hp)]). cbn [mbind res_bind].
    destruct (simple_closure_spec (row (px p) o) L Hh) as (D & -> & HD). cbn [mbind res_bind].
    rewrite (get_row (pq p)) by (first [exact (ok_q _ Hp)|by rewrite (ok_qo _ Hp)]). cbn [mbind res_bind].
    rewrite bool_decide_false; [done|]. by rewrite <-(fills_closure _ _ _ HD).
  Qed.
  Lemma complete_object_some p o : partial_ok p → o ∈ p_objs p → (∃ Y, fills L (row (px p) o) (row (pq p) o) Y) →
    ∃ p', complete_object L p o = (p', Ok tt) ∧ partial_ok p' ∧ p_objs p' = p_objs p ∧ p_atts p' = p_atts p ∧
      completed L (row (px p) o) (row (pq p) o) (row (px p') o) (row (pq p') o) ∧
      ∀ g, g ≠ o → row (px p') g = row (px p) g ∧ row (pq p') g = row (pq p) g.
  Proof.
    intros Hp Ho Hex. unfold complete_object.
    rewrite (get_row (px p)) by (first [exact (ok_x _ Hp)|by rewrite (ok_xo _ Hp)]). cbn [mbind res_bind].
    destruct (simple_closure_spec (row (px p) o) L Hh) as (D & -> & HD). cbn [mbind res_bind].
    rewrite (get_row (pq p)) by (first [exact (ok_q _ Hp)|by rewrite (ok_qo _ Hp)]). cbn [mbind res_bind].
    apply (fills_closure _ _ _ HD) in Hex as HDq. rewrite bool_decide_true by done.
    destruct (keep_possible_spec D (row (pq p) o) (elements (row (pq p) o))) as (k & Hk & Hkm). rewrite Hk.
    setoid_rewrite elem_of_elements in Hkm.
    destruct Hp as [Hx Hq E1 E2 E3 E4 Hs].
    destruct (set_object_intent_effect (px p) (elements D) o) as (x & -> & Hgx & Ex1 & Ex2 & HIx); [apply Hx|apply Hx|by rewrite E1| |].
    { intros a Ha%elem_of_elements%HDq%row_atts. congruence. }
    destruct (set_object_intent_effect (pq p) k o) as (q & -> & Hgq & Eq1 & Eq2 & HIq); [apply Hq|apply Hq|by rewrite E2| |].
    { intros a [Ha%row_atts _]%Hkm. done. }
    assert (row x o = D) as Rx. { apply set_eq. intros m. rewrite elem_of_row, HIx, elem_of_elements. tauto. }
    assert (∀ m, m ∈ row q o ↔ m ∈ k) as Rq. { intros m. rewrite elem_of_row, HIq. tauto. }
    assert (∀ m, m ∈ D → m ∈ k) as HDk. { intros m Hm. apply Hkm. split; [by apply HDq|by left]. }
    eexists. split; [done|]. cbn. split; [constructor; cbn|].
    - done.
    - done.
    - congruence.
    - congruence.
    - congruence.
    - congruence.
    - intros g m. rewrite HIx, HIq, elem_of_elements. intros [[? ?]|[? ?]]; [left|right]; auto.
    - split; [done|]. split; [done|]. split.
      + intros m. rewrite Rx, Rq, Hkm. destruct HD as (D1 & D2 & D3). split.
        * split; [intros Hm Y (Y1 & Y2 & Y3); by apply (D3 Y)|]. intros H. by apply H.
        * split.
          -- intros [Hm [HmD|(C & (C1 & C2 & C3) & HC)]].
             ++ exists D. done.
             ++ exists C. split; [|apply C1; clear; set_solver]. split; [|done]. trans D; [done|]. clear -C1. set_solver.
          -- intros (Y & (Y1 & Y2 & Y3) & Hm). split; [by apply Y2|]. right.
             destruct (simple_closure_spec (D ∪ {[m]}) L Hh) as (C & _ & HC). exists C. split; [done|].
             destruct HC as (C1 & C2 & C3). trans Y; [|done]. apply C3; [|done].
             assert (D ⊆ Y) by by apply D3. clear -H Hm. set_solver.
      + intros g Hg. split; apply set_eq; intros m; rewrite !elem_of_row, ?HIx, ?HIq; tauto.
  Qed.

  Lemma complete_loop_spec p l : partial_ok p → NoDup l → (∀ o, o ∈ l → o ∈ p_objs p) →
    (∀ o, o ∈ l → ∃ Y, fills L (row (px p) o) (row (pq p) o) Y) →
    ∃ p', complete_loop L p l = (p', Ok tt) ∧ partial_ok p' ∧ p_objs p' = p_objs p ∧ p_atts p' = p_atts p ∧
      (∀ o, o ∈ l → completed L (row (px p) o) (row (pq p) o) (row (px p') o) (row (pq p') o)) ∧
      ∀ g, g ∉ l → row (px p') g = row (px p) g ∧ row (pq p') g = row (pq p) g.
  Proof.
    revert p. induction l as [|o l IH]; intros p Hp Hnd Hl Hex; cbn [complete_loop].
    { exists p. do 4 (split; [done|]). split; [|done]. by intros o ?%elem_of_nil. }
    apply NoDup_cons in Hnd as [Ho Hnd].
    destruct (complete_object_some p o) as (p1 & -> & Hp1 & Eo & Ea & Hc & Hr); [done|apply Hl; by left|apply Hex; by left|].
    assert (∀ g, g ∈ l → g ≠ o) as Hne by (intros g Hg ->; done).
    destruct (IH p1) as (p' & -> & Hp' & Eo' & Ea' & Hc' & Hr'); [done|done| | |].
    - intros g Hg. rewrite Eo. apply Hl. by right.
    - intros g Hg. destruct (Hr g (Hne g Hg)) as [-> ->]. apply Hex. by right.
    - exists p'. split; [done|]. split; [done|]. split; [congruence|]. split; [congruence|]. split.
      + intros g [->|Hg]%elem_of_cons.
        * destruct (Hr' o Ho) as [-> ->]. done.
        * destruct (Hr g (Hne g Hg)) as [<- <-]. by apply Hc'.
      + intros g [Hg1 Hg2]%not_elem_of_cons. destruct (Hr' g Hg2) as [-> ->]. by apply Hr.
  Qed.
  Lemma complete_loop_app p l k : complete_loop L p (l ++ k) =
    match complete_loop L p l with (p', Ok _) => complete_loop L p' k | r => r end.
  Proof.
    revert p. induction l as [|o l IH]; intros p; cbn [complete_loop app]; [done|].
    destruct (complete_object L p o) as [p' [[]|e]]; [apply IH|done].
  Qed.
  Lemma p_complete_none p l o k : partial_ok p → p_objs p = l ++ o :: k →
    (∀ g, g ∈ l → ∃ Y, fills L (row (px p) g) (row (pq p) g) Y) → ¬ (∃ Y, fills L (row (px p) o) (row (pq p) o) Y) →
    ∃ p', p_complete L p = (p', Err ValueError) ∧ partial_ok p' ∧ p_objs p' = p_objs p ∧ p_atts p' = p_atts p ∧
      (∀ g, g ∈ l → completed L (row (px p) g) (row (pq p) g) (row (px p') g) (row (pq p') g)) ∧
      ∀ g, g ∈ o :: k → row (px p') g = row (px p) g ∧ row (pq p') g = row (pq p) g.
  Proof.
    intros Hp E Hl Ho. unfold p_complete. rewrite E, complete_loop_app.
    assert (NoDup (p_objs p)) as Hnd. { rewrite <-(ok_xo _ Hp). apply (ok_x _ Hp). }
    rewrite E in Hnd. apply NoDup_app in Hnd as (Hnd & Hd & _).
    destruct (complete_loop_spec p l) as (p' & -> & Hp' & Eo & Ea & Hc & Hr); [done|done| |done|].
    { intros g Hg. rewrite E. apply elem_of_app. by left. }
    assert (∀ g, g ∈ o :: k → g ∉ l) as Hn. { intros g Hg Hg'. by apply (Hd g). }
    cbn [complete_loop]. rewrite complete_object_none; [|done| |].
    - exists p'. do 3 (split; [first [done|congruence]|]). split; [done|]. split; [done|]. intros g Hg. apply Hr. by apply Hn.
    - rewrite Eo, E. apply elem_of_app. right. by left.
    - destruct (Hr o) as [-> ->]; [apply Hn; by left|done].
  Qed.
End complete.

Lemma completed_fills L C P C' P' : completed L C P C' P' → (∃ Y, fills L C P Y) → ∀ Y, fills L C' P' Y ↔ fills L C P Y.
Proof.
  intros H (Z & HZ) Y. split.
  - intros (H1 & H2 & H3). split; [|split; [|done]].
    + intros m Hm. apply H1, (proj2 (proj1 (H m))). intros Y' (H' & _). by apply H'.
    + intros m Hm. apply H2, (proj1 (proj2 (H m))) in Hm as (Y' & (_ & H' & _) & Hm). by apply H'.
  - intros HY. split; [|split; [|by apply HY]].
    + intros m Hm. by apply (proj1 (proj1 (H m)) Hm).
    + intros m Hm. apply (proj2 (proj2 (H m))). by exists Y.
Qed.

(** ** Closure and basis *)
Lemma in_fG c g : g ∈ fG (abs c) ↔ g ∈ objs c.
Proof. cbn. apply elem_of_list_to_set. Qed.
Lemma in_fM c m : m ∈ fM (abs c) ↔ m ∈ atts c.
Proof. cbn. apply elem_of_list_to_set. Qed.
Definition xq (p : pcontext) (A : gset name) : gset name := up (abs (pq p)) (down (abs (px p)) A).
Section xq.
  Context (p : pcontext) (Hp : partial_ok p) (Hne : p_objs p ≠ []).
  Local Notation M := (list_to_set (p_atts p) : gset name).

  Lemma elem_of_xq A m : m ∈ xq p A ↔ m ∈ p_atts p ∧ ∀ g, g ∈ p_objs p → A ⊆ row (px p) g → m ∈ row (pq p) g.
  Proof.
    unfold xq. rewrite elem_of_up, in_fM, (ok_qa _ Hp). setoid_rewrite elem_of_down.
    setoid_rewrite in_fG. rewrite (ok_xo _ Hp). split; intros [H1 H2]; (split; [done|]).
    - intros g Hg HA. apply elem_of_row, elem_of_fI, H2. split; [done|]. intros a Ha. by apply elem_of_fI, elem_of_row, HA.
    - intros g [Hg HA]. apply elem_of_fI, elem_of_row, H2; [done|]. intros a Ha. by apply elem_of_row, elem_of_fI, HA.
  Qed.
  Lemma xq_aclosure_spec A : A ⊆ M → xq_aclosure p A = Ok (xq p A).
  Proof.
    intros HA. unfold xq_aclosure. rewrite fn_aprime_spec.
    - cbn [mbind res_bind]. rewrite fn_oprime_spec.
      + rewrite !list_to_set_elements_L. done.
      + apply (ok_q _ Hp).
      + intros g Hg%elem_of_elements. apply elem_of_down in Hg as [Hg _]. apply in_fG in Hg.
        rewrite (ok_xo _ Hp) in Hg. by rewrite (ok_qo _ Hp).
    - apply (ok_x _ Hp).
    - by rewrite (ok_xo _ Hp).
    - intros a Ha%elem_of_elements%HA. rewrite elem_of_list_to_set in Ha. by rewrite (ok_xa _ Hp).
  Qed.
  Lemma xq_growing : growing_op M (xq p).
  Proof.
    constructor; intros X HX m Hm.
    - apply elem_of_xq. split; [by apply HX, elem_of_list_to_set in Hm|]. intros g _ H. by apply (row_sub p g Hp), H.
    - apply elem_of_xq in Hm as [Hm _]. by apply elem_of_list_to_set.
  Qed.
  Lemma xq_unrefuted i : i.2 ⊆ M → unrefuted p i ↔ i.2 ⊆ xq p i.1.
  Proof.
    intros H2. split.
    - intros H m Hm. apply elem_of_xq. split; [by apply H2, elem_of_list_to_set in Hm|]. intros g Hg HA. by apply (H g Hg HA).
    - intros H g Hg HA m Hm. apply H, elem_of_xq in Hm as [_ Hm]. by apply Hm.
  Qed.

  Context (Hcmp : comparable (p_atts p) = true) (L0 : list fimp) (HL0 : ∀ i, i ∈ L0 → i.1 ⊆ M ∧ i.2 ⊆ M).
  Lemma px_comparable : comparable (atts (px p)) = true.
  Proof. by rewrite (ok_xa _ Hp). Qed.
  Lemma partial_hashable i : i.1 ⊆ M → i.2 ⊆ M → hashable i = true.
  Proof. rewrite <-(ok_xa _ Hp). exact (hashable_sub (px p) px_comparable i). Qed.
  Lemma partial_close R X : (∀ i, i ∈ R → i.1 ⊆ M ∧ i.2 ⊆ M) → ∃ C, simple_close X (Some (R ++ L0)) = Ok C ∧ is_closure (R ++ L0) X C.
  Proof.
    intros HR. apply simple_closure_spec. intros i [Hi|Hi]%elem_of_app; [destruct (HR i Hi)|destruct (HL0 i Hi)]; by apply partial_hashable.
  Qed.
  Lemma partial_NoDup : NoDup (p_atts p).
  Proof. rewrite <-(ok_xa _ Hp). apply (ok_x _ Hp). Qed.

  Lemma partial_basis_spec : ∃ R, compute_partial_dg_basis p (Some L0) (λ _, true) = Ok R ∧ weak_post (p_atts p) (xq p) L0 R.
  Proof.
    apply (dg_weak_spec (p_atts p) partial_NoDup (xq p) xq_growing (xq_aclosure p) xq_aclosure_spec simple_close L0).
    - intros i Hi. by apply HL0.
    - intros R X [HR _] _. apply partial_close. intros i Hi. destruct (HR i Hi) as (H1 & -> & _). split; [done|]. by apply (gr_sub _ _ xq_growing).
    - apply (partial_close [] ∅). by intros i ?%elem_of_nil.
  Qed.
  Lemma partial_basis_cond cond : ∃ R, compute_partial_dg_basis p (Some L0) cond = Ok R ∧ filtered (p_atts p) (xq p) cond R.
  Proof.
    assert (∀ R, (∀ i, i ∈ R → i.1 ⊆ M ∧ i.2 ⊆ M) → close_ok (p_atts p) simple_close L0 R) as Hok.
    { intros R HR X HX. destruct (partial_close R X HR) as (C & HC & C1 & C2 & C3). exists C. split; [done|]. split; [done|].
      apply C3; [done|]. intros i [Hi|Hi]%elem_of_app _; [by apply HR|by apply HL0]. }
    apply (dg_filtered (p_atts p) partial_NoDup (xq p) xq_growing (xq_aclosure p) xq_aclosure_spec simple_close L0).
    - intros R [HR _]. apply Hok. intros i Hi. destruct (HR i Hi) as (H1 & -> & _). split; [done|]. by apply (gr_sub _ _ xq_growing).
    - destruct (Hok [] ltac:(by intros i ?%elem_of_nil) ∅) as (C & HC & _ & ?); [clear; set_solver|]. by exists C.
  Qed.
  Lemma partial_basis_complete R X : weak_post (p_atts p) (xq p) L0 R → X ⊆ M → model_of (R ++ L0) X →
    X = xq p X ∨ ∃ i, i ∈ R ∧ X = i.2.
  Proof.
    intros [[HR HS] H] HX Hm. apply model_of_app in Hm as [Hm1 Hm2]. destruct (decide (X = xq p X)) as [|Hnx]; [by left|]. right.
    destruct (H X HX Hm2) as [_ H2]. destruct H2 as [HP|(Q & HQ & ->)].
    - split; [done|]. intros Q HQ HQX. apply elem_of_list_fmap in HQ as (i & -> & Hi). destruct (HR i Hi) as (_ & E & _).
      rewrite <-E. apply (Hm1 i Hi), HQX.
    - exfalso. apply elem_of_list_fmap in HP as (i & -> & Hi). destruct (HR i Hi) as (H1 & E & H3 & _). apply H3.
      apply set_eq. intros x. split; [by apply (gr_ext _ _ xq_growing)|]. rewrite <-E. by apply (Hm1 i Hi).
    - apply elem_of_list_fmap in HQ as (i & -> & Hi). exists i. split; [done|]. by destruct (HR i Hi) as (_ & -> & _).
  Qed.
End xq.

(** ** Consequences for completion *)
Lemma fills_dec L C P : (∀ i, i ∈ L → hashable i = true) → {∃ Y, fills L C P Y} + {¬ ∃ Y, fills L C P Y}.
Proof.
  intros Hh. destruct (simple_closure C L) as [D|e] eqn:E.
  - assert (is_closure L C D) as HD.
    { destruct (simple_closure_spec C L Hh) as (D' & HD' & H). congruence. }
    destruct (decide (D ⊆ P)) as [H|H]; [left|right]; by rewrite (fills_closure L C P D HD).
  - exfalso. destruct (simple_closure_spec C L Hh) as (D' & HD' & H). congruence.
Qed.
Lemma fills_split L p l : (∀ i, i ∈ L → hashable i = true) →
  (∀ o, o ∈ l → ∃ Y, fills L (row (px p) o) (row (pq p) o) Y) ∨
  ∃ l1 o l2, l = l1 ++ o :: l2 ∧ (∀ g, g ∈ l1 → ∃ Y, fills L (row (px p) g) (row (pq p) g) Y) ∧ ¬ ∃ Y, fills L (row (px p) o) (row (pq p) o) Y.
Proof.
  intros Hh. induction l as [|o l IH].
  { left. by intros o ?%elem_of_nil. }
  destruct (fills_dec L (row (px p) o) (row (pq p) o) Hh) as [Ho|Ho].
  - destruct IH as [IH|(l1 & o' & l2 & -> & H1 & H2)].
    + left. intros g [->|Hg]%elem_of_cons; auto.
    + right. exists (o :: l1), o', l2. split; [done|]. split; [|done]. intros g [->|Hg]%elem_of_cons; auto.
  - right. exists [], o, l. split; [done|]. split; [|done]. by intros g ?%elem_of_nil.
Qed.
Lemma p_complete_all L p : partial_ok p → (∀ i, i ∈ L → hashable i = true) →
  (∀ o, o ∈ p_objs p → ∃ Y, fills L (row (px p) o) (row (pq p) o) Y) →
  ∃ p', p_complete L p = (p', Ok tt) ∧ partial_ok p' ∧ p_objs p' = p_objs p ∧ p_atts p' = p_atts p ∧
    ∀ o, o ∈ p_objs p → completed L (row (px p) o) (row (pq p) o) (row (px p') o) (row (pq p') o).
Proof.
  intros Hp HL Hex. destruct (complete_loop_spec L HL p (p_objs p) Hp) as (p' & H1 & H2 & H3 & H4 & H5 & _); [|done|done|eauto 10].
  rewrite <-(ok_xo _ Hp). apply (ok_x _ Hp).
Qed.
Lemma p_complete_iff L p : partial_ok p → (∀ i, i ∈ L → hashable i = true) →
  (p_complete L p).2 = Ok tt ↔ ∀ o, o ∈ p_objs p → ∃ Y, fills L (row (px p) o) (row (pq p) o) Y.
Proof.
  intros Hp HL. destruct (fills_split L p (p_objs p) HL) as [H|(l1 & o & l2 & E & H1 & H2)].
  - destruct (p_complete_all L p Hp HL H) as (p' & -> & _). done.
  - destruct (p_complete_none L HL p l1 o l2 Hp E H1 H2) as (p' & -> & _). split; [done|]. intros H. exfalso. apply H2, H.
    rewrite E. apply elem_of_app. right. by left.
Qed.
Lemma p_complete_twice L p p1 : partial_ok p → (∀ i, i ∈ L → hashable i = true) → p_complete L p = (p1, Ok tt) →
  ∃ p2, p_complete L p1 = (p2, Ok tt) ∧ ∀ o, o ∈ p_objs p → row (px p2) o = row (px p1) o ∧ row (pq p2) o = row (pq p1) o.
Proof.
  intros Hp HL E. assert ((p_complete L p).2 = Ok tt) as E2 by by rewrite E.
  pose proof (proj1 (p_complete_iff L p Hp HL) E2) as E3. clear E2. rename E3 into E2. destruct (p_complete_all L p Hp HL E2) as (p' & E' & Hp1 & Eo & Ea & Hc).
  assert (p' = p1) as -> by congruence. clear E'.
  assert (∀ o, o ∈ p_objs p → ∀ Y, fills L (row (px p1) o) (row (pq p1) o) Y ↔ fills L (row (px p) o) (row (pq p) o) Y) as Hf.
  { intros o Ho. exact (completed_fills _ _ _ _ _ (Hc o Ho) (E2 o Ho)). }
  destruct (p_complete_all L p1 Hp1 HL) as (p2 & E3 & _ & _ & _ & Hc2).
  { intros o Ho. rewrite Eo in Ho. destruct (E2 o Ho) as [Y HY]. exists Y. by apply Hf. }
  exists p2. split; [done|]. intros o Ho. rewrite Eo in Hc2. specialize (Hc2 o Ho). specialize (Hc o Ho). specialize (Hf o Ho).
  split; apply set_eq; intros m.
  - rewrite (proj1 (Hc2 m)), (proj1 (Hc m)). split; intros H Y HY; apply H, Hf, HY.
  - rewrite (proj2 (Hc2 m)), (proj2 (Hc m)). split; intros (Y & HY & Hm); exists Y; (split; [|done]); by apply Hf.
Qed.

(** ** Printing *)
Lemma concat1_inj (f g : name → string) l : (∀ a, a ∈ l → ∃ c d, f a = String c "" ∧ g a = String d "") →
  String.concat "" (map f l) = String.concat "" (map g l) → ∀ a, a ∈ l → f a = g a.
Proof.
  assert (∀ x l, String.concat "" (x :: l) = (x ++ String.concat "" l)%string) as Hc.
  { intros x k. destruct k as [|y k]; [|done]. cbn. by rewrite app_nil_r_s. }
  induction l as [|a l IH]; intros H E; [by intros ? ?%elem_of_nil|].
  cbn [map] in E. rewrite !Hc in E. destruct (H a) as (c & d & E1 & E2); [by left|]. rewrite E1, E2 in E.
  change (String c (String.concat "" (map f l)) = String d (String.concat "" (map g l))) in E.
  assert (c = d ∧ String.concat "" (map f l) = String.concat "" (map g l)) as [-> E'] by (split; congruence).
  intros b [->|Hb]%elem_of_cons; [congruence|]. apply IH; [|done|done]. intros x Hx. apply H. by right.
Qed.
Lemma intent_to_str_inj p x q x' q' : x ⊆ q → q ⊆ list_to_set (p_atts p) → x' ⊆ q' → q' ⊆ list_to_set (p_atts p) →
  intent_to_str p x q = intent_to_str p x' q' → x = x' ∧ q = q'.
Proof.
  intros H1 H2 H3 H4 E. unfold intent_to_str in E.
  pose proof (λ H, concat1_inj _ _ _ H E) as H. cbv beta in H.
  assert (∀ a, a ∈ p_atts p → (a ∈ x ↔ a ∈ x') ∧ (a ∈ q ↔ a ∈ q')) as Ha.
  { intros a Ha. assert (a ∈ x → a ∈ q) by auto. assert (a ∈ x' → a ∈ q') by auto. specialize (H ltac:(intros b _; repeat case_bool_decide; eauto) a Ha).
    repeat case_bool_decide; try discriminate H; tauto. }
  assert (∀ a, a ∈ q ∨ a ∈ q' → a ∈ p_atts p) as Hin.
  { intros a [Hq%H2|Hq%H4]; by apply elem_of_list_to_set in Hq. }
  split; apply set_eq; intros a; split; intros Hq; apply Ha; auto.
Qed.
Lemma p_intents_spec p : partial_ok p → p_intents p = Ok (map (λ o, (row (px p) o, row (pq p) o)) (p_objs p)).
Proof.
  intros Hp. unfold p_intents. assert (∀ o, o ∈ p_objs p → o ∈ p_objs p) as H by done. revert H. generalize (p_objs p) at 1 3 4 as l.
  induction l as [|o l IH]; intros H; [done|]. cbn [mapM map].
  rewrite (get_row (px p)) by (first [exact (ok_x _ Hp)|rewrite (ok_xo _ Hp); apply H; by left]). cbn [mbind res_bind].
  rewrite (get_row (pq p)) by (first [exact (ok_q _ Hp)|rewrite (ok_qo _ Hp); apply H; by left]). cbn [mbind res_bind].
  rewrite IH; [done|]. intros g Hg. apply H. by right.
Qed.
Lemma p_repr_spec p : partial_ok p →
  p_repr p = Ok (String.concat ", " (map pystr (p_atts p)) ++ nl ++ String.concat ", " (map pystr (p_objs p)) ++ nl
    ++ String.concat "" (map (λ o, nl ++ intent_to_str p (row (px p) o) (row (pq p) o)) (p_objs p)))%string.
Proof. intros Hp. unfold p_repr. rewrite p_intents_spec by done. cbn [mbind res_bind]. by rewrite map_map. Qed.

(** ** Final forms *)
Lemma xq_mono p A A' B B' : partial_ok p → p_objs p ≠ [] → A' ⊆ list_to_set (p_atts p) → A ⊆ A' →
  xq_aclosure p A = Ok B → xq_aclosure p A' = Ok B' → B ⊆ B'.
Proof.
  intros Hp Hne HA' HA. rewrite !(xq_aclosure_spec p Hp Hne); [|done|by trans A']. intros [= <-] [= <-] m Hm.
  apply (elem_of_xq p Hp) in Hm as [Hm H]. apply (elem_of_xq p Hp). split; [done|]. intros g Hg HgA. apply H; [done|by trans A'].
Qed.
Lemma partial_basis_sound p L0 cond : partial_ok p → p_objs p ≠ [] → comparable (p_atts p) = true →
  (∀ i, i ∈ L0 → i.1 ⊆ list_to_set (p_atts p) ∧ i.2 ⊆ list_to_set (p_atts p)) →
  ∃ R, compute_partial_dg_basis p (Some L0) cond = Ok R ∧
    (∀ i, i ∈ R → i.1 ⊆ i.2 ∧ i.1 ≠ i.2 ∧ i.2 ⊆ list_to_set (p_atts p) ∧ cond i.1 = true ∧ unrefuted p i ∧
       ∀ C, C ⊆ list_to_set (p_atts p) → unrefuted p (i.1, C) → C ⊆ i.2) ∧
    StronglySorted (lectic (p_atts p)) (map fst R).
Proof.
  intros Hp Hne Hc HL0. destruct (partial_basis_cond p Hp Hne Hc L0 HL0 cond) as (R & HR & H1 & H2).
  exists R. split; [done|]. split; [|done]. intros i Hi. destruct (H1 i Hi) as (A1 & A2 & A3 & A4).
  assert (i.2 ⊆ list_to_set (p_atts p)) as A5. { rewrite A2. by apply (gr_sub _ _ (xq_growing p Hp)). }
  split. { rewrite A2. by apply (gr_ext _ _ (xq_growing p Hp)). }
  split; [by rewrite A2|]. split; [done|]. split; [done|]. split.
  - apply (xq_unrefuted p Hp); [done|]. by rewrite <-A2.
  - intros C HC HU. rewrite A2. exact (proj1 (xq_unrefuted p Hp (i.1, C) HC) HU).
Qed.
Lemma partial_basis_final p L0 : partial_ok p → p_objs p ≠ [] → comparable (p_atts p) = true →
  (∀ i, i ∈ L0 → i.1 ⊆ list_to_set (p_atts p) ∧ i.2 ⊆ list_to_set (p_atts p)) →
  ∃ R, compute_partial_dg_basis p (Some L0) (λ _, true) = Ok R ∧
    ∀ X, X ⊆ list_to_set (p_atts p) → model_of (R ++ L0) X →
      (∀ C, C ⊆ list_to_set (p_atts p) → unrefuted p (X, C) → C ⊆ X) ∨ ∃ i, i ∈ R ∧ X = i.2.
Proof.
  intros Hp Hne Hc HL0. destruct (partial_basis_spec p Hp Hne Hc L0 HL0) as (R & HR & Hw). exists R. split; [done|].
  intros X HX HM. destruct (partial_basis_complete p Hp L0 R X Hw HX HM) as [E|?]; [left|by right].
  intros C HC HU. rewrite E. exact (proj1 (xq_unrefuted p Hp (X, C) HC) HU).
Qed.
