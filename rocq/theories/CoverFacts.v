From Verif Require Import Py PyFacts Spec SpecFacts ContextModel ContextSpec ContextFacts ClosureModel ClosureFacts LatticeModel NorrisFacts CoverSpec CoverModel.

(** ** Subsumption *)
Definition sub (i b : fimp) : Prop := b.1 ⊆ i.1 ∧ conclusion i ⊆ conclusion b.
Global Instance sub_dec i b : Decision (sub i b).
Proof. unfold sub. apply _. Defined.
Lemma sub_refl i : sub i i.
Proof. done. Qed.
Lemma sub_trans i j k : sub i j → sub j k → sub i k.
Proof. unfold sub. intros [H1 H2] [H3 H4]. split; [clear -H1 H3|clear -H2 H4]; set_solver. Qed.
Lemma simply_spec i b : is_subsumed_simply i b = bool_decide (sub i b).
Proof. unfold is_subsumed_simply, sub. apply eq_true_iff_eq. by rewrite andb_true_iff, !bool_decide_eq_true. Qed.
Lemma subsumed_spec i b : is_subsumed i b = bool_decide (sub i b).
Proof.
  unfold is_subsumed, sub, conclusion. apply eq_true_iff_eq. rewrite andb_true_iff, !bool_decide_eq_true.
  split; intros [H1 H2]; (split; [done|]); clear H1; set_solver.
Qed.
Lemma trivial_spec i : bool_decide (conclusion i ⊆ i.1) = bool_decide (conclusion i = ∅).
Proof. unfold conclusion. apply bool_decide_ext. set_solver. Qed.
Lemma imp_eqb_sub i j : imp_eqb i j = true → sub i j.
Proof. rewrite imp_eqb_spec. unfold sub, conclusion. intros [-> ->]. done. Qed.

Definition anti (L : list fimp) : Prop := ∀ i j, i ∈ L → j ∈ L → sub i j → i = j.
Lemma anti_mono L L' : anti L → (∀ x, x ∈ L' → x ∈ L) → anti L'.
Proof. intros H Hs i j Hi Hj. apply H; auto. Qed.

Lemma remove_imp_spec i L : anti L → NoDup L → i ∈ L →
  ∃ L', remove_imp i L = Ok L' ∧ NoDup L' ∧ ∀ x, x ∈ L' ↔ x ∈ L ∧ x ≠ i.
Proof.
  induction L as [|y L IH]; intros Ha Hn Hi; [by apply elem_of_nil in Hi|]. cbn [remove_imp].
  apply NoDup_cons in Hn as [Hy Hn]. destruct (imp_eqb y i) eqn:E.
  - assert (y = i) as ->. { apply Ha; [by left|done|by apply imp_eqb_sub]. }
    exists L. split; [done|]. split; [done|]. intros x. rewrite elem_of_cons. split.
    + intros Hx. split; [by right|]. by intros ->.
    + intros [[->|?] ?]; done.
  - apply elem_of_cons in Hi as [->|Hi]; [by rewrite imp_eqb_refl in E|].
    destruct IH as (L' & E' & Hn' & Hm); [by eapply anti_mono; [done|]; intros x Hx; right|done|done|].
    rewrite E'. exists (y :: L'). split; [done|]. split.
    + apply NoDup_cons. split; [|done]. rewrite Hm. by intros [? _].
    + intros x. rewrite !elem_of_cons, Hm. split; [|naive_solver].
      intros [->|[? ?]]; [|auto]. split; [by left|]. intros ->. by rewrite imp_eqb_refl in E.
Qed.

(** The effect of the three removal functions. *)
Definition absorbs (imp : fimp) (L : list fimp) (r : res (bool * list fimp)) : Prop :=
  ((conclusion imp = ∅ ∨ ∃ i, i ∈ L ∧ sub imp i) → r = Ok (false, L)) ∧
  (conclusion imp ≠ ∅ → (∀ i, i ∈ L → ¬ sub imp i) →
    ∃ L', r = Ok (true, L') ∧ NoDup L' ∧ ∀ x, x ∈ L' ↔ x ∈ L ∧ ¬ sub x imp).

Section loops.
  Context (imp : fimp).

  Lemma rss_false snap cur : anti snap → (∃ i, i ∈ snap ∧ sub imp i) → rss_loop imp true snap cur = Ok (false, cur).
  Proof using.
    induction snap as [|j snap IH]; intros Ha (i & Hi & Hs); [by apply elem_of_nil in Hi|]. cbn [rss_loop].
    rewrite !simply_spec. cbn [andb]. case_bool_decide as H1; [done|]. case_bool_decide as H2.
    - exfalso. apply H1. assert (j = i) as ->; [|done]. apply Ha; [by left|done|]. by eapply sub_trans.
    - apply IH; [by eapply anti_mono; [done|]; intros x Hx; right|].
      apply elem_of_cons in Hi as [->|Hi]; [done|eauto].
  Qed.
  Lemma rss_true snap : ∀ can cur, anti cur → NoDup cur → NoDup snap → (∀ i, i ∈ snap → i ∈ cur) → (∀ i, i ∈ snap → ¬ sub imp i) →
    ∃ L', rss_loop imp can snap cur = Ok (true, L') ∧ NoDup L' ∧ ∀ x, x ∈ L' ↔ x ∈ cur ∧ ¬ (x ∈ snap ∧ sub x imp).
  Proof using.
    induction snap as [|j snap IH]; intros can cur Ha Hn Hns Hsub Hno; cbn [rss_loop].
    { exists cur. split; [done|]. split; [done|]. intros x. rewrite elem_of_nil. tauto. }
    apply NoDup_cons in Hns as [Hj Hns]. rewrite !simply_spec. rewrite (bool_decide_eq_false_2 (sub imp j)) by (apply Hno; by left).
    rewrite andb_false_r. case_bool_decide as H2.
    - destruct (remove_imp_spec j cur) as (L1 & E1 & Hn1 & Hm1); [done|done|by apply Hsub; left|].
      rewrite E1. cbn [mbind res_bind].
      destruct (IH false L1) as (L' & E' & Hn' & Hm').
      + eapply anti_mono; [exact Ha|]. intros x Hx. by apply Hm1.
      + done.
      + done.
      + intros i Hi. apply Hm1. split; [apply Hsub; by right|]. by intros ->.
      + intros i Hi. apply Hno. by right.
      + exists L'. split; [done|]. split; [done|]. intros x. rewrite Hm', Hm1, elem_of_cons.
        destruct (decide (x = j)) as [->|]; tauto.
    - destruct (IH can cur) as (L' & E' & Hn' & Hm'); [done|done|done|by intros i Hi; apply Hsub; right|by intros i Hi; apply Hno; right|].
      exists L'. split; [done|]. split; [done|]. intros x. rewrite Hm', elem_of_cons.
      destruct (decide (x = j)) as [->|]; tauto.
  Qed.

  Lemma rs_false snap cur : anti snap → (∀ i, i ∈ snap → i.1 = imp.1 → conclusion imp ⊆ conclusion i) →
    (∃ i, i ∈ snap ∧ sub imp i) → rs_loop imp true snap cur = Ok (false, cur).
  Proof using.
    induction snap as [|j snap IH]; intros Ha Hq (i & Hi & Hs); [by apply elem_of_nil in Hi|]. cbn [rs_loop andb].
    assert (anti snap) as Ha' by (by eapply anti_mono; [done|]; intros x Hx; right).
    assert (∀ i, i ∈ snap → i.1 = imp.1 → conclusion imp ⊆ conclusion i) as Hq' by (intros ? ?; apply Hq; by right).
    case_bool_decide as H1.
    - case_bool_decide as H2; [done|]. apply IH; [done|done|].
      apply elem_of_cons in Hi as [->|Hi]; [by destruct Hs|eauto].
    - rewrite simply_spec. case_bool_decide as H2.
      + exfalso. apply H1. assert (j = i) as ->; [|by destruct Hs]. apply Ha; [by left|done|]. by eapply sub_trans.
      + apply IH; [done|done|]. apply elem_of_cons in Hi as [->|Hi]; [by destruct Hs|eauto].
  Qed.
  Lemma rs_true snap : ∀ can cur, anti cur → NoDup cur → NoDup snap → (∀ i, i ∈ snap → i ∈ cur) →
    (∀ i, i ∈ snap → i.1 = imp.1 → conclusion imp ⊆ conclusion i) → (∀ i, i ∈ snap → ¬ sub imp i) →
    ∃ L', rs_loop imp can snap cur = Ok (true, L') ∧ NoDup L' ∧ ∀ x, x ∈ L' ↔ x ∈ cur ∧ ¬ (x ∈ snap ∧ sub x imp).
  Proof using.
    induction snap as [|j snap IH]; intros can cur Ha Hn Hns Hsub Hq Hno; cbn [rs_loop].
    { exists cur. split; [done|]. split; [done|]. intros x. rewrite elem_of_nil. tauto. }
    apply NoDup_cons in Hns as [Hj Hns].
    assert (∀ i, i ∈ snap → i.1 = imp.1 → conclusion imp ⊆ conclusion i) as Hq' by (intros ? ?; apply Hq; by right).
    assert (¬ sub imp j) as Hnj by (apply Hno; by left).
    assert (j.1 ⊆ imp.1 → ¬ sub j imp) as Hnj2.
    { intros H1 H2. apply Hnj. split; [done|]. apply Hq; [by left|]. destruct H2 as [H2 _]. by apply set_eq_subseteq_2 || (apply set_eq; set_solver). }
    assert (∀ can, ¬ sub j imp → ∃ L', rs_loop imp can snap cur = Ok (true, L') ∧ NoDup L' ∧ ∀ x, x ∈ L' ↔ x ∈ cur ∧ ¬ (x ∈ j :: snap ∧ sub x imp)) as Hskip.
    { intros can' Hs. destruct (IH can' cur) as (L' & E' & Hn' & Hm'); [done|done|done|by intros i Hi; apply Hsub; right|done|by intros i Hi; apply Hno; right|].
      exists L'. split; [done|]. split; [done|]. intros x. rewrite Hm', elem_of_cons.
      destruct (decide (x = j)) as [->|]; tauto. }
    destruct (can && bool_decide (j.1 ⊆ imp.1)) eqn:E1.
    - apply andb_true_iff in E1 as [_ H1%bool_decide_eq_true].
      rewrite bool_decide_eq_false_2 by (intros ?; by apply Hnj). apply Hskip. auto.
    - clear E1. rewrite simply_spec. case_bool_decide as H2; [|by apply Hskip].
      destruct (remove_imp_spec j cur) as (L1 & E2 & Hn1 & Hm1); [done|done|by apply Hsub; left|].
      rewrite E2. cbn [mbind res_bind].
      destruct (IH false L1) as (L' & E' & Hn' & Hm').
      + eapply anti_mono; [exact Ha|]. intros x Hx. by apply Hm1.
      + done.
      + done.
      + intros i Hi. apply Hm1. split; [apply Hsub; by right|]. by intros ->.
      + done.
      + intros i Hi. apply Hno. by right.
      + exists L'. split; [done|]. split; [done|]. intros x. rewrite Hm', Hm1, elem_of_cons.
        destruct (decide (x = j)) as [->|]; tauto.
  Qed.

  Lemma rsp_false snap cur : anti snap → (∀ i, i ∈ snap → i.1 = imp.1 → conclusion imp ⊆ conclusion i) →
    (∃ i, i ∈ snap ∧ sub imp i) → rsp_loop imp snap cur = Ok (false, cur).
  Proof using.
    induction snap as [|j snap IH]; intros Ha Hq (i & Hi & Hs); [by apply elem_of_nil in Hi|]. cbn [rsp_loop].
    assert (anti snap) as Ha' by (by eapply anti_mono; [done|]; intros x Hx; right).
    assert (∀ i, i ∈ snap → i.1 = imp.1 → conclusion imp ⊆ conclusion i) as Hq' by (intros ? ?; apply Hq; by right).
    case_bool_decide as H0; [done|]. case_bool_decide as H1.
    - case_bool_decide as H2; [done|]. apply IH; [done|done|].
      apply elem_of_cons in Hi as [->|Hi]; [by destruct Hs|eauto].
    - assert (i ∈ snap) as Hi'. { apply elem_of_cons in Hi as [->|Hi]; [by destruct Hs|done]. }
      case_bool_decide as H2; [|by apply IH; eauto]. case_bool_decide as H3; [|by apply IH; eauto].
      exfalso. apply H1. assert (j = i) as ->; [|by destruct Hs]. apply Ha; [by left|done|]. by eapply (sub_trans _ imp).
  Qed.
  Lemma rsp_true snap : ∀ cur, anti cur → NoDup cur → NoDup snap → (∀ i, i ∈ snap → i ∈ cur) →
    (∀ i, i ∈ snap → i.1 = imp.1 → conclusion imp ⊆ conclusion i) → (∀ i, i ∈ snap → ¬ sub imp i) →
    ∃ L', rsp_loop imp snap cur = Ok (true, L') ∧ NoDup L' ∧ ∀ x, x ∈ L' ↔ x ∈ cur ∧ ¬ (x ∈ snap ∧ sub x imp).
  Proof using.
    induction snap as [|j snap IH]; intros cur Ha Hn Hns Hsub Hq Hno; cbn [rsp_loop].
    { exists cur. split; [done|]. split; [done|]. intros x. rewrite elem_of_nil. tauto. }
    apply NoDup_cons in Hns as [Hj Hns].
    assert (∀ i, i ∈ snap → i.1 = imp.1 → conclusion imp ⊆ conclusion i) as Hq' by (intros ? ?; apply Hq; by right).
    assert (¬ sub imp j) as Hnj by (apply Hno; by left).
    assert (j.1 ≠ imp.1) as Hnq.
    { intros E. apply Hnj. split; [by rewrite E|]. apply Hq; [by left|done]. }
    assert (¬ sub j imp → ∃ L', rsp_loop imp snap cur = Ok (true, L') ∧ NoDup L' ∧ ∀ x, x ∈ L' ↔ x ∈ cur ∧ ¬ (x ∈ j :: snap ∧ sub x imp)) as Hskip.
    { intros Hs. destruct (IH cur) as (L' & E' & Hn' & Hm'); [done|done|done|by intros i Hi; apply Hsub; right|done|by intros i Hi; apply Hno; right|].
      exists L'. split; [done|]. split; [done|]. intros x. rewrite Hm', elem_of_cons.
      destruct (decide (x = j)) as [->|]; tauto. }
    rewrite bool_decide_eq_false_2 by done. case_bool_decide as H1.
    - rewrite bool_decide_eq_false_2 by (intros ?; by apply Hnj). apply Hskip. intros [H2 _]. apply Hnq.
      apply set_eq. clear -H1 H2. set_solver.
    - case_bool_decide as H2; [|apply Hskip; by intros [? _]]. case_bool_decide as H3; [|apply Hskip; by intros [_ ?]].
      destruct (remove_imp_spec j cur) as (L1 & E2 & Hn1 & Hm1); [done|done|by apply Hsub; left|].
      rewrite E2. cbn [mbind res_bind]. assert (sub j imp) as Hs by done.
      destruct (IH L1) as (L' & E' & Hn' & Hm').
      + eapply anti_mono; [exact Ha|]. intros x Hx. by apply Hm1.
      + done.
      + done.
      + intros i Hi. apply Hm1. split; [apply Hsub; by right|]. by intros ->.
      + done.
      + intros i Hi. apply Hno. by right.
      + exists L'. split; [done|]. split; [done|]. intros x. rewrite Hm', Hm1, elem_of_cons.
        destruct (decide (x = j)) as [->|]; tauto.
  Qed.
End loops.

Lemma rss_spec imp L : anti L → NoDup L → absorbs imp L (remove_subsumed_simply imp L).
Proof.
  intros Ha Hn. unfold remove_subsumed_simply. rewrite trivial_spec. split.
  - case_bool_decide as H; [done|]. intros [?|?]; [done|]. by apply rss_false.
  - intros Hc Hno. rewrite bool_decide_eq_false_2 by done.
    destruct (rss_true imp L true L) as (L' & E & Hn' & Hm); [done..|].
    exists L'. split; [done|]. split; [done|]. intros x. rewrite Hm. tauto.
Qed.
Lemma rs_spec imp L : anti L → NoDup L → (∀ i, i ∈ L → i.1 = imp.1 → conclusion imp ⊆ conclusion i) →
  absorbs imp L (remove_subsumed imp L).
Proof.
  intros Ha Hn Hq. unfold remove_subsumed. rewrite trivial_spec. split.
  - case_bool_decide as H; [done|]. intros [?|?]; [done|]. by apply rs_false.
  - intros Hc Hno. rewrite bool_decide_eq_false_2 by done.
    destruct (rs_true imp L true L) as (L' & E & Hn' & Hm); [done..|].
    exists L'. split; [done|]. split; [done|]. intros x. rewrite Hm. tauto.
Qed.
Lemma rsp_spec imp L : anti L → NoDup L → (∀ i, i ∈ L → i.1 = imp.1 → conclusion imp ⊆ conclusion i) →
  absorbs imp L (remove_subsumed_plus imp L).
Proof.
  intros Ha Hn Hq. unfold remove_subsumed_plus. rewrite trivial_spec. split.
  - case_bool_decide as H; [done|]. intros [?|?]; [done|]. by apply rsp_false.
  - intros Hc Hno. rewrite bool_decide_eq_false_2 by done.
    destruct (rsp_true imp L L) as (L' & E & Hn' & Hm); [done..|].
    exists L'. split; [done|]. split; [done|]. intros x. rewrite Hm. tauto.
Qed.
Lemma is_new_spec imp L : (∀ i, i ∈ L → sub i imp → sub imp i) →
  is_new imp L = Ok (bool_decide (conclusion imp ≠ ∅ ∧ Forall (λ i, ¬ sub imp i) L)).
Proof.
  intros H. unfold is_new. rewrite trivial_spec. case_bool_decide as H0.
  { f_equal. symmetry. apply bool_decide_eq_false. by intros [? _]. }
  induction L as [|i L IH]; cbn [is_new_loop].
  { f_equal. symmetry. apply bool_decide_eq_true. split; [done|constructor]. }
  rewrite !subsumed_spec, simply_spec. destruct (decide (sub imp i)) as [H1|H1].
  { rewrite (bool_decide_eq_true_2 (sub imp i)) by done. f_equal. symmetry. apply bool_decide_eq_false. intros [_ H2%Forall_cons]. by destruct H2. }
  rewrite (bool_decide_eq_false_2 (sub imp i)) by done.
  rewrite (bool_decide_eq_false_2 (sub i imp)). 2:{ intros H2. apply H1, H; [by left|done]. }
  rewrite IH by (intros ? ?; apply H; by right). f_equal. apply bool_decide_ext. rewrite Forall_cons. tauto.
Qed.

(** ** Frontiers: the maximal elements of everything seen so far *)
Record frontier (S L : list fimp) : Prop := {
  fr_sub : ∀ l, l ∈ L → l ∈ S;
  fr_nd : NoDup L;
  fr_anti : anti L;
  fr_ne : ∀ l, l ∈ L → conclusion l ≠ ∅;
  fr_cov : ∀ s, s ∈ S → conclusion s ≠ ∅ → ∃ l, l ∈ L ∧ sub s l }.
Lemma frontier_skip S L L' n : frontier S L → conclusion n = ∅ ∨ (∃ i, i ∈ L ∧ sub n i) →
  NoDup L' → (∀ x, x ∈ L' ↔ x ∈ L) → frontier (n :: S) L'.
Proof.
  intros [H1 H2 H3 H4 H5] Hn Hd Hm. split.
  - intros l Hl. right. by apply H1, Hm.
  - done.
  - eapply anti_mono; [exact H3|]. intros x. apply Hm.
  - intros l Hl. by apply H4, Hm.
  - intros s [->|Hs]%elem_of_cons Hc.
    + destruct Hn as [?|(i & Hi & Hs)]; [done|]. exists i. by rewrite Hm.
    + destruct (H5 s Hs Hc) as (l & Hl & ?). exists l. by rewrite Hm.
Qed.
Lemma frontier_add S L L' n : frontier S L → conclusion n ≠ ∅ → (∀ i, i ∈ L → ¬ sub n i) →
  NoDup L' → (∀ x, x ∈ L' ↔ (x ∈ L ∧ ¬ sub x n) ∨ x = n) → frontier (n :: S) L'.
Proof.
  intros [H1 H2 H3 H4 H5] Hc Hno Hd Hm. split.
  - intros l [[Hl _]| ->]%Hm; [right; by apply H1|by left].
  - done.
  - intros i j [[Hi Hi']| ->]%Hm [[Hj Hj']| ->]%Hm Hs; [by apply H3|done|by destruct (Hno j)|done].
  - intros l [[Hl _]| ->]%Hm; [by apply H4|done].
  - intros s [->|Hs]%elem_of_cons Hcs.
    + exists n. split; [apply Hm; by right|done].
    + destruct (H5 s Hs Hcs) as (l & Hl & Hsl). destruct (decide (sub l n)) as [Hln|Hln].
      * exists n. split; [apply Hm; by right|]. by eapply sub_trans.
      * exists l. split; [apply Hm; by left|done].
Qed.

Definition cutimp (t : gset name) (i : fimp) : fimp := (i.1, conclusion i ∩ t).
Lemma cut_loop_spec t V inv : ∀ nv S, frontier S (V ++ nv) → (∀ i v, i ∈ inv → v ∈ V → ¬ sub v (cutimp t i)) →
  ∃ nv' S', cut_loop t V inv nv = Ok nv' ∧ frontier S' (V ++ nv') ∧ ∀ x, x ∈ S' ↔ x ∈ S ∨ x ∈ map (cutimp t) inv.
Proof.
  induction inv as [|i inv IH]; intros nv S Hf Hno; cbn [cut_loop].
  { exists nv, S. split; [done|]. split; [done|]. intros x. simpl. rewrite elem_of_nil. tauto. }
  fold (cutimp t i). set (n := cutimp t i).
  assert (∃ nv1, add_smartly n nv V = Ok nv1 ∧ frontier (n :: S) (V ++ nv1)) as (nv1 & E1 & Hf1).
  { assert (∀ v, v ∈ V → ¬ sub v n) as HV by (intros v Hv; apply Hno; [by left|done]).
    unfold add_smartly. rewrite is_new_spec by (intros v Hv ?; by destruct (HV v)). cbn [mbind res_bind].
    destruct Hf as [Hf1 Hf2 Hf3 Hf4 Hf5] eqn:Ef. clear Ef.
    assert (anti nv) as Hanv by (eapply anti_mono; [exact Hf3|]; intros x Hx; apply elem_of_app; by right).
    pose proof Hf2 as (HnV & HVn & Hnnv)%NoDup_app.
    case_bool_decide as Hb.
    - destruct Hb as [Hc Hb]. rewrite Forall_forall in Hb. destruct (rss_spec n nv Hanv Hnnv) as [Ha1 Ha2].
      destruct (decide (Exists (λ i, sub n i) nv)) as [(j & Hj & Hs)%Exists_exists|He].
      + rewrite Ha1 by eauto. cbn [mbind res_bind fst snd]. exists nv. split; [done|].
        eapply frontier_skip; [exact Hf| |done|done]. right. exists j. split; [|done]. apply elem_of_app. by right.
      + assert (∀ i, i ∈ nv → ¬ sub n i) as He' by (intros j Hj Hs; apply He, Exists_exists; eauto).
        destruct Ha2 as (L' & E & Hd & Hm); [done|done|]. rewrite E. cbn [mbind res_bind fst snd].
        exists (L' ++ [n]). split; [done|]. eapply frontier_add; [exact Hf|done| | |].
        * intros j [Hj|Hj]%elem_of_app; auto.
        * apply NoDup_app. split; [done|]. split.
          -- intros x Hx [[Hx' _]%Hm|Hx'%elem_of_list_singleton]%elem_of_app; [by apply (HVn x)|]. subst x. by apply (Hb n).
          -- apply NoDup_app. split; [done|]. split; [|apply NoDup_singleton].
             intros x [Hx _]%Hm Hx'%elem_of_list_singleton. subst x. by apply (He' n).
        * intros x. rewrite !elem_of_app, Hm, elem_of_list_singleton. specialize (HV x). tauto.
    - exists nv. split; [done|]. eapply frontier_skip; [exact Hf| |done|done].
      destruct (decide (conclusion n = ∅)) as [?|Hc]; [by left|]. right.
      destruct (decide (Exists (λ i, sub n i) V)) as [(j & Hj & Hs)%Exists_exists|He].
      + exists j. split; [|done]. apply elem_of_app. by left.
      + exfalso. apply Hb. split; [done|]. apply Forall_forall. intros j Hj Hs. apply He, Exists_exists; eauto. }
  rewrite E1. cbn [mbind res_bind]. destruct (IH nv1 (n :: S)) as (nv' & S' & E' & Hf' & Hm'); [done|by intros i' v Hi'; apply Hno; right|].
  exists nv', S'. split; [done|]. split; [done|]. intros x. rewrite Hm'. simpl. rewrite !elem_of_cons. fold n. tauto.
Qed.

Section grow.
  Context (C : gset name → gset name).
  Definition maximal (i : fimp) : Prop := conclusion i = C i.1 ∖ i.1.
  Global Instance maximal_dec i : Decision (maximal i).
  Proof using. unfold maximal. apply _. Defined.

  Lemma grow_one_spec n st S : frontier S (st.1 ++ st.2) → (∀ l, l ∈ st.1 ++ st.2 → maximal l) →
    conclusion n ⊆ C n.1 ∖ n.1 → maximal n ∨ (∃ s, s ∈ S ∧ conclusion s ≠ ∅ ∧ sub n s) →
    ∃ st', grow_one st n = Ok st' ∧ frontier (n :: S) (st'.1 ++ st'.2) ∧ ∀ l, l ∈ st'.1 ++ st'.2 → maximal l.
  Proof.
    destruct st as [V W]. cbn [fst snd]. intros Hf Hmx Hsd Hca.
    assert (∀ i, i ∈ V ++ W → i.1 = n.1 → conclusion n ⊆ conclusion i) as Hq.
    { intros i Hi E. rewrite (Hmx i Hi), E. done. }
    pose proof (fr_nd _ _ Hf) as (HnV & HVW & HnW)%NoDup_app. pose proof (fr_anti _ _ Hf) as Ha.
    unfold grow_one. cbn [fst snd].
    destruct (rs_spec n V) as [HV1 HV2]; [by eapply anti_mono; [exact Ha|]; intros x Hx; apply elem_of_app; left|done|
      by intros i Hi; apply Hq, elem_of_app; left|].
    destruct (rsp_spec n W) as [HW1 HW2]; [by eapply anti_mono; [exact Ha|]; intros x Hx; apply elem_of_app; right|done|
      by intros i Hi; apply Hq, elem_of_app; right|].
    destruct (decide (conclusion n = ∅)) as [Hc|Hc].
    { rewrite HV1 by auto. cbn [mbind res_bind fst snd]. exists (V, W). split; [done|]. cbn [fst snd]. split; [|done].
      eapply frontier_skip; [exact Hf|by left|by apply fr_nd with S|done]. }
    destruct (decide (Exists (λ i, sub n i) V)) as [(j & Hj & Hs)%Exists_exists|HeV].
    { rewrite HV1 by eauto. cbn [mbind res_bind fst snd]. exists (V, W). split; [done|]. cbn [fst snd]. split; [|done].
      eapply frontier_skip; [exact Hf| |by apply fr_nd with S|done]. right. exists j. split; [|done]. apply elem_of_app; by left. }
    assert (∀ i, i ∈ V → ¬ sub n i) as HeV' by (intros j Hj Hs; apply HeV, Exists_exists; eauto). clear HeV.
    destruct HV2 as (V' & -> & HnV' & HmV); [done|done|]. cbn [mbind res_bind fst snd].
    destruct (decide (Exists (λ i, sub n i) W)) as [(j & Hj & Hs)%Exists_exists|HeW].
    { rewrite HW1 by eauto. cbn [mbind res_bind fst snd]. exists (V', W). split; [done|]. cbn [fst snd].
      assert (∀ x, x ∈ V' ++ W ↔ x ∈ V ++ W) as Hmem.
      { intros x. rewrite !elem_of_app, HmV. split; [tauto|]. intros [Hx|Hx]; [|by right]. left. split; [done|].
        intros Hxn. apply (HVW x Hx). replace x with j; [done|]. symmetry. apply Ha; [apply elem_of_app; by left|apply elem_of_app; by right|].
        by eapply sub_trans. }
      split; [|intros l; rewrite Hmem; apply Hmx]. eapply frontier_skip; [exact Hf| | |done].
      - right. exists j. split; [|done]. apply elem_of_app; by right.
      - apply NoDup_app. split; [done|]. split; [|done]. intros x [Hx _]%HmV. by apply HVW. }
    assert (∀ i, i ∈ W → ¬ sub n i) as HeW' by (intros j Hj Hs; apply HeW, Exists_exists; eauto). clear HeW.
    destruct HW2 as (W' & -> & HnW' & HmW); [done|done|]. cbn [mbind res_bind fst snd].
    exists (V', W' ++ [n]). split; [done|]. cbn [fst snd].
    assert (∀ x, x ∈ V' ++ W' ++ [n] ↔ (x ∈ V ++ W ∧ ¬ sub x n) ∨ x = n) as Hmem.
    { intros x. rewrite !elem_of_app, HmV, HmW, elem_of_list_singleton. tauto. }
    assert (∀ i, i ∈ V ++ W → ¬ sub n i) as Hno by (intros i [?|?]%elem_of_app; auto).
    split.
    - eapply frontier_add; [exact Hf|done|done| |done].
      apply NoDup_app. split; [done|]. split.
      + intros x [Hx _]%HmV [[Hx' _]%HmW|Hx'%elem_of_list_singleton]%elem_of_app; [by apply (HVW x)|]. subst x. by apply (HeV' n).
      + apply NoDup_app. split; [done|]. split; [|apply NoDup_singleton].
        intros x [Hx _]%HmW Hx'%elem_of_list_singleton. subst x. by apply (HeW' n).
    - intros l [[Hl _]| ->]%Hmem; [by apply Hmx|]. destruct Hca as [?|(s & Hs & Hcs & Hns)]; [done|].
      destruct (fr_cov _ _ Hf s Hs Hcs) as (l & Hl & Hsl). exfalso. apply (Hno l Hl). by eapply sub_trans.
  Qed.
  Lemma grow_loop_spec cands : ∀ st S, frontier S (st.1 ++ st.2) → (∀ l, l ∈ st.1 ++ st.2 → maximal l) →
    (∀ n, n ∈ cands → conclusion n ⊆ C n.1 ∖ n.1) →
    (∀ n, n ∈ cands → maximal n ∨ ∃ s, s ∈ S ∧ conclusion s ≠ ∅ ∧ sub n s) →
    ∃ st' S', grow_loop cands st = Ok st' ∧ frontier S' (st'.1 ++ st'.2) ∧ (∀ l, l ∈ st'.1 ++ st'.2 → maximal l) ∧
      ∀ x, x ∈ S' ↔ x ∈ S ∨ x ∈ cands.
  Proof.
    induction cands as [|n cands IH]; intros st S Hf Hmx Hsd Hca; cbn [grow_loop].
    { exists st, S. split; [done|]. split; [done|]. split; [done|]. intros x. rewrite elem_of_nil. tauto. }
    destruct (grow_one_spec n st S) as (st1 & E1 & Hf1 & Hmx1); [done|done|by apply Hsd; left|by apply Hca; left|].
    rewrite E1. cbn [mbind res_bind]. destruct (IH st1 (n :: S)) as (st' & S' & E' & Hf' & Hmx' & Hm'); [done|done|by intros ? ?; apply Hsd; right| |].
    { intros n' Hn'. destruct (Hca n') as [?|(s & Hs & ?)]; [by right|by left|]. right. exists s. split; [by right|done]. }
    exists st', S'. split; [done|]. split; [done|]. split; [done|]. intros x. rewrite Hm', !elem_of_cons. tauto.
  Qed.
End grow.

(** ** Unsubsumed sets *)
Lemma eq_of_diff (A B : gset name) : B ⊆ A → A ∖ B ⊆ B → A = B.
Proof.
  intros H1 H2. apply set_eq. intros x. split; [|by apply H1]. intros Hx.
  destruct (decide (x ∈ B)) as [?|Hn]; [done|]. apply H2. by apply elem_of_difference.
Qed.
Lemma exists_unsub (C : gset name → gset name) (q : gset name) : C q ≠ q → q ⊆ C q →
  (∀ X, X ⊆ q → X ⊆ C X) →
  ¬ (∀ p, p ⊆ q → C q ∖ q ⊆ C p → ¬ unsubsumed C p).
Proof.
  induction q as [q IH] using (well_founded_induction set_wf).
  intros Hne Hex Hext H. apply (H q); [done|clear; set_solver|]. split; [done|]. intros r Hr Hs.
  assert (r ⊆ q) as Hrq by apply Hr.
  apply (IH r); [done| | | |].
  - intros E. apply Hne. apply eq_of_diff; [done|]. rewrite E in Hs. clear -Hs Hrq. set_solver.
  - by apply Hext.
  - intros X HX. apply Hext. clear -HX Hrq. set_solver.
  - intros p Hp Hp2. apply H; [clear -Hp Hrq; set_solver|].
    intros x Hx. apply Hp2. apply elem_of_difference. split; [by apply Hs|]. clear -Hx Hrq. set_solver.
Qed.

Section step.
  Context (M t : gset name) (C C' : gset name → gset name).
  Context (Ht : t ⊆ M) (HCM : ∀ X, C X ⊆ M) (HCe : ∀ X, X ⊆ M → X ⊆ C X)
    (HCm : ∀ X Y, X ⊆ Y → C X ⊆ C Y) (HCi : ∀ X Y, Y ⊆ C X → C Y ⊆ C X).
  Context (HC1 : ∀ X, X ⊆ t → C' X = C X ∩ t) (HC2 : ∀ X, ¬ X ⊆ t → C' X = C X).

  (** The invariant of the algorithm. *)
  Record cover_inv (C : gset name → gset name) (B : list fimp) : Prop := {
    ci_nd : NoDup B;
    ci_inj : ∀ i j, i ∈ B → j ∈ B → i.1 = j.1 → i = j;
    ci_max : ∀ i, i ∈ B → conclusion i = C i.1 ∖ i.1;
    ci_in : ∀ i, i ∈ B → i.1 ⊆ M ∧ unsubsumed C i.1;
    ci_all : ∀ p, p ⊆ M → unsubsumed C p → ∃ i, i ∈ B ∧ i.1 = p }.

  Lemma cover_inv_anti D B : cover_inv D B → anti B.
  Proof.
    intros [_ H1 H2 H3 _] i j Hi Hj [Hs1 Hs2]. apply H1; [done|done|].
    destruct (decide (j.1 = i.1)) as [?|Hne]; [done|]. exfalso.
    destruct (H3 i Hi) as [_ [_ Hu]]. apply (Hu j.1).
    - split; [done|]. intros ?. apply Hne, set_eq. clear -Hs1 H. set_solver.
    - rewrite (H2 i Hi), (H2 j Hj) in Hs2. clear -Hs2. set_solver.
  Qed.
  Lemma cover_inv_ne D B i : (∀ X, X ⊆ M → X ⊆ D X) → cover_inv D B → i ∈ B → conclusion i ≠ ∅.
  Proof.
    intros He [_ _ H2 H3 _] Hi. rewrite (H2 i Hi). destruct (H3 i Hi) as [HM [Hne _]]. intros E. apply Hne.
    specialize (He _ HM). apply eq_of_diff; [done|]. clear -E. set_solver.
  Qed.
  Lemma C'_ext X : X ⊆ M → X ⊆ C' X.
  Proof.
    intros HX. specialize (HCe X HX). destruct (decide (X ⊆ t)) as [H|H]; [rewrite HC1 by done|by rewrite HC2].
    clear -HCe H. set_solver.
  Qed.
  Lemma C'_sub X : C' X ⊆ C X.
  Proof. destruct (decide (X ⊆ t)) as [H|H]; [rewrite HC1 by done; clear; set_solver|by rewrite HC2]. Qed.

  Context (B : list fimp) (HB : cover_inv C B).
  Notation V := (List.filter (still_valid t) B).
  Notation U := (List.filter (fun i => negb (still_valid t i)) B).
  Lemma elem_V i : i ∈ V ↔ i ∈ B ∧ (i.1 ⊆ t → conclusion i ⊆ t).
  Proof.
    rewrite elem_of_Lfilter. unfold still_valid. rewrite orb_true_iff, negb_true_iff, bool_decide_eq_false, bool_decide_eq_true.
    destruct (decide (i.1 ⊆ t)); tauto.
  Qed.
  Lemma elem_U i : i ∈ U ↔ i ∈ B ∧ i.1 ⊆ t ∧ ¬ conclusion i ⊆ t.
  Proof.
    rewrite elem_of_Lfilter. unfold still_valid. rewrite negb_true_iff, orb_false_iff, negb_false_iff, bool_decide_eq_false, bool_decide_eq_true.
    tauto.
  Qed.
  Lemma valid_C' i : i ∈ V → conclusion i = C' i.1 ∖ i.1.
  Proof.
    intros [Hi Hv]%elem_V. rewrite (ci_max _ _ HB i Hi) in *. destruct (decide (i.1 ⊆ t)) as [H|H]; [|by rewrite HC2].
    rewrite HC1 by done. specialize (Hv H). apply set_eq. clear -Hv H. set_solver.
  Qed.
  Lemma cut_C' i : i ∈ U → conclusion (cutimp t i) = C' i.1 ∖ i.1.
  Proof.
    intros (Hi & H & _)%elem_U. rewrite HC1 by done. unfold cutimp. pose proof (ci_max _ _ HB i Hi) as E.
    unfold conclusion at 1. cbn [fst snd]. rewrite E. apply set_eq. clear. set_solver.
  Qed.
  Definition growimp (i : fimp) (a : name) : fimp := (i.1 ∪ {[a]}, conclusion i ∪ {[a]}).
  Lemma grow_conc i a : i ∈ U → conclusion (growimp i a) = C i.1 ∖ i.1 ∖ {[a]}.
  Proof.
    intros (Hi & H & _)%elem_U. unfold growimp. pose proof (ci_max _ _ HB i Hi) as E.
    unfold conclusion at 1. cbn [fst snd]. rewrite E. apply set_eq. clear. set_solver.
  Qed.
  Lemma grow_C' i a : i ∈ U → a ∉ t → C' (i.1 ∪ {[a]}) = C (i.1 ∪ {[a]}).
  Proof. intros Hi Ha. apply HC2. intros H. apply Ha, H. clear. set_solver. Qed.
  Lemma grow_sound i a : i ∈ U → a ∈ M ∖ t →
    conclusion (growimp i a) ⊆ C' (growimp i a).1 ∖ (growimp i a).1.
  Proof.
    intros Hi Ha. rewrite grow_conc by done. unfold growimp. cbn [fst]. rewrite grow_C' by (done || clear -Ha; set_solver).
    pose proof (HCm i.1 (i.1 ∪ {[a]})) as Hm. clear -Hm. set_solver.
  Qed.
  Lemma grow_cases i a : i ∈ U → a ∈ M ∖ t →
    maximal C' (growimp i a) ∨ ∃ v, v ∈ V ∧ conclusion v ≠ ∅ ∧ sub (growimp i a) v.
  Proof.
    intros Hi Ha. set (n := i.1 ∪ {[a]}).
    assert (a ∉ t) as Hat by (clear -Ha; set_solver).
    pose proof (proj1 (elem_U i) Hi) as (HiB & Hit & Hiv). destruct (ci_in _ _ HB i HiB) as [HiM _].
    assert (n ⊆ M) as HnM by (clear -HiM Ha; set_solver).
    destruct (decide (maximal C' (growimp i a))) as [?|Hnm]; [by left|]. right.
    destruct (decide (Exists (λ v, sub (growimp i a) v) V)) as [(v & Hv & Hs)%Exists_exists|He].
    { exists v. split; [done|]. split; [|done]. apply elem_V in Hv as [Hv _]. by apply (cover_inv_ne C B). }
    exfalso. pose proof (grow_sound i a Hi Ha) as Hsd. pose proof (grow_conc i a Hi) as Hcc.
    change (growimp i a).1 with n in Hsd. unfold n in Hsd at 1. rewrite (grow_C' i a Hi Hat) in Hsd. fold n in Hsd.
    assert (¬ C n ∖ n ⊆ C i.1) as Hnn.
    { intros H. apply Hnm. unfold maximal. rewrite grow_conc by done. unfold growimp. cbn [fst]. rewrite grow_C' by done. fold n.
      pose proof (HCm i.1 n) as Hm. apply set_eq. unfold n in *. clear -H Hm. set_solver. }
    apply (exists_unsub C n); [|by apply HCe|by intros X HX; apply HCe; clear -HX HnM; set_solver|].
    { intros E. apply Hnn. rewrite E. clear. set_solver. }
    intros q Hq Hs Hu. assert (q ⊆ M) as HqM by (clear -Hq HnM; set_solver).
    destruct (ci_all _ _ HB q HqM Hu) as (j & Hj & Ej). destruct (decide (j ∈ V)) as [HjV|HjV].
    - apply He. apply Exists_exists. exists j. split; [done|]. split; [by rewrite Ej|].
      rewrite (ci_max _ _ HB j Hj), Ej. clear -Hsd Hs Hq. set_solver.
    - apply Hnn. assert (q ⊆ i.1) as Hqi.
      { assert (q ⊆ t) as Hqt.
        { destruct (decide (q ⊆ t)) as [?|Hn]; [done|]. exfalso. apply HjV, elem_V. rewrite Ej. done. }
        unfold n in Hq. clear -Hq Hqt Hat. set_solver. }
      specialize (HCm q i.1 Hqi). clear -HCm Hs. set_solver.
  Qed.

  Lemma new_unsub p (S : list fimp) : (∀ i, i ∈ V → i ∈ S) → (∀ i, i ∈ U → cutimp t i ∈ S) →
    (∀ i a, i ∈ U → a ∈ M ∖ t → growimp i a ∈ S) → p ⊆ M → unsubsumed C' p →
    ∃ s, s ∈ S ∧ s.1 = p ∧ conclusion s = C' p ∖ p.
  Proof.
    intros HS1 HS2 HS3 HpM [Hne Hu]. destruct (decide (p ⊆ t)) as [Hpt|Hpt].
    - assert (unsubsumed C p) as Hup.
      { split.
        - intros E. apply Hne. rewrite HC1, E by done. apply set_eq. clear -Hpt. set_solver.
        - intros q Hq Hs. apply (Hu q Hq). rewrite HC1 by done. rewrite HC1; [clear -Hs; set_solver|].
          destruct Hq as [Hq _]. clear -Hq Hpt. set_solver. }
      destruct (ci_all _ _ HB p HpM Hup) as (i & Hi & Ei). destruct (decide (i ∈ V)) as [HV|HV].
      + exists i. split; [by apply HS1|]. split; [done|]. rewrite <-Ei. by apply valid_C'.
      + assert (i ∈ U) as HU.
        { apply elem_U. split; [done|]. split; [by rewrite Ei|]. intros H. apply HV, elem_V. done. }
        exists (cutimp t i). split; [by apply HS2|]. split; [done|]. rewrite <-Ei. by apply cut_C'.
    - destruct (decide (Exists (λ s, s.1 = p ∧ conclusion s = C' p ∖ p) S)) as [(s & Hs & ? & ?)%Exists_exists|He]; [by exists s|].
      exfalso. rewrite HC2 in * by done.
      apply (exists_unsub C p); [done|by apply HCe|by intros X HX; apply HCe; clear -HX HpM; set_solver|].
      intros q Hq Hs Huq. assert (q ⊆ M) as HqM by (clear -Hq HpM; set_solver).
      destruct (ci_all _ _ HB q HqM Huq) as (i & Hi & Ei).
      destruct (decide (i ∈ V)) as [HV|HV].
      + assert (q = p) as ->.
        { destruct (decide (q = p)) as [?|Hqp]; [done|]. exfalso. apply (Hu q).
          - split; [done|]. intros H. apply Hqp, set_eq. clear -Hq H. set_solver.
          - pose proof (valid_C' i HV) as E. rewrite (ci_max _ _ HB i Hi), Ei in E.
            pose proof (C'_ext q HqM) as Hx. clear -E Hs Hx Hq. set_solver. }
        apply He, Exists_exists. exists i. split; [by apply HS1|]. split; [done|]. by rewrite (ci_max _ _ HB i Hi), Ei.
      + assert (i ∈ U) as HU.
        { apply elem_U. split; [done|]. split.
          - destruct (decide (i.1 ⊆ t)) as [?|Hn]; [done|]. exfalso. apply HV, elem_V. done.
          - intros H. apply HV, elem_V. done. }
        pose proof (proj1 (elem_U i) HU) as (_ & Hit & _).
        assert (∃ a, a ∈ p ∖ t) as [a Ha].
        { apply set_choose_L. intros E. apply Hpt. clear -E. set_solver. }
        assert (a ∈ M ∖ t) as HaM by (clear -Ha HpM; set_solver).
        assert (p = i.1 ∪ {[a]}) as Ep.
        { destruct (decide (i.1 ∪ {[a]} = p)) as [?|Hqp]; [done|]. exfalso. rewrite <-Ei in Hq. apply (Hu (i.1 ∪ {[a]})).
          - split; [clear -Hq Ha; set_solver|]. intros H. apply Hqp, set_eq. clear -Hq Ha H. set_solver.
          - rewrite grow_C' by (done || clear -Ha; set_solver). rewrite <-Ei in Hs.
            pose proof (HCm i.1 (i.1 ∪ {[a]})) as Hm. clear -Hs Hm. set_solver. }
        apply He, Exists_exists. exists (growimp i a). split; [by apply HS3|]. split; [done|].
        rewrite grow_conc by done. rewrite <-Ei in Hs. pose proof (HCm i.1 p) as Hm. apply set_eq. rewrite Ep in *. clear -Hs Hm. set_solver.
  Qed.

  Lemma updated_basis_spec ord : (∀ k X, (ord k X : list name) ≡ₚ elements X) →
    ∃ B', updated_basis ord t B M = Ok B' ∧ cover_inv C' B'.
  Proof.
    intros Hord. unfold updated_basis.
    assert (frontier V (V ++ [])) as Hf0.
    { rewrite app_nil_r. pose proof (cover_inv_anti C B HB) as Ha. split.
      - done.
      - apply NoDup_ListNoDup, List.NoDup_filter, NoDup_ListNoDup, HB.
      - eapply anti_mono; [exact Ha|]. by intros x [? _]%elem_V.
      - intros l [? _]%elem_V. by apply (cover_inv_ne C B).
      - intros s Hs _. exists s. done. }
    destruct (cut_loop_spec t V U [] V Hf0) as (nv & S1 & E1 & Hf1 & HS1).
    { intros i v Hi Hv Hs. apply elem_V in Hv as [Hv Hv']. apply elem_U in Hi as (Hi & Hi1 & Hi2).
      assert (v = i) as ->; [|auto]. apply (cover_inv_anti C B HB); [done|done|].
      eapply sub_trans; [exact Hs|]. split; [done|]. unfold cutimp, conclusion. cbn [fst snd]. clear. set_solver. }
    rewrite E1. cbn [mbind res_bind].
    set (cands := concat _).
    assert (∀ x, x ∈ cands ↔ ∃ i a, i ∈ U ∧ a ∈ M ∖ t ∧ x = growimp i a) as Hc.
    { intros x. unfold cands. rewrite elem_of_list_In, in_concat. setoid_rewrite <-elem_of_list_In. split.
      - intros (l & Hl & Hx). apply elem_of_lookup_imap in Hl as (k & i & -> & Hk).
        apply elem_of_list_fmap in Hx as (a & -> & Ha). exists i, a. split; [by apply elem_of_list_lookup_2 in Hk|].
        split; [|done]. by rewrite Hord, elem_of_elements in Ha.
      - intros (i & a & Hi & Ha & ->). apply elem_of_list_lookup in Hi as [k Hk].
        eexists. split; [apply elem_of_lookup_imap; exists k, i; split; [reflexivity|done]|].
        apply elem_of_list_fmap. exists a. split; [done|]. by rewrite Hord, elem_of_elements. }
    destruct (grow_loop_spec C' cands (V ++ nv, []) S1) as (st & S2 & E2 & Hf2 & Hmx2 & HS2).
    { cbn [fst snd]. by rewrite app_nil_r. }
    { cbn [fst snd]. rewrite app_nil_r. intros l Hl. apply (fr_sub _ _ Hf1), HS1 in Hl as [Hl|Hl].
      - by apply valid_C'.
      - apply elem_of_list_fmap in Hl as (i & -> & Hi). exact (cut_C' i Hi). }
    { intros n (i & a & Hi & Ha & ->)%Hc. by apply grow_sound. }
    { intros n (i & a & Hi & Ha & ->)%Hc. destruct (grow_cases i a Hi Ha) as [?|(v & Hv & ?)]; [by left|].
      right. exists v. split; [|done]. apply HS1. by left. }
    rewrite E2. cbn [mbind res_bind]. exists (st.1 ++ st.2). split; [done|].
    assert (∀ l, l ∈ st.1 ++ st.2 → l.1 ⊆ M) as HlM.
    { intros l Hl. apply (fr_sub _ _ Hf2), HS2 in Hl as [[Hl|Hl]%HS1|(i & a & Hi & Ha & ->)%Hc].
      - apply elem_V in Hl as [Hl _]. by apply (ci_in _ _ HB).
      - apply elem_of_list_fmap in Hl as (i & -> & Hi). apply elem_U in Hi as (Hi & _). by apply (ci_in _ _ HB i).
      - apply elem_U in Hi as (Hi & _). apply (ci_in _ _ HB) in Hi as [Hi _]. unfold growimp. cbn [fst]. clear -Hi Ha. set_solver. }
    assert (∀ p, p ⊆ M → unsubsumed C' p → ∃ i, i ∈ st.1 ++ st.2 ∧ i.1 = p) as Hall.
    { intros p HpM Hu. destruct (new_unsub p S2) as (s & Hs & Es & Ec); [| | |done|done|].
      - intros i Hi. apply HS2. left. apply HS1. by left.
      - intros i Hi. apply HS2. left. apply HS1. right. apply elem_of_list_fmap. eauto.
      - intros i a Hi Ha. apply HS2. right. apply Hc. eauto.
      - destruct (fr_cov _ _ Hf2 s Hs) as (l & Hl & Hsl1 & Hsl2).
        + rewrite Ec. intros E. destruct Hu as [Hu _]. apply Hu. apply eq_of_diff; [by apply C'_ext|]. rewrite E. clear. set_solver.
        + exists l. split; [done|]. destruct (decide (l.1 = p)) as [?|Hn]; [done|]. exfalso. destruct Hu as [_ Hu]. apply (Hu l.1).
          * rewrite Es in Hsl1. split; [done|]. intros H. apply Hn, set_eq. clear -H Hsl1. set_solver.
          * rewrite Ec, (Hmx2 l Hl) in Hsl2. clear -Hsl2. set_solver. }
    split.
    - apply Hf2.
    - intros i j Hi Hj E. apply (fr_anti _ _ Hf2); [done|done|]. split; [by rewrite E|]. by rewrite (Hmx2 i Hi), (Hmx2 j Hj), E.
    - done.
    - intros i Hi. split; [by apply HlM|]. split.
      + intros E. apply (fr_ne _ _ Hf2 i Hi). rewrite (Hmx2 i Hi), E. apply set_eq. clear. set_solver.
      + intros q Hq Hs. assert (q ⊆ i.1) as Hqi by apply Hq. pose proof (HlM i Hi) as HiM.
        pose proof (C'_ext q ltac:(clear -Hqi HiM; set_solver)) as Hqe. pose proof (C'_ext i.1 HiM) as Hie.
        apply (exists_unsub C' q).
        * intros E. apply (fr_ne _ _ Hf2 i Hi). rewrite (Hmx2 i Hi). apply set_eq. clear -Hs E Hqi. set_solver.
        * done.
        * intros X HX. apply C'_ext. clear -HX Hqi HiM. set_solver.
        * intros p Hp Hps Hu. destruct (Hall p) as (l & Hl & El); [clear -Hp Hqi HiM; set_solver|done|].
          assert (i = l) as ->; [|rewrite El in Hq; destruct Hq; done].
          apply (fr_anti _ _ Hf2); [done|done|]. split; [rewrite El; clear -Hp Hqi; set_solver|].
          rewrite (Hmx2 i Hi), (Hmx2 l Hl), El. clear -Hs Hps Hp Hqi. set_solver.
    - done.
  Qed.
End step.

(** ** The whole run *)
Definition icl (M : gset name) (ts : list (gset name)) (X : gset name) : gset name :=
  filter (λ m, Forall (λ t, X ⊆ t → m ∈ t) ts) M.
Lemma elem_icl M ts X m : m ∈ icl M ts X ↔ m ∈ M ∧ ∀ t, t ∈ ts → X ⊆ t → m ∈ t.
Proof. unfold icl. rewrite elem_of_filter, Forall_forall. tauto. Qed.
Lemma icl_sub M ts X : icl M ts X ⊆ M.
Proof. intros m [? _]%elem_icl. done. Qed.
Lemma icl_ext M ts X : X ⊆ M → X ⊆ icl M ts X.
Proof. intros H m Hm. apply elem_icl. split; [by apply H|]. intros t _ Ht. by apply Ht. Qed.
Lemma icl_mono M ts X Y : X ⊆ Y → icl M ts X ⊆ icl M ts Y.
Proof. intros H m [Hm Hall]%elem_icl. apply elem_icl. split; [done|]. intros t Ht HY. apply Hall; [done|]. clear -H HY. set_solver. Qed.
Lemma icl_idem M ts X Y : Y ⊆ icl M ts X → icl M ts Y ⊆ icl M ts X.
Proof.
  intros H m [Hm Hall]%elem_icl. apply elem_icl. split; [done|]. intros t Ht HX. apply Hall; [done|].
  intros y Hy. apply H, elem_icl in Hy as [_ Hy]. by apply Hy.
Qed.

Lemma cover_inv_init M : M ≠ ∅ → cover_inv M (icl M []) [(∅, M)].
Proof.
  intros HM. assert (∀ X, icl M [] X = M) as E.
  { intros X. apply set_eq. intros m. rewrite elem_icl. split; [tauto|]. intros Hm. split; [done|]. intros t Ht. by apply elem_of_nil in Ht. }
  split.
  - apply NoDup_singleton.
  - intros i j ->%elem_of_list_singleton ->%elem_of_list_singleton. done.
  - intros i ->%elem_of_list_singleton. rewrite E. unfold conclusion. done.
  - intros i ->%elem_of_list_singleton. cbn [fst]. split; [clear; set_solver|]. split; [by rewrite E|].
    intros q [_ Hq]. exfalso. apply Hq. clear. set_solver.
  - intros p Hp [Hn Hu]. exists (∅, M). split; [by apply elem_of_list_singleton|]. cbn [fst].
    destruct (decide (p = ∅)) as [->|Hne]; [done|]. exfalso. apply (Hu ∅).
    + split; [clear; set_solver|]. intros H. apply Hne. apply set_eq. clear -H. set_solver.
    + rewrite !E. clear. set_solver.
Qed.
Lemma cover_rows_spec M ord ts : (∀ n k X, (ord n k X : list name) ≡ₚ elements X) → (∀ t, t ∈ ts → t ⊆ M) →
  ∀ k done B, cover_inv M (icl M done) B →
  ∃ B', cover_rows ord k M ts B = Ok B' ∧ cover_inv M (icl M (done ++ ts)) B'.
Proof.
  intros Hord. induction ts as [|t ts IH]; intros Hts k ds B HB; cbn [cover_rows].
  { exists B. by rewrite app_nil_r. }
  destruct (updated_basis_spec M t (icl M ds) (icl M (ds ++ [t]))) with (B := B) (ord := ord k) as (B1 & E1 & HB1).
  - apply icl_ext.
  - apply icl_mono.
  - intros X HX. apply set_eq. intros m. rewrite elem_of_intersection, !elem_icl. setoid_rewrite elem_of_app.
    setoid_rewrite elem_of_list_singleton. naive_solver.
  - intros X HX. apply set_eq. intros m. rewrite !elem_icl. setoid_rewrite elem_of_app.
    setoid_rewrite elem_of_list_singleton. naive_solver.
  - done.
  - apply Hord.
  - rewrite E1. cbn [mbind res_bind]. destruct (IH) with (k := Datatypes.S k) (done := ds ++ [t]) (B := B1) as (B' & E' & HB'); [by intros ? ?; apply Hts; right|done|].
    exists B'. split; [done|]. by rewrite <-app_assoc in HB'.
Qed.
Lemma cover_rows_empty ord ts k : cover_rows ord k ∅ ts [(∅, ∅)] = Ok [(∅, ∅)].
Proof.
  revert k. induction ts as [|t ts IH]; intros k; cbn [cover_rows]; [done|].
  unfold updated_basis. cbn [List.filter].
  assert (still_valid t ((∅, ∅) : fimp) = true) as ->.
  { unfold still_valid. apply orb_true_iff. right. apply bool_decide_eq_true. unfold conclusion. cbn [fst snd]. clear. set_solver. }
  cbn [negb cut_loop mbind res_bind imap concat grow_loop fst snd app]. apply IH.
Qed.

(** Consequences of the invariant: the list is direct. *)
Lemma cover_direct M C B : (∀ X, X ⊆ M → X ⊆ C X) → (∀ X, C X ⊆ M) → (∀ X Y, X ⊆ Y → C X ⊆ C Y) → cover_inv M C B →
  ∀ X a, X ⊆ M → a ∈ C X ↔ a ∈ X ∨ ∃ i, i ∈ B ∧ i.1 ⊆ X ∧ a ∈ conclusion i.
Proof.
  intros He HM Hm HB X a HX. split.
  - intros Ha. destruct (decide (a ∈ X)) as [?|Hn]; [by left|]. right.
    destruct (decide (Exists (λ i, i.1 ⊆ X ∧ a ∈ conclusion i) B)) as [(i & ?)%Exists_exists|Hno]; [by exists i|].
    exfalso. apply (exists_unsub C X).
    + intros E. by rewrite E in Ha.
    + by apply He.
    + intros Y HY. apply He. clear -HY HX. set_solver.
    + intros p Hp Hs Hu. destruct (ci_all _ _ _ HB p) as (i & Hi & Ei); [clear -Hp HX; set_solver|done|].
      apply Hno, Exists_exists. exists i. split; [done|]. split; [by rewrite Ei|]. rewrite (ci_max _ _ _ HB i Hi), Ei.
      clear -Hs Hp Ha Hn. set_solver.
  - intros [Ha|(i & Hi & Hs & Ha)]; [by apply (He X HX)|]. rewrite (ci_max _ _ _ HB i Hi) in Ha.
    apply (Hm i.1 X Hs). clear -Ha. set_solver.
Qed.

Section main.
  Context (c : context) (Hc : good c).
  Local Notation K := (abs c).
  Local Notation ts := (map (fun g => up K {[g]}) (objs c)).
  Lemma icl_acl X : icl (fM K) ts X = acl K X.
  Proof.
    pose proof (abs_fwf c) as Hwf. apply set_eq. intros m. unfold acl. rewrite elem_icl, elem_of_up. split.
    - intros [Hm H]. split; [done|]. intros g [Hg HX]%elem_of_down.
      assert (m ∈ up K {[g]}) as [_ Hgm]%elem_of_up; [|apply Hgm; clear; set_solver].
      apply H.
      + apply elem_of_list_fmap. exists g. split; [done|]. by apply elem_of_list_to_set in Hg.
      + intros x Hx. apply elem_of_up. split; [by apply (Hwf g x), HX|]. intros g' ->%elem_of_singleton. by apply HX.
    - intros [Hm H]. split; [done|]. intros t Ht HX. apply elem_of_list_fmap in Ht as (g & -> & Hg).
      apply elem_of_up. split; [done|]. intros g' ->%elem_of_singleton. apply H, elem_of_down.
      split; [by apply elem_of_list_to_set|]. intros x Hx. apply HX, elem_of_up in Hx as [_ Hx]. apply Hx. clear. set_solver.
  Qed.
  Lemma cover_main ord : (∀ n k X, (ord n k X : list name) ≡ₚ elements X) →
    ∃ L, compute_implication_cover c ord = Ok L ∧
      NoDup (map fst L) ∧
      (∀ i, i ∈ L → i.1 ⊆ fM K ∧ conclusion i = acl K i.1 ∖ i.1) ∧
      (∀ X, X ⊆ fM K → is_closure L X (acl K X)) ∧
      (∀ X a, X ⊆ fM K → a ∈ acl K X ↔ a ∈ X ∨ ∃ i, i ∈ L ∧ i.1 ⊆ X ∧ a ∈ conclusion i) ∧
      (atts c ≠ [] → ∀ p, p ∈ map fst L ↔ p ⊆ fM K ∧ unsubsumed (acl K) p) ∧
      (atts c = [] → L = [(∅, ∅)]).
  Proof.
    intros Hord. unfold compute_implication_cover. rewrite examples_eq by done. cbn [mbind res_bind].
    change (list_to_set (atts c)) with (fM K).
    assert (∀ L, (∀ i, i ∈ L → i.1 ⊆ fM K ∧ conclusion i = acl K i.1 ∖ i.1) →
      (∀ X a, X ⊆ fM K → a ∈ acl K X ↔ a ∈ X ∨ ∃ i, i ∈ L ∧ i.1 ⊆ X ∧ a ∈ conclusion i) →
      ∀ X, X ⊆ fM K → is_closure L X (acl K X)) as Hcl.
    { intros L H1 H2 X HX. split; [by apply acl_ext|]. split.
      - intros i Hi. apply respects_conclusion. intros Hp. destruct (H1 i Hi) as [HiM ->].
        intros a [Ha _]%elem_of_difference. rewrite <-(acl_idem K X) by done. by apply (acl_mono K i.1).
      - intros Y HXY HY a Ha. apply H2 in Ha as [Ha|(i & Hi & Hp & Ha)]; [by apply HXY| |done].
        specialize (HY i Hi). rewrite respects_conclusion in HY. apply HY; [|done]. clear -Hp HXY. set_solver. }
    destruct (atts c) as [|m0 ms] eqn:Eatts.
    - assert (fM K = ∅) as EM by (unfold abs; cbn [fM]; by rewrite Eatts).
      assert (cover_rows ord 0 (fM K) ts [(∅, fM K)] = Ok [(∅, ∅)]) as -> by (rewrite EM; apply cover_rows_empty).
      exists [(∅, ∅)]. split; [done|].
      assert (∀ X, acl K X = ∅) as EA. { intros X. pose proof (acl_sub K X) as H. rewrite EM in H. apply set_eq. clear -H. set_solver. }
      assert (∀ i : fimp, i ∈ [((∅, ∅) : fimp)] → i.1 ⊆ fM K ∧ conclusion i = acl K i.1 ∖ i.1) as H1.
      { intros i ->%elem_of_list_singleton. split; [clear; set_solver|]. rewrite EA. done. }
      assert (∀ X a, X ⊆ fM K → a ∈ acl K X ↔ a ∈ X ∨ ∃ i : fimp, i ∈ [((∅, ∅) : fimp)] ∧ i.1 ⊆ X ∧ a ∈ conclusion i) as H2.
      { intros X a HX. rewrite EM in HX. rewrite EA. split; [clear; set_solver|]. intros [Ha|(i & ->%elem_of_list_singleton & _ & Ha)].
        - by apply HX.
        - by apply elem_of_difference in Ha as [? _]. }
      split; [apply NoDup_singleton|]. split; [done|]. split; [by apply Hcl|]. split; [done|]. done.
    - assert (fM K ≠ ∅) as HM.
      { intros E. apply (not_elem_of_empty (C := gset name) m0). rewrite <-E. apply elem_of_list_to_set. rewrite Eatts. by left. }
      destruct (cover_rows_spec (fM K) ord ts Hord) with (k := 0) (done := @nil (gset name)) (B := [((∅, fM K) : fimp)]) as (L & E & HL).
      { intros t Ht. apply elem_of_list_fmap in Ht as (g & -> & _). apply up_sub. }
      { by apply cover_inv_init. }
      cbn [app] in HL. exists L. split; [done|].
      assert (∀ p, unsubsumed (icl (fM K) ts) p ↔ unsubsumed (acl K) p) as Hus.
      { intros p. unfold unsubsumed. setoid_rewrite icl_acl. done. }
      assert (∀ i, i ∈ L → i.1 ⊆ fM K ∧ conclusion i = acl K i.1 ∖ i.1) as H1.
      { intros i Hi. split; [by apply (ci_in _ _ _ HL)|]. rewrite (ci_max _ _ _ HL i Hi). by rewrite icl_acl. }
      assert (∀ X a, X ⊆ fM K → a ∈ acl K X ↔ a ∈ X ∨ ∃ i, i ∈ L ∧ i.1 ⊆ X ∧ a ∈ conclusion i) as H2.
      { intros X a HX. rewrite <-icl_acl. apply (cover_direct (fM K) _ L); [apply icl_ext|apply icl_sub|apply icl_mono|done|done]. }
      split.
      { apply NoDup_fmap_fst; [|apply HL]. intros x y1 y2 Hy1 Hy2. by injection (ci_inj _ _ _ HL _ _ Hy1 Hy2 eq_refl). }
      split; [done|]. split; [by apply Hcl|]. split; [done|]. split; [|done]. intros _ p. split.
      + intros Hp. apply elem_of_list_fmap in Hp as (i & -> & Hi). rewrite <-Hus. by apply (ci_in _ _ _ HL).
      + intros [HpM Hu%Hus]. destruct (ci_all _ _ _ HL p HpM Hu) as (i & Hi & <-). by apply elem_of_list_fmap_1.
  Qed.
End main.

(** ** minimize *)
Lemma model_app L1 L2 X : model_of (L1 ++ L2) X ↔ model_of L1 X ∧ model_of L2 X.
Proof. unfold model_of. setoid_rewrite elem_of_app. naive_solver. Qed.
Lemma model_cons i L X : model_of (i :: L) X ↔ respects X i ∧ model_of L X.
Proof. unfold model_of. setoid_rewrite elem_of_cons. naive_solver. Qed.
Lemma model_perm L1 L2 X : L1 ≡ₚ L2 → model_of L1 X ↔ model_of L2 X.
Proof. unfold model_of. intros H. by setoid_rewrite H. Qed.
Lemma model_map_ext (h h' : nat → fimp) l X : (∀ s, s ∈ l → h s = h' s) → model_of (map h l) X ↔ model_of (map h' l) X.
Proof.
  intros H. unfold model_of. split; intros Hm j Hj; apply elem_of_list_fmap in Hj as (s & -> & Hs); apply Hm.
  - rewrite <-H by done. by apply elem_of_list_fmap_1.
  - rewrite H by done. by apply elem_of_list_fmap_1.
Qed.
Lemma closed_premise L (A B P : gset name) : is_closure L A P →
  ∀ X, model_of L X → respects X (P, B) ↔ respects X (A, B).
Proof.
  intros (H1 & H2 & H3) X HX. unfold respects. cbn [fst snd]. split; intros H Hs; apply H.
  - by apply H3.
  - clear -H1 Hs. set_solver.
Qed.
Lemma remove_ref_hd h r l : remove_ref h r (r :: l) = Ok l.
Proof. cbn [remove_ref]. by rewrite bool_decide_eq_true_2. Qed.

Section minimize.
  Context (M : gset name) (HM : comparable (elements M) = true).
  Definition over (i : fimp) : Prop := i.1 ⊆ M ∧ i.2 ⊆ M.
  Lemma over_hash i : over i → hashable i = true.
  Proof using HM.
    intros [H1 H2]. apply hashable_final. apply comparable_spec in HM. setoid_rewrite elem_of_elements in HM.
    destruct HM as [Hc|Hc]; [split; left; eauto|split; right; eauto].
  Qed.
  (** What is known about the processed references [ds] when [cover] is the list. *)
  Definition settled (h : nat → fimp) (cover : list nat) (d : nat) : Prop :=
    ¬ conclusion (h d) ⊆ (h d).1 ∧ ∀ s, s ∈ cover → s ≠ d → respects (h d).1 (h s).

  Lemma minimize_loop_spec todo : ∀ ds h, NoDup (todo ++ ds) → (∀ r, r ∈ todo ++ ds → over (h r)) →
    (∀ d, d ∈ ds → settled h (todo ++ ds) d) →
    ∃ ds' h', minimize_loop todo (todo ++ ds) h = Ok (ds ++ ds', h') ∧ sublist ds' todo ∧
      (∀ X, model_of (map h' (ds ++ ds')) X ↔ model_of (map h (todo ++ ds)) X) ∧
      (∀ d, d ∈ ds ++ ds' → settled h' (ds ++ ds') d) ∧
      (∀ r, r ∈ ds ++ ds' → over (h' r)) ∧
      (∀ r, (h' r).2 = (h r).2 ∧ (h r).1 ⊆ (h' r).1) ∧ (∀ r, r ∉ todo → h' r = h r) ∧
      (∀ X r, model_of (map h (todo ++ ds)) X → (h r).1 ⊆ X → (h' r).1 ⊆ X).
  Proof using HM.
    induction todo as [|r todo IH]; intros ds h Hnd Hov Hset; cbn [minimize_loop].
    { exists [], h. rewrite app_nil_r. cbn [app] in *. done. }
    change ((r :: todo) ++ ds) with (r :: (todo ++ ds)) in *. rewrite remove_ref_hd. cbn [mbind res_bind].
    apply NoDup_cons in Hnd as [Hr Hnd].
    destruct (simple_closure_spec (h r).1 (map h (todo ++ ds))) as (P & EP & HP).
    { intros i Hi. apply elem_of_list_fmap in Hi as (s & -> & Hs). apply over_hash, Hov. by right. }
    rewrite EP. cbn [mbind res_bind].
    set (h1 := fun s => if decide (s = r) then (P, (h r).2) else h s).
    assert (h1 r = (P, (h r).2)) as Eh1 by (unfold h1; by rewrite decide_True).
    assert (∀ s, s ≠ r → h1 s = h s) as Eh2 by (intros s Hs; unfold h1; by rewrite decide_False).
    assert (∀ s, s ∈ todo ++ ds → h1 s = h s) as Eh3 by (intros s Hs; apply Eh2; by intros ->).
    destruct (Hov r) as [Ho1 Ho2]; [by left|].
    assert (P ⊆ M) as HPM.
    { apply HP; [done|]. intros i Hi. apply elem_of_list_fmap in Hi as (s & -> & Hs). intros _. apply Hov. by right. }
    assert (∀ s, over (h s) → over (h1 s)) as Hov1.
    { intros s Hs. destruct (decide (s = r)) as [->|Hn]; [by rewrite Eh1|by rewrite Eh2]. }
    assert ((h r).1 ⊆ P) as HrP by apply HP.
    assert (∀ X s, respects X (h s) → respects X (h1 s)) as Hweak.
    { intros X s. destruct (decide (s = r)) as [->|Hn]; [rewrite Eh1|by rewrite Eh2].
      unfold respects. cbn [fst snd]. intros H Hs. apply H. clear -HrP Hs. set_solver. }
    assert (∀ X, model_of (map h (todo ++ ds)) X → respects X (h1 r) ↔ respects X (h r)) as Hmod.
    { intros X HX. rewrite Eh1, (surjective_pairing (h r)) at 1. cbn [snd]. rewrite (closed_premise _ (h r).1 _ P HP X HX).
      by rewrite <-surjective_pairing. }
    assert (∀ X s, model_of (map h (todo ++ ds)) X → (h s).1 ⊆ X → (h1 s).1 ⊆ X) as HupP.
    { intros X s HX Hs. destruct (decide (s = r)) as [->|Hn]; [|by rewrite Eh2]. rewrite Eh1. cbn [fst]. by apply HP. }
    assert (∀ d cov, d ∈ ds → (∀ s, s ∈ cov → s ∈ r :: todo ++ ds) → settled h1 cov d) as Hset1.
    { intros d cov Hd Hcov. destruct (Hset d Hd) as [Hs1 Hs2]. assert (d ≠ r) as Hdr.
      { intros ->. apply Hr, elem_of_app. by right. }
      unfold settled. rewrite (Eh2 d Hdr). split; [done|]. intros s Hs Hsd. apply Hweak, Hs2; [by apply Hcov|done]. }
    case_bool_decide as Hb.
    - (* dropped *)
      destruct (IH ds h1) as (ds' & h' & E' & Hsl & Hmd & Hst & Hov' & Hlow & Hout & Hup); [done| | |].
      { intros s Hs. apply Hov1, Hov. by right. }
      { intros d Hd. apply Hset1; [done|]. intros s Hs. by right. }
      exists ds', h'. split; [done|]. split; [by apply sublist_cons|]. split.
      { intros X. rewrite Hmd. rewrite (model_map_ext h1 h) by done. cbn [map]. rewrite model_cons. split; [|tauto].
        intros HX. split; [|done]. apply Hmod; [done|]. rewrite Eh1. apply respects_conclusion. cbn [fst]. intros HPX.
        rewrite decide_True in Hb by done. cbn [fst] in Hb. clear -Hb HPX. set_solver. }
      split; [done|]. split; [done|]. split.
      { intros s. destruct (Hlow s) as [-> Hl]. destruct (decide (s = r)) as [->|Hn].
        - rewrite Eh1 in *. cbn [fst snd] in *. split; [done|]. clear -Hl HrP. set_solver.
        - by rewrite Eh2 in * by done. }
      split; [intros s Hs; rewrite Hout; [apply Eh2|]; intros H; apply Hs; [subst; by left|by right]|].
      intros X s HX Hs. cbn [map] in HX. apply model_cons in HX as [_ HX]. apply Hup; [by rewrite (model_map_ext h1 h)|by apply HupP].
    - rewrite <-app_assoc.
      destruct (IH (ds ++ [r]) h1) as (ds' & h' & E' & Hsl & Hmd & Hst & Hov' & Hlow & Hout & Hup).
      { rewrite app_assoc. apply NoDup_app. split; [done|]. split; [|apply NoDup_singleton]. intros x Hx ->%elem_of_list_singleton. done. }
      { intros s Hs. apply Hov1, Hov. rewrite app_assoc, elem_of_app, elem_of_list_singleton in Hs. rewrite elem_of_cons. tauto. }
      { intros d Hd. apply elem_of_app in Hd as [Hd| ->%elem_of_list_singleton].
        - apply Hset1; [done|]. intros s Hs. rewrite app_assoc, elem_of_app, elem_of_list_singleton in Hs. rewrite elem_of_cons. tauto.
        - split; [exact Hb|]. rewrite Eh1. cbn [fst]. intros s Hs Hsr.
          rewrite app_assoc, elem_of_app, elem_of_list_singleton in Hs. destruct Hs as [Hs|?]; [|done].
          rewrite Eh2 by done. apply HP. by apply elem_of_list_fmap_1. }
      exists ([r] ++ ds'), h'. rewrite (app_assoc ds [r] ds'). split; [done|]. split; [by apply sublist_skip|]. split.
      { intros X. rewrite Hmd. rewrite (app_assoc todo ds [r]), map_app, model_app. cbn [map]. rewrite !model_cons.
        rewrite (model_map_ext h1 h) by done. assert (model_of [] X) by (intros j Hj; by apply elem_of_nil in Hj).
        specialize (Hmod X). tauto. }
      split; [done|]. split; [done|]. split.
      { intros s. destruct (Hlow s) as [-> Hl]. destruct (decide (s = r)) as [->|Hn].
        - rewrite Eh1 in *. cbn [fst snd] in *. split; [done|]. clear -Hl HrP. set_solver.
        - by rewrite Eh2 in * by done. }
      split; [intros s Hs; rewrite Hout; [apply Eh2|]; intros H; apply Hs; [subst; by left|by right]|].
      intros X s HX Hs. cbn [map] in HX. apply model_cons in HX as [HXr HX]. apply Hup; [|by apply HupP].
      rewrite app_assoc, map_app. apply model_app. split; [by rewrite (model_map_ext h1 h)|]. cbn [map].
      apply model_cons. split; [by apply Hweak|]. intros j Hj. by apply elem_of_nil in Hj.
  Qed.

  Lemma minimize_main cover h : NoDup cover → (∀ r, r ∈ cover → over (h r)) →
    ∃ cover' h', minimize cover h = Ok (cover', h') ∧ sublist cover' cover ∧
      (∀ X, model_of (map h' cover') X ↔ model_of (map h cover) X) ∧
      (∀ k i, map h' cover' !! k = Some i → ¬ entails (delete k (map h' cover')) i) ∧
      (∀ k i, map h' cover' !! k = Some i → model_of (delete k (map h' cover')) i.1) ∧
      (∀ r, (h' r).2 = (h r).2 ∧ (h r).1 ⊆ (h' r).1 ∧ ∀ X, model_of (map h cover) X → (h r).1 ⊆ X → (h' r).1 ⊆ X) ∧
      (∀ r, r ∉ cover → h' r = h r).
  Proof using HM.
    intros Hnd Hov. unfold minimize. destruct (minimize_loop_spec cover [] h) as (ds & h' & E & Hsl & Hmd & Hst & _ & Hlow & Hout & Hup).
    { by rewrite app_nil_r. }
    { by rewrite app_nil_r. }
    { intros d Hd. by apply elem_of_nil in Hd. }
    rewrite app_nil_r in *. cbn [app] in *. exists ds, h'. split; [done|]. split; [done|]. split; [done|].
    assert (NoDup ds) as Hnds.
    { apply sublist_submseteq, submseteq_Permutation in Hsl as [k Hk]. rewrite Hk in Hnd. by apply NoDup_app in Hnd as [? _]. }
    assert (∀ k i, map h' ds !! k = Some i → model_of (delete k (map h' ds)) i.1) as Hcl.
    { intros k i Hk. rewrite list_lookup_fmap in Hk. apply fmap_Some in Hk as (d & Hd & ->).
      intros j Hj. rewrite delete_take_drop in Hj. rewrite <-fmap_take, <-fmap_drop, <-fmap_app in Hj.
      apply elem_of_list_fmap in Hj as (s & -> & Hs).
      pose proof (take_drop_middle ds k d Hd) as Eds.
      apply Hst; [by eapply elem_of_list_lookup_2| |].
      - rewrite <-Eds. rewrite elem_of_app in Hs. rewrite elem_of_app, elem_of_cons. tauto.
      - intros ->. rewrite <-Eds, <-Permutation_middle in Hnds. by apply NoDup_cons in Hnds as [? _]. }
    split; [|split; [done|split; [|done]]].
    2: { intros r. destruct (Hlow r) as [H1 H2]. split; [done|]. split; [done|]. intros X. by apply Hup. }
    intros k i Hk He. pose proof (Hcl k i Hk) as Hm. specialize (He _ Hm).
    rewrite list_lookup_fmap in Hk. apply fmap_Some in Hk as (d & Hd & ->). destruct (Hst d) as [Hn _]; [by eapply elem_of_list_lookup_2|].
    apply Hn. rewrite respects_conclusion in He. by apply He.
  Qed.
End minimize.

Lemma is_redundant_main i L : (∀ j, j ∈ L → hashable j = true) →
  ∃ b, is_redundant i L = Ok b ∧ (b = true ↔ entails L i).
Proof.
  intros H. unfold is_redundant. destruct (simple_closure_spec i.1 L H) as (C & -> & H1 & H2 & H3). cbn [mbind res_bind].
  eexists. split; [done|]. rewrite bool_decide_eq_true. unfold entails. split.
  - intros Hs X HX. apply respects_conclusion. intros Hp. specialize (H3 X Hp HX). clear -Hs H3. set_solver.
  - intros He. specialize (He C H2). rewrite respects_conclusion in He. by apply He.
Qed.
