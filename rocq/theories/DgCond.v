(** * The basis algorithm with a condition when it yields nothing *)
From Verif Require Import Py Spec PyFacts SpecFacts DgSpec ContextModel ClosureModel ClosureFacts DgModel DgFacts DgMain DgCxt.

Section cond.
  Context (ms : list name) (Hms : NoDup ms).
  Local Notation M := (list_to_set ms : gset name).
  Local Notation n := (length ms).
  Context (cl : gset name → gset name) (Hcl : growing_op M cl).
  Context (aclose : gset name → res (gset name)) (Haclose : ∀ X, X ⊆ M → aclose X = Ok (cl X)).
  Context (close : closer) (L0 : list fimp) (cond : gset name → bool).
  Context (HL0 : ∀ i, i ∈ L0 → i.2 ⊆ M).
  Context (Hclose : ∀ R X, (∀ i, i ∈ R → i.1 ⊆ M ∧ i.2 ⊆ M) → X ⊆ M →
    ∃ C, close X (Some (R ++ L0)) = Ok C ∧ is_closure (R ++ L0) X C).

  (** Unless a proper subset respecting the background is not closed, [X] is closed
      or the condition fails. *)
  Definition quiet (X : gset name) : Prop :=
    (∀ Q, Q ⊂ X → model_of L0 Q → cl Q = Q) → cond X = true → cl X = X.
  Record cinv (R : list fimp) (a : gset name) (i : nat) : Prop := {
    c_filt : inv_filtered ms cl cond R a i;
    c_prem : ∀ j, j ∈ R → model_of L0 j.1;
    c_model : model_of L0 a;
    c_quiet : R = [] → (∀ X, X ⊆ M → model_of L0 X → lectic ms X a → quiet X) ∧
      (i = n ∨ ∃ m, ms !! i = Some m ∧ m ∈ a ∧ is_closure L0 (a ∩ pre ms (S i)) a) }.
  Definition cpost (R : list fimp) : Prop := filtered ms cl cond R ∧ (∀ j, j ∈ R → model_of L0 j.1) ∧ (R = [] → ∀ X, X ⊆ M → model_of L0 X → quiet X).

  Lemma filtered_sub R : filtered ms cl cond R → ∀ i, i ∈ R → i.1 ⊆ M ∧ i.2 ⊆ M.
  Proof. intros [HR _] i Hi. destruct (HR i Hi) as (H1 & H2 & _). split; [done|]. unfold fimp in *. rewrite H2. by apply (gr_sub _ _ Hcl). Qed.
  Lemma filtered_close R : filtered ms cl cond R → close_ok ms close L0 R.
  Proof.
    intros HR X HX. destruct (Hclose R X (filtered_sub R HR) HX) as (C & HC & C1 & C2 & C3). exists C. split; [done|]. split; [done|].
    apply C3; [done|]. intros i [Hi|Hi]%elem_of_app _; [by apply (filtered_sub R HR)|by apply HL0].
  Qed.
  Lemma basis_close R X : basis_like ms cl L0 R → X ⊆ M → ∃ C, close X (Some (R ++ L0)) = Ok C ∧ is_closure (R ++ L0) X C.
  Proof.
    intros [HR _] HX. apply Hclose; [|done]. intros i Hi. destruct (HR i Hi) as (H1 & H2 & _). split; [done|].
    unfold fimp in *. rewrite H2. by apply (gr_sub _ _ Hcl).
  Qed.
  Lemma basis_nil : basis_like ms cl L0 [].
  Proof. split; [by intros ? ?%elem_of_nil|constructor]. Qed.
  Lemma next_nil R a : next_basis cl cond R a = [] → R = [] ∧ (a = cl a ∨ cond a = false).
  Proof.
    unfold next_basis. destruct (bool_decide (a ≠ cl a)) eqn:E1, (cond a) eqn:E2; cbn [andb]; intros E.
    - by apply app_nil in E as [_ ?].
    - auto.
    - apply bool_decide_eq_false in E1. split; [done|]. left. by apply dec_stable.
    - auto.
  Qed.
  (** A set beyond [a] that first differs from it at [i] or later contains it. *)
  Lemma above a i X k x : (i = n ∨ ∃ m, ms !! i = Some m ∧ m ∈ a ∧ is_closure L0 (a ∩ pre ms (S i)) a) →
    model_of L0 X → ms !! k = Some x → x ∈ X → x ∉ a → agree ms k a X → i ≤ k → a ⊂ X.
  Proof.
    intros Hi HX Hk HxX Hxa Hag Hik. assert (k < n) as Hkn by (by eapply lookup_lt_Some).
    split; [|intros H; by apply Hxa, H]. destruct Hi as [->|(m & Hm & Hma & Hc)]; [lia|].
    assert (k ≠ i) by (intros ->; congruence). destruct Hc as (_ & _ & Hc). apply Hc; [|done].
    intros y [Hy1 Hy2]%elem_of_intersection. apply elem_of_pre in Hy2 as (l & Hl & Hy). apply (Hag l y); [lia|done|done].
  Qed.
  Lemma quiet_here a : a = cl a ∨ cond a = false → quiet a.
  Proof. intros [H|H] _ Hc; [done|congruence]. Qed.
  Lemma quiet_above a X : model_of L0 a → a ≠ cl a → a ⊂ X → quiet X.
  Proof. intros Hm Hne Hs H _. exfalso. apply Hne. symmetry. by apply H. Qed.
  (** The sets up to the next one. *)
  Lemma quiet_to R a i b : cinv R a i → (next_basis cl cond R a = [] → ∀ X, X ⊆ M → model_of L0 X → lectic ms a X → lectic ms X b → quiet X) →
    next_basis cl cond R a = [] → ∀ X, X ⊆ M → model_of L0 X → lectic ms X b → quiet X.
  Proof.
    intros [Hf _ _ Hq] Hb E X HX Hm HXb. destruct (next_nil R a E) as [ER Ha]. destruct (Hq ER) as (Hlt & _).
    destruct Hf as (_ & _ & HaM & _). destruct (lectic_total ms X a HX HaM) as [->|[H|H]]; [by apply quiet_here|by apply Hlt|by apply Hb].
  Qed.
  (** The closure that the inner loop finds, when there are no implications so far. *)
  Lemma inner_closure a1 i1 b j : i1 ≤ n → a1 ⊆ M → inner_res ms close L0 [] a1 i1 b j →
    ∃ m, ms !! j = Some m ∧ m ∈ b ∧ is_closure L0 (b ∩ pre ms (S j)) b.
  Proof.
    intros Hi Ha1 Hin. assert (filtered ms cl cond []) as Hnil by (split; [by intros ? ?%elem_of_nil|constructor]).
    destruct (inner_progress ms close L0 _ a1 i1 b j (filtered_close _ Hnil) Hi Ha1 Hin) as (Hj & Hb & Hag & m & Hm & Hmb & Hma).
    assert (is_closure L0 (a1 ∩ pre ms j ∪ {[m]}) b) as Hcb.
    { destruct Hin as (m' & _ & Hm' & _ & Hc & _). assert (m' = m) as -> by congruence.
      destruct (Hclose [] (a1 ∩ pre ms j ∪ {[m]})) as (C & HC & HCc).
      - by intros ? ?%elem_of_nil.
      - assert (m ∈ M) by (apply elem_of_list_to_set; by eapply elem_of_list_lookup_2). clear -Ha1 H. set_solver.
      - rewrite Hc in HC. injection HC as <-. done. }
    exists m. split; [done|]. split; [done|].
    assert (b ∩ pre ms (S j) = a1 ∩ pre ms j ∪ {[m]}) as ->; [|done].
    apply set_eq. intros x. rewrite elem_of_union, !elem_of_intersection, elem_of_singleton, !elem_of_pre. split.
    - intros [Hxb (k & Hk & Hx)]. destruct (decide (k = j)) as [->|]; [right; congruence|]. left.
      split; [|exists k; split; [lia|done]]. apply (Hag k x); [lia|done|done].
    - intros [[Hx1 (k & Hk & Hx)]| ->].
      + split; [by apply (Hag k x)|]. exists k. split; [lia|done].
      + split; [done|]. exists j. split; [lia|done].
  Qed.

  Lemma inner_model R a1 i1 b j : filtered ms cl cond R → i1 ≤ n → a1 ⊆ M → inner_res ms close L0 R a1 i1 b j → model_of L0 b.
  Proof.
    intros HR Hi Ha1 (m & Hji & Hm & _ & Hc & _). destruct (Hclose R (a1 ∩ pre ms j ∪ {[m]})) as (C & HC & _ & HCm & _).
    - by apply filtered_sub.
    - assert (m ∈ M) by (apply elem_of_list_to_set; by eapply elem_of_list_lookup_2). clear -Ha1 H. set_solver.
    - rewrite Hc in HC. injection HC as <-. by apply model_of_app in HCm as [_ ?].
  Qed.
  Lemma next_prem R a i : cinv R a i → ∀ j, j ∈ next_basis cl cond R a → model_of L0 j.1.
  Proof.
    intros [_ Hp Hm _] j. unfold next_basis. destruct (_ && _); [|apply Hp].
    intros [Hj| ->%elem_of_list_singleton]%elem_of_app; [by apply Hp|done].
  Qed.

  Lemma c_step1 R a i b j : cinv R a i → (cl a ∖ a) ∩ pre ms i ≠ ∅ →
    inner_res ms close L0 (next_basis cl cond R a) (a ∩ pre ms i) i b j → cinv (next_basis cl cond R a) b j.
  Proof.
    intros HC Hne Hin. pose proof HC as [HI _ Hma' Hq]. pose proof HI as (_ & _ & Ha & Hi).
    assert (a ∩ pre ms i ⊆ M) as Hai by (clear -Ha; set_solver).
    destruct (filtered_next ms cl cond _ _ _ HI) as [Hf _].
    destruct (inner_progress ms close L0 _ _ _ _ _ (filtered_close _ Hf) Hi Hai Hin) as (Hj & Hbm & Hag & m & Hm & Hmb & Hma).
    assert (j < i) as Hji by (destruct Hin as (? & ? & _); done).
    assert (∀ k, k ≤ i → agree ms k a (a ∩ pre ms i)) as Hagi.
    { intros k Hk. apply (agree_pre ms). intros x (l & Hl & Hx)%elem_of_pre. rewrite elem_of_intersection, elem_of_pre.
      split; [intros; split; [done|exists l; split; [lia|done]]|tauto]. }
    split.
    - apply (filtered_step ms cl cond R a i); [done| |done|done].
      exists j, m. split; [done|]. split; [done|]. split.
      + intros Hm'. apply Hma, elem_of_intersection. split; [done|]. by apply (pre_index ms Hms j m).
      + eapply agree_trans; [apply Hagi; lia|done].
    - exact (next_prem R a i HC).
    - by apply (inner_model _ _ _ _ _ Hf) in Hin.
    - intros E. rewrite E in Hin. pose proof (inner_closure _ _ _ _ Hi Hai Hin) as Hcb. split; [|by auto].
      apply (quiet_to R a i b HC); [|done]. clear E. intros E X HX HXm HaX HXb. destruct (next_nil R a E) as [ER Hac].
      destruct (Hq ER) as (_ & Hi').
      pose proof HaX as (k & x & Hk & HxX & Hxa & Hagk). destruct (decide (k < i)) as [Hki|Hki].
      + exfalso. eapply (inner_min ms cl Hcl close L0 HL0 basis_close [] _ _ _ _ X k x basis_nil Hi Hai Hin); try done.
        * clear -Hxa. set_solver.
        * eapply agree_trans; [|done]. apply agree_sym, Hagi. lia.
      + apply (quiet_above a); [done| |eapply (above a i X k x); try done; lia].
        intros E'. apply Hne. rewrite <-E'. clear. set_solver.
  Qed.
  Lemma c_step2 R a i b j : cinv R a i → (cl a ∖ a) ∩ pre ms i = ∅ →
    inner_res ms close L0 (next_basis cl cond R a) (cl a) n b j → cinv (next_basis cl cond R a) b j.
  Proof.
    intros HC He Hin. pose proof HC as [HI _ Hma' Hq]. pose proof HI as (_ & _ & Ha & Hi).
    pose proof (gr_sub _ _ Hcl a Ha) as Hac. pose proof (gr_ext _ _ Hcl a Ha) as Haac.
    destruct (filtered_next ms cl cond _ _ _ HI) as [Hf _].
    destruct (inner_progress ms close L0 _ _ _ _ _ (filtered_close _ Hf) (le_n _) Hac Hin) as (Hj & Hbm & Hag & m & Hm & Hmb & Hma).
    assert (lectic ms (cl a) b) as Hlt by (by exists j, m).
    split.
    - apply (filtered_step ms cl cond R a i); [done| |done|done].
      destruct (lectic_total ms a (cl a)) as [E|[H|H]]; [done|done|by rewrite E|by eapply lectic_trans|].
      destruct (lectic_sub ms _ _ Haac H).
    - exact (next_prem R a i HC).
    - by apply (inner_model _ _ _ _ _ Hf) in Hin.
    - intros E. rewrite E in Hin. pose proof (inner_closure _ _ _ _ (le_n _) Hac Hin) as Hcb. split; [|by auto].
      apply (quiet_to R a i b HC); [|done]. clear E. intros E X HX HXm HaX HXb. destruct (next_nil R a E) as [ER _].
      destruct (Hq ER) as (_ & Hi').
      pose proof HaX as (k & x & Hk & HxX & Hxa & Hagk). assert (¬ lectic ms (cl a) X) as H.
      { intros H. pose proof H as (k' & x' & Hk' & HxX' & Hxa' & Hagk').
        eapply (inner_min ms cl Hcl close L0 HL0 basis_close [] _ _ _ _ X k' x' basis_nil (le_n _) Hac Hin); try done. by eapply lookup_lt_Some. }
      assert (a ≠ cl a) as Hne by (intros E'; apply H; by rewrite <-E').
      apply (quiet_above a); [done|done|]. eapply above; [exact Hi'|exact HXm|exact Hk|done..|].
      destruct (decide (i ≤ k)); [done|]. exfalso. apply H.
      assert (∀ l y, l < i → ms !! l = Some y → (y ∈ a ↔ y ∈ cl a)) as Hagi.
      { intros l y Hl Hy. split; [by apply Haac|]. intros Hy'. destruct (decide (y ∈ a)); [done|]. exfalso.
        assert (y ∈ (cl a ∖ a) ∩ pre ms i) as Hy2.
        { apply elem_of_intersection. split; [by apply elem_of_difference|]. apply elem_of_pre. eauto. }
        rewrite He in Hy2. by apply elem_of_empty in Hy2. }
      exists k, x. split; [done|]. split; [done|]. split.
      + intros Hx. apply Hxa. apply (Hagi k x); [lia|done|done].
      + intros l y Hl Hy. rewrite <-(Hagi l y); [|lia|done]. by apply (Hagk l y).
  Qed.
  Lemma c_end1 R i : cinv R M i → cpost R.
  Proof.
    intros [(HF & _) Hp _ Hq]. split; [done|]. split; [done|]. intros E X HX Hm. destruct (Hq E) as (H & _).
    destruct (lectic_total ms X M) as [->|[Hl|Hl]]; [done|done|..].
    - intros _ _. apply (anti_symm (⊆)); [by apply (gr_sub _ _ Hcl)|by apply (gr_ext _ _ Hcl)].
    - by apply H.
    - destruct (lectic_sub ms _ _ HX Hl).
  Qed.
  Lemma c_end2 R a i : cinv R a i → (cl a ∖ a) ∩ pre ms i = ∅ → a ≠ M → cl a = M → cpost (next_basis cl cond R a).
  Proof.
    intros HC He HaM HclM. pose proof HC as [HI _ Hma' Hq]. pose proof HI as (_ & _ & Ha & Hi). split; [by apply (filtered_next ms cl cond _ _ _ HI)|].
    split; [exact (next_prem R a i HC)|]. intros E X HX Hm. destruct (next_nil R a E) as [ER Hac]. destruct (Hq ER) as (Hlt & Hi').
    destruct (lectic_total ms X a) as [->|[H|H]]; [done|done|by apply quiet_here|by apply Hlt|].
    pose proof H as (k & x & Hk & HxX & Hxa & Hagk). apply (quiet_above a); [done|congruence|].
    eapply above; [exact Hi'|exact Hm|exact Hk|done..|]. destruct (decide (i ≤ k)); [done|]. exfalso.
    assert (x ∈ (cl a ∖ a) ∩ pre ms i) as Hx. 
    { apply elem_of_intersection. split; [|apply elem_of_pre; exists k; split; [lia|done]]. apply elem_of_difference.
      split; [|done]. rewrite HclM. by apply HX. }
    rewrite He in Hx. by apply elem_of_empty in Hx.
  Qed.

  Theorem dg_cond_spec : ∃ R, generalized_compute_dg_basis ms aclose close (Some L0) cond = Ok R ∧ cpost R.
  Proof.
    destruct (Hclose [] ∅) as (C & HC & HCc); [by intros ? ?%elem_of_nil|clear; set_solver|]. cbn [app] in *.
    assert (C ⊆ M) as HCM. { apply HCc; [clear; set_solver|]. intros i Hi _. by apply HL0. }
    unfold generalized_compute_dg_basis. rewrite HC. cbn [mbind res_bind].
    apply (dg_loop_rule ms Hms cl Hcl aclose Haclose close L0 cond cinv cpost).
    - intros R a i [(_ & _ & ? & ?) _ _ _]. done.
    - intros R a i [HI _ _ _]. apply filtered_close. by apply (filtered_next ms cl cond _ _ _ HI).
    - intros R a i b j HI HaM. by apply (c_step1 R a i).
    - intros R a i b j HI HaM He _. by apply (c_step2 R a i).
    - intros R i. apply c_end1.
    - intros R a i HI HaM He. by apply (c_end2 R a i).
    - split.
      + split; [split; [by intros ? ?%elem_of_nil|constructor]|]. split; [by intros ? ?%elem_of_nil|done].
      + by intros ? ?%elem_of_nil.
      + apply HCc.
      + intros _. split; [|by left]. intros X HX Hm Hl. exfalso. eapply lectic_sub; [|apply Hl]. apply HCc; [clear; set_solver|done].
    - lia.
  Qed.
End cond.
