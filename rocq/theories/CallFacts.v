(** * The calls of the callbacks *)
From Verif Require Import Py Spec PyFacts SpecFacts DgSpec ContextModel ContextSpec ContextOps ContextFacts ContextReduce
  ClosureModel ClosureFacts DgModel DgFacts DgMain DgCons DgCxt DgFinal CallModel CallSpec.

Section core.
  Context (ms : list name) (Hms : NoDup ms).
  Local Notation M := (list_to_set ms : gset name).
  Local Notation n := (length ms).
  Context (cl : gset name → gset name) (Hcl : growing_op M cl).
  Context {St : Type} (aclose : St → gset name → St * res (gset name)) (Haclose : ∀ st X, X ⊆ M → (aclose st X).2 = Ok (cl X)).
  Context (cond : St → gset name → St * bool) (close : closer) (L0 : list fimp).
  Definition kept (R : list fimp) : Prop :=
    (∀ i, i ∈ R → i.1 ⊆ M ∧ i.2 = cl i.1 ∧ i.1 ≠ cl i.1) ∧ StronglySorted (lectic ms) (map fst R).
  Context (Hclose : ∀ R, kept R → close_ok ms close L0 R).
  Context (ap : gset name → res (gset name)) (Hap : ∀ X, X ⊆ M → ap X = Ok (cl X)).

  Lemma kept_nil : kept [].
  Proof. split; [by intros ? ?%elem_of_nil|constructor]. Qed.
  Lemma kept_snoc R a : kept R → a ⊆ M → a ≠ cl a → (∀ P, P ∈ map fst R → lectic ms P a) → kept (R ++ [(a, cl a)]).
  Proof.
    intros [H1 H2] Ha Hne Hlt. split.
    - intros j [Hj| ->%elem_of_list_singleton]%elem_of_app; [by apply H1|]. done.
    - rewrite map_app. by apply StronglySorted_snoc.
  Qed.

  Lemma cdg_loop_calls fuel st R a i : a ⊆ M → i ≤ n → kept R → (∀ P, P ∈ map fst R → lectic ms P a) → 2 ^ n ≤ fuel + rank ms a →
    ∃ qs cond', cdg_loop ms aclose close (Some L0) cond fuel st R a i =
        ((put cl aclose cond st qs).1, Ok (R ++ (put cl aclose cond st qs).2)) ∧
      StronglySorted (lectic ms) qs ∧ (∀ X, X ∈ qs → X ⊆ M ∧ X ≠ M ∧ (X = a ∨ lectic ms a X)) ∧
      ∀ cond2, (∀ X, X = a ∨ lectic ms a X → cond2 X = cond' X) →
        dg_loop ms ap close (Some L0) cond2 fuel R a i = Ok (R ++ (put cl aclose cond st qs).2).
  Proof.
    revert st R a i. induction fuel as [|fuel IH]; intros st R a i Ha Hi HR Hlt Hf.
    { pose proof (rank_lt ms a). lia. }
    cbn [cdg_loop dg_loop].
    destruct (Nat.ltb_spec (size a) n) as [Hs|Hs].
    2:{ exists [], (λ _, true). cbn. rewrite app_nil_r. split; [done|]. split; [constructor|]. split; [by intros ? ?%elem_of_nil|done]. }
    assert (a ≠ M) as Hne. { intros ->. rewrite size_M in Hs by done. lia. }
    pose proof (Haclose st a Ha) as Hac. destruct (aclose st a) as [st1 r1] eqn:Est1. cbn in Hac. subst r1.
    rewrite Hap by done. cbn [mbind res_bind].
    set (k := if bool_decide (a ≠ cl a) then cond st1 a else (st1, false)).
    destruct k as [st2 keep] eqn:Ek. subst k.
    set (R' := if keep then R ++ [(a, cl a)] else R).
    assert (kept R') as HR'.
    { unfold R'. destruct keep; [|done]. apply kept_snoc; try done. case_bool_decide; [done|]. by injection Ek. }
    assert (∀ b, lectic ms a b → ∀ P, P ∈ map fst R' → lectic ms P b) as Hlt'.
    { intros b Hab P HP. unfold R' in HP. destruct keep.
      - rewrite map_app in HP. apply elem_of_app in HP as [HP|HP%elem_of_list_singleton]; [|by subst P].
        eapply lectic_trans; [by apply Hlt|done].
      - eapply lectic_trans; [by apply Hlt|done]. }
    assert (∀ qs, put cl aclose cond st (a :: qs) =
      ((put cl aclose cond st2 qs).1, if keep then (a, cl a) :: (put cl aclose cond st2 qs).2 else (put cl aclose cond st2 qs).2)) as Hput.
    { intros qs. cbn [put]. rewrite Est1. cbn [fst]. case_bool_decide as Hb.
      - rewrite decide_False by done. rewrite Ek. by destruct (put cl aclose cond st2 qs).
      - rewrite decide_True by done. injection Ek as <- <-. by destruct (put cl aclose cond st1 qs). }
    assert (∀ qs, R ++ (put cl aclose cond st (a :: qs)).2 = R' ++ (put cl aclose cond st2 qs).2) as HRR.
    { intros qs. rewrite Hput. unfold R'. cbn [snd]. destruct keep; [|done]. by rewrite <-app_assoc. }
    assert (∀ cond2 : gset name → bool, (a ≠ cl a → cond2 a = keep) →
      (if bool_decide (a ≠ cl a) && cond2 a then R ++ [(a, cl a)] else R) = R') as Hpure.
    { intros cond2 Hc. unfold R'. case_bool_decide as Hb; cbn [andb].
      - by rewrite Hc.
      - by injection Ek as _ <-. }
    (* how the calls go on from a larger set *)
    assert (∀ b j, b ⊆ M → j ≤ n → lectic ms a b → ∃ qs cond', cdg_loop ms aclose close (Some L0) cond fuel st2 R' b j =
        ((put cl aclose cond st (a :: qs)).1, Ok (R ++ (put cl aclose cond st (a :: qs)).2)) ∧
      StronglySorted (lectic ms) (a :: qs) ∧ (∀ X, X ∈ a :: qs → X ⊆ M ∧ X ≠ M ∧ (X = a ∨ lectic ms a X)) ∧
      ∀ cond2, (∀ X, X = a ∨ lectic ms a X → cond2 X = cond' X) →
        (a ≠ cl a → cond2 a = keep) ∧ dg_loop ms ap close (Some L0) cond2 fuel R' b j = Ok (R ++ (put cl aclose cond st (a :: qs)).2)) as Hnext.
    { intros b j Hb Hj Hab. destruct (IH st2 R' b j Hb Hj HR' (Hlt' b Hab)) as (qs & cond' & E & HS & Hq & Hp).
      { apply lectic_rank in Hab; [|done..]. lia. }
      exists qs, (λ X, if decide (X = a) then keep else cond' X). rewrite HRR, Hput. split; [done|]. split; [|split].
      - constructor; [done|]. apply Forall_forall. intros X HX. destruct (Hq X HX) as (_ & _ & [->|H]); [done|]. by eapply lectic_trans.
      - intros X [->|HX]%elem_of_cons; [by split_and!; [| |left]|]. destruct (Hq X HX) as (h1 & h2 & h3). split_and!; [done|done|]. right.
        destruct h3 as [->|h3]; [done|]. by eapply lectic_trans.
      - intros cond2 Hc2. split; [intros _; rewrite Hc2 by (by left); by rewrite decide_True|]. apply Hp. intros X HX.
        assert (lectic ms a X) as HaX by (destruct HX as [->|HX]; [done|by eapply lectic_trans]).
        rewrite Hc2 by (by right). rewrite decide_False; [done|]. intros ->. by eapply lectic_irrefl. }
    pose proof (Hclose _ HR') as HRc. pose proof (gr_sub _ _ Hcl a Ha) as HclM.
    destruct (bool_decide ((cl a ∖ a) ∩ pre ms i ≠ ∅)) eqn:Hb; [apply bool_decide_eq_true in Hb|apply bool_decide_eq_false in Hb].
    - destruct (dg_inner_spec ms Hms close L0 R' (a ∩ pre ms i) (a ∖ suf ms i) i) as (b & j & Ein & Hin).
      + done.
      + done.
      + clear -Ha. set_solver.
      + rewrite suf_pre by done. clear. set_solver.
      + apply set_choose_L in Hb as [y Hy]. apply elem_of_intersection in Hy as [Hy1 Hy2].
        apply elem_of_pre in Hy2 as (k & Hk & Hx). exists k, y. split; [done|]. split; [done|].
        clear -Hy1. set_solver.
      + assert (a ∩ pre ms i ⊆ M) as Hai by (clear -Ha; set_solver).
        destruct (inner_progress ms close L0 _ _ _ _ _ HRc Hi Hai Hin) as (Hj & Hbm & Hag & m & Hm & Hmb & Hma).
        assert (j < i) as Hji by (destruct Hin as (? & ? & _); done).
        assert (lectic ms a b) as Hab.
        { exists j, m. split; [done|]. split; [done|]. split.
          * intros Hm'. apply Hma, elem_of_intersection. split; [done|]. by apply (pre_index ms Hms j m).
          * intros k x Hk Hx. rewrite <-(Hag k x Hk Hx), elem_of_intersection, (pre_index ms Hms k x i Hx).
            split; [intros; split; [done|lia]|tauto]. }
        destruct (Hnext b j) as (qs & cond' & E & HS & Hq & Hp); [done|lia|done|].
        exists (a :: qs), cond'. rewrite Ein. cbn [default]. split; [exact E|]. split; [done|]. split; [done|]. intros cond2 Hc2.
        destruct (Hp cond2 Hc2) as [Hk E2]. rewrite (Hpure cond2 Hk), Ein. exact E2.
    - destruct (Nat.eqb_spec (size (cl a)) n) as [Hn|Hn].
      { exists [a], (λ _, keep). rewrite HRR, Hput. cbn [put fst snd]. rewrite app_nil_r. split; [done|]. split; [repeat constructor|]. split.
        - intros X ->%elem_of_list_singleton. split_and!; [done|done|by left].
        - intros cond2 Hc2. rewrite Hpure; [done|]. intros _. apply Hc2. by left. }
      assert (cl a ≠ M) as Hne'. { intros E. rewrite E, size_M in Hn by done. lia. }
      destruct (dg_inner_spec ms Hms close L0 R' (cl a) (cl a) n) as (b & j & Ein & Hin).
      + done.
      + done.
      + done.
      + rewrite pre_all. clear -HclM. set_solver.
      + destruct (decide (Exists (λ x, x ∉ cl a) ms)) as [(x & Hx & Hx')%Exists_exists|Hno].
        * apply elem_of_list_lookup in Hx as [k Hk]. exists k, x. split; [by eapply lookup_lt_Some|done].
        * exfalso. apply Hne', set_eq. intros x. split; [apply HclM|]. intros Hx%elem_of_list_to_set.
          destruct (decide (x ∈ cl a)); [done|]. destruct Hno. apply Exists_exists. eauto.
      + destruct (inner_progress ms close L0 _ _ _ _ _ HRc (le_n _) HclM Hin) as (Hj & Hbm & Hag & m & Hm & Hmb & Hma).
        assert (lectic ms (cl a) b) as Hlt2 by (by exists j, m).
        assert (lectic ms a b) as Hab.
        { destruct (lectic_total ms a (cl a)) as [Ea|[H|H]]; [done|done|by rewrite <-Ea in Hlt2|by eapply lectic_trans|].
          exfalso. eapply lectic_sub; [|done]. by apply (gr_ext _ _ Hcl). }
        destruct (Hnext b j) as (qs & cond' & E & HS & Hq & Hp); [done|lia|done|].
        exists (a :: qs), cond'. rewrite Ein. cbn [default]. split; [exact E|]. split; [done|]. split; [done|]. intros cond2 Hc2.
        destruct (Hp cond2 Hc2) as [Hk E2]. rewrite (Hpure cond2 Hk), Ein. exact E2.
  Qed.
End core.

(** ** Answers that do not depend on the state *)
Section stateless.
  Context {St : Type} (ms : list name) (aclose : St → gset name → St * res (gset name)) (close : closer)
          (L0 : option (list fimp)) (cond : St → gset name → St * bool).
  Context (a0 : gset name → res (gset name)) (c0 : gset name → bool).
  Context (Ha : ∀ st X, (aclose st X).2 = a0 X) (Hc : ∀ st X, (cond st X).2 = c0 X).
  Lemma cdg_loop_stateless fuel st R a i : (cdg_loop ms aclose close L0 cond fuel st R a i).2 = dg_loop ms a0 close L0 c0 fuel R a i.
  Proof.
    revert st R a i. induction fuel as [|fuel IH]; intros st R a i; cbn [cdg_loop dg_loop]; destruct (size a <? length ms); try done.
    pose proof (Ha st a) as E. destruct (aclose st a) as [st1 [ac|e]]; cbn in E; rewrite <-E; [|done]. cbn [mbind res_bind].
    destruct (if bool_decide (a ≠ ac) then cond st1 a else (st1, false)) as [st2 keep] eqn:Ek.
    assert (bool_decide (a ≠ ac) && c0 a = keep) as ->.
    { destruct (bool_decide (a ≠ ac)); [|by injection Ek]. cbn. rewrite <-(Hc st1 a). by rewrite Ek. }
    destruct (bool_decide ((ac ∖ a) ∩ pre ms i ≠ ∅)).
    - destruct (dg_inner _ _ _ _ _ _) as [[a2 oj]|]; [|done]. apply IH.
    - destruct (size ac =? length ms); [done|]. destruct (dg_inner _ _ _ _ _ _) as [[a2 oj]|]; [|done]. apply IH.
  Qed.
  Lemma calling_stateless st : (calling_dg_basis ms aclose close L0 cond st).2 = generalized_compute_dg_basis ms a0 close L0 c0.
  Proof. unfold calling_dg_basis, generalized_compute_dg_basis. destruct (close ∅ L0); [|done]. apply cdg_loop_stateless. Qed.
End stateless.

(** ** The closures of implications *)
Section closers.
  Context (ms : list name) (Hms : NoDup ms) (Hcmp : comparable ms = true).
  Local Notation M := (list_to_set ms : gset name).
  Context (cl : gset name → gset name) (Hcl : growing_op M cl) (L0 : list fimp) (HL0 : ∀ i, i ∈ L0 → i.1 ⊆ M ∧ i.2 ⊆ M).
  Context (ords : gset name → list fimp → nat → gset name → list name) (Hords : good_ords ords).
  Lemma hashable_within (i : fimp) : i.1 ⊆ M → i.2 ⊆ M → hashable i = true.
  Proof.
    intros H1 H2. apply hashable_final. pose proof (proj1 (comparable_spec ms) Hcmp) as Hc.
    assert (∀ x, x ∈ M → x ∈ ms) as H by (intros x; by rewrite elem_of_list_to_set).
    destruct Hc as [Hc|Hc]; [split; left; eauto|split; right; eauto].
  Qed.
  Lemma closers_ok R : (∀ i, i ∈ R → i.1 ⊆ M ∧ i.2 ⊆ M) → close_ok ms simple_close L0 R ∧ close_ok ms (lin_close ords) L0 R.
  Proof.
    intros HR. assert (∀ i, i ∈ R ++ L0 → i.1 ⊆ M ∧ i.2 ⊆ M) as Hall by (intros i [Hi|Hi]%elem_of_app; auto).
    assert (∀ i, i ∈ R ++ L0 → hashable i = true) as Hh by (intros i Hi; destruct (Hall i Hi); by apply hashable_within).
    assert (∀ X, X ⊆ M → X ∪ ⋃ map snd (R ++ L0) ⊆ M) as HU.
    { intros X HX x [Hx|(Y & HY & Hx)%elem_of_union_list]%elem_of_union; [by apply HX|].
      apply elem_of_list_fmap in HY as (i & -> & Hi). by apply (Hall i Hi). }
    split; intros X HX.
    - destruct (simple_closure_spec X (R ++ L0)) as (C & HC & H1 & H2 & H3); [exact Hh|]. exists C. split; [done|].
      split; [done|]. trans (X ∪ ⋃ map snd (R ++ L0)); [|by apply HU].
      apply H3; [clear; set_solver|]. intros i Hi _ x Hx. apply elem_of_union. right. apply elem_of_union_list.
      exists i.2. split; [by apply elem_of_list_fmap_1|done].
    - destruct (lin_closure_total (ords X (R ++ L0)) X (R ++ L0)) as (C & HC & H1 & H2); [intros k Y; apply Hords|exact Hh|].
      exists C. split; [done|]. split; [done|]. trans (X ∪ ⋃ map snd (R ++ L0)); [done|by apply HU].
  Qed.
  Lemma closers_kept close R : close = simple_close ∨ close = lin_close ords → kept ms cl R → close_ok ms close L0 R.
  Proof.
    intros Hclo [HR _]. assert (∀ i, i ∈ R → i.1 ⊆ M ∧ i.2 ⊆ M) as Ho.
    { intros i Hi. destruct (HR i Hi) as (H1 & -> & _). split; [done|]. by apply (gr_sub _ _ Hcl). }
    destruct (closers_ok R Ho). by destruct Hclo as [-> | ->].
  Qed.

  Context {St : Type} (aclose : St → gset name → St * res (gset name)) (Haclose : ∀ st X, X ⊆ M → (aclose st X).2 = Ok (cl X)).
  Context (cond : St → gset name → St * bool) (close : closer) (Hclo : close = simple_close ∨ close = lin_close ords).
  Context (ap : gset name → res (gset name)) (Hap : ∀ X, X ⊆ M → ap X = Ok (cl X)).
  Lemma calls st : ∃ qs, calling_dg_basis ms aclose close (Some L0) cond st = ((put cl aclose cond st qs).1, Ok (put cl aclose cond st qs).2) ∧
      StronglySorted (lectic ms) qs ∧ (∀ X, X ∈ qs → X ⊆ M ∧ X ≠ M) ∧
      ∃ cond', generalized_compute_dg_basis ms ap close (Some L0) cond' = Ok (put cl aclose cond st qs).2.
  Proof.
    unfold calling_dg_basis, generalized_compute_dg_basis.
    destruct (closers_kept close [] Hclo (kept_nil ms cl) ∅) as (C & HC & _ & HCM); [clear; set_solver|]. cbn [app] in HC. rewrite HC. cbn [mbind res_bind].
    destruct (cdg_loop_calls ms Hms cl Hcl aclose Haclose cond close L0 (λ R, closers_kept close R Hclo) ap Hap
      (2 ^ length ms) st [] C (length ms)) as (qs & cond' & E & HS & Hq & Hp).
    { done. } { done. } { apply kept_nil. } { by intros ? ?%elem_of_nil. } { lia. }
    exists qs. split; [exact E|]. split; [done|]. split; [intros X HX; by destruct (Hq X HX) as (? & ? & _)|]. exists cond'. by apply Hp.
  Qed.
End closers.

(** ** A [cond] that always agrees *)
Lemma put_agree {St} cl (aclose : St → gset name → St * res (gset name)) cond st qs : (∀ st X, (cond st X).2 = true) →
  (put cl aclose cond st qs).2 = map (λ X, (X, cl X)) (List.filter (λ X, bool_decide (X ≠ cl X)) qs).
Proof.
  intros Hc. revert st. induction qs as [|X qs IH]; intros st; [done|]. cbn [put List.filter].
  destruct (decide (X = cl X)) as [E|E].
  - rewrite bool_decide_false by (by intros []). apply IH.
  - rewrite bool_decide_true by done. pose proof (Hc (aclose st X).1 X) as Hk. destruct (cond (aclose st X).1 X) as [st2 keep]. cbn in Hk. subst keep.
    specialize (IH st2). destruct (put cl aclose cond st2 qs). cbn in *. by rewrite IH.
Qed.
Lemma lectic_NoDup ms l : StronglySorted (lectic ms) l → NoDup l.
Proof.
  intros H. induction H as [|P l HS IH HP]; [constructor|]. constructor; [|done].
  intros H. rewrite Forall_forall in HP. by eapply lectic_irrefl, HP.
Qed.
Lemma split_count {A} (p : A → bool) l : length l = length (List.filter p l) + length (List.filter (λ x, negb (p x)) l).
Proof. induction l as [|x l IH]; [done|]. cbn. destruct (p x); cbn; lia. Qed.
