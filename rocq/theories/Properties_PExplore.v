(** * Exploration over partial contexts: the final statements (C93-C95) *)
From Verif Require Import Py Spec PyFacts SpecFacts DgSpec ContextModel ContextSpec ContextInit ContextFacts ClosureModel ClosureFacts DgModel
  ExplModel PartialModel PartialSpec PartialFacts PExploreModel PExploreSpec PExploreFacts FilterFacts
  Properties_Context Properties_Closure Properties_Dg Properties_Partial Properties_Explore.

(** ** C93 *)
(** The loop with a truthful expert, a symmetry [s] of the domain and a condition that
    lets at least one of each set and its mirror image through.  It ends after at
    most [(n + 1) * 2 ^ n] answers for [n] attributes, without exception.  Then the base
    says exactly what is true of the domain, the rows still bound intents of the domain,
    nothing that was possible in the beginning was lost and nothing was added, and,
    unless no question was asked, every row tells all that is known. *)
Theorem C93_truthful p L cl s cond expert : let M : gset name := list_to_set (p_atts p) in
  partial_ok p → comparable (p_atts p) = true → p_objs p ≠ [] → closure_op M cl → symmetry M cl s →
  (∀ X, X ⊆ M → cond X = true ∨ cond (mirror s X) = true) →
  (∀ X, X ∈ rows p → bounds M cl X) → mirrored_pairs s (rows p) →
  (∀ j, j ∈ L → j.1 ⊆ M ∧ j.2 ⊆ M ∧ j.2 ⊆ cl j.1) → mirrored_imps s L → ptruthful M cl s expert →
  ∃ d, new_pdb p L cond = Ok d ∧
    ∀ fuel, S (length (p_atts p)) * 2 ^ length (p_atts p) ≤ fuel → ∃ d', pexplore fuel 0 expert d = (d', Ok tt) ∧
      pd_open d' = [] ∧ (∀ i, i.1 ⊆ M → i.2 ⊆ M → (entails (pd_imps d') i ↔ i.2 ⊆ cl i.1)) ∧ partial_ok (pd_cxt d') ∧
      (∀ g, g ∈ p_objs (pd_cxt d') → bounds M cl (prow (pd_cxt d') g)) ∧
      (∀ g, g ∈ p_objs p → g ∈ p_objs (pd_cxt d') ∧ ∀ Y, Y ⊆ M → cl Y = Y →
         (row (px p) g ⊆ Y ∧ Y ⊆ row (pq p) g ↔ row (px (pd_cxt d')) g ⊆ Y ∧ Y ⊆ row (pq (pd_cxt d')) g)) ∧
      (pd_open d ≠ [] → ∀ g m, g ∈ p_objs (pd_cxt d') →
         (m ∈ row (px (pd_cxt d')) g ↔ ∀ Y, row (px (pd_cxt d')) g ⊆ Y → Y ⊆ row (pq (pd_cxt d')) g → cl Y = Y → m ∈ Y) ∧
         (m ∈ row (pq (pd_cxt d')) g ↔ ∃ Y, row (px (pd_cxt d')) g ⊆ Y ∧ Y ⊆ row (pq (pd_cxt d')) g ∧ cl Y = Y ∧ m ∈ Y)).
Proof.
  intros M Hp Hc Hne Hcl Hs Hcond Hb Hm HL HmL Hexp.
  exact (pexplore_final (p_atts p) (partial_NoDup p Hp) Hc cl Hcl s Hs cond Hcond expert Hexp p L (CxtOk _ _ _ Hp eq_refl Hne Hb) Hm HL HmL).
Qed.
Print Assumptions C93_truthful.
(** Without symmetry and condition. *)
Theorem C93_plain p L cl expert : let M : gset name := list_to_set (p_atts p) in
  partial_ok p → comparable (p_atts p) = true → p_objs p ≠ [] → closure_op M cl →
  (∀ g, g ∈ p_objs p → ∃ Y, row (px p) g ⊆ Y ∧ Y ⊆ row (pq p) g ∧ cl Y = Y) →
  (∀ j, j ∈ L → j.1 ⊆ M ∧ j.2 ⊆ M ∧ j.2 ⊆ cl j.1) →
  (∀ k d i, i.1 ⊆ M → i.2 ⊆ M → ∃ a, expert k d i = Ok a ∧
     match a with
     | PValid l => l = [i] ∧ i.2 ⊆ cl i.1
     | PCounter es Xs => ∃ o X, es = [o] ∧ Xs = [X] ∧ o ∉ p_objs (pd_cxt d) ∧ bounds M cl X ∧ i.1 ⊆ X.1 ∧ ¬ i.2 ⊆ X.2
     end) →
  ∃ d, new_pdb p L (λ _, true) = Ok d ∧
    ∀ fuel, S (length (p_atts p)) * 2 ^ length (p_atts p) ≤ fuel → ∃ d', pexplore fuel 0 expert d = (d', Ok tt) ∧
      pd_open d' = [] ∧ ∀ i, i.1 ⊆ M → i.2 ⊆ M → (entails (pd_imps d') i ↔ i.2 ⊆ cl i.1).
Proof. exact (pexplore_plain p L cl expert). Qed.
Print Assumptions C93_plain.
(** An expert as in the theorem exists for every domain: it decides only the attributes of
    the implication, as bi_unars.py does. *)
Definition pknows (M : gset name) (cl : gset name → gset name) (s : name → name) (k : nat) (d : pdb) (i : fimp) : res panswer :=
  let o := next_number (p_objs (pd_cxt d)) in
  let C := cl i.1 ∩ (i.1 ∪ i.2) in
  let P := (M ∖ (i.1 ∪ i.2)) ∪ C in
  Ok (if bool_decide (i.2 ⊆ cl i.1) then PValid [i; (mirror s i.1, mirror s i.2)]
      else PCounter [o; next_number (o :: p_objs (pd_cxt d))] [(C, P); (mirror s C, mirror s P)]).
Example C93_truthful_case ms cl s : closure_op (list_to_set ms) cl → symmetry (list_to_set ms) cl s →
  ptruthful (list_to_set ms) cl s (pknows (list_to_set ms) cl s).
Proof.
  intros Hcl Hs k d i H1 H2. eexists. split; [done|]. destruct (bool_decide (i.2 ⊆ cl i.1)) eqn:B; [apply bool_decide_eq_true in B|apply bool_decide_eq_false in B].
  - split; [left|]. split.
    + intros j [->| ->%elem_of_list_singleton]%elem_of_cons; [done|]. cbn [fst snd]. split; [by apply (mir_sub ms cl s Hs)|].
      split; [by apply (mir_sub ms cl s Hs)|]. by apply (mirror_valid ms).
    + intros j [->| ->%elem_of_list_singleton]%elem_of_cons.
      * exists (mirror s i.1, mirror s i.2). cbn [fst snd]. split; [right; left|]. split; [done|]. set_solver.
      * exists i. cbn [fst snd]. rewrite !(mir_mir ms cl s Hs) by done. split; [left|]. split; [done|]. set_solver.
  - pose proof (cl_sub _ _ Hcl i.1 H1) as Hc. set (C := cl i.1 ∩ (i.1 ∪ i.2)). set (P := (list_to_set ms ∖ (i.1 ∪ i.2)) ∪ C).
    assert (bounds (list_to_set ms) cl (C, P)) as HCP by by apply (partial_bounds ms cl Hcl s). assert (C ⊆ list_to_set ms) by set_solver.
    assert (P ⊆ list_to_set ms) by set_solver.
    split; [|split; [|split; [done|split; [|split]]]].
    + apply NoDup_cons. split; [|apply NoDup_singleton]. intros E%elem_of_list_singleton.
      pose proof (next_number_fresh (next_number (p_objs (pd_cxt d)) :: p_objs (pd_cxt d))) as Hf. rewrite <-E in Hf. apply Hf. left.
    + intros o [->| ->%elem_of_list_singleton]%elem_of_cons; [apply next_number_fresh|].
      intros Ho. eapply next_number_fresh. right. exact Ho.
    + intros X [->| ->%elem_of_list_singleton]%elem_of_cons; [done|]. by apply (mirror_bounds ms).
    + intros X [->| ->%elem_of_list_singleton]%elem_of_cons; cbn [fst snd]; [right; left|].
      rewrite !(mir_mir ms cl s Hs) by done. left.
    + eexists (C, P), _. split; [done|]. cbn [fst snd]. split; [pose proof (cl_ext _ _ Hcl i.1 H1); set_solver|].
      intros H'. apply B. intros m Hm. specialize (H' m Hm). unfold P, C in H'. clear -H' Hm. set_solver.
Qed.
(** Three attributes, the last of which implies the others; exchanging the first two is a
    symmetry, and the condition keeps one of {a} and {b}.  One object, of which nothing but
    the absence of c is known. *)
Definition pe_cl (X : gset name) : gset name := if bool_decide (sc ∈ X) then {[sa; sb; sc]} else X.
Definition pe_s (m : name) : name := if bool_decide (m = sa) then sb else if bool_decide (m = sb) then sa else m.
Definition pe_cond (X : gset name) : bool := bool_decide (sa ∈ X) || negb (bool_decide (sb ∈ X)).
Definition pe_p := mkp [[false; false; false]] [[true; true; false]] [o1] [sa; sb; sc].
Definition pe_d := get_ok (PDB pe_p [] pe_cond []) (new_pdb pe_p [] pe_cond).
Definition pe_end := pexplore 32 0 (pknows {[sa; sb; sc]} pe_cl pe_s) pe_d.
Lemma all_subs (Q : gset name → Prop) l : Forall Q (subs_l l) → ∀ X, X ⊆ list_to_set l → Q X.
Proof. rewrite Forall_forall. intros H X HX. apply H. by apply elem_of_subs_l. Qed.
Lemma pe_closure : closure_op (list_to_set [sa; sb; sc]) pe_cl.
Proof.
  split.
  - apply all_subs. dec.
  - assert (Forall (λ Y, Forall (λ X, X ⊆ Y → pe_cl X ⊆ pe_cl Y) (subs_l [sa; sb; sc])) (subs_l [sa; sb; sc])) as H by dec.
    intros X Y HXY HY. pose proof (all_subs _ _ H Y HY) as HX. cbn beta in HX. apply (all_subs _ _ HX X); [by etrans|done].
  - apply all_subs. dec.
  - apply all_subs. dec.
Qed.
Example C93_case : partial_ok pe_p ∧ comparable (p_atts pe_p) = true ∧ p_objs pe_p ≠ [] ∧ closure_op (list_to_set (p_atts pe_p)) pe_cl ∧
  symmetry (list_to_set (p_atts pe_p)) pe_cl pe_s ∧ (∀ X, X ⊆ list_to_set (p_atts pe_p) → pe_cond X = true ∨ pe_cond (mirror pe_s X) = true) ∧
  (∀ X, X ∈ rows pe_p → bounds (list_to_set (p_atts pe_p)) pe_cl X) ∧ mirrored_pairs pe_s (rows pe_p) ∧
  length (pd_open pe_d) = 2 ∧ pe_end.2 = Ok tt ∧ length (p_objs (pd_cxt pe_end.1)) = 7 ∧
  pd_imps pe_end.1 = [({[sc]}, {[sa; sb; sc]}); ({[sc]}, {[sa; sb; sc]})].
Proof.
  split; [apply mkp_ok; [by apply (bool_decide_unpack _)..|reflexivity|reflexivity|dec]|]. split; [done|]. split; [done|].
  split; [exact pe_closure|]. split.
  { split.
    - assert (Forall (λ m, pe_s m ∈ [sa; sb; sc]) [sa; sb; sc]) as H by dec. rewrite Forall_forall in H.
      intros m Hm%elem_of_list_to_set. by apply elem_of_list_to_set, H.
    - assert (Forall (λ m, pe_s (pe_s m) = m) [sa; sb; sc]) as H by dec. rewrite Forall_forall in H.
      intros m Hm%elem_of_list_to_set. by apply H.
    - apply (all_subs (λ X, pe_cl X = X → pe_cl (mirror pe_s X) = mirror pe_s X) [sa; sb; sc]). dec. }
  split; [apply (all_subs (λ X, pe_cond X = true ∨ pe_cond (mirror pe_s X) = true) [sa; sb; sc]); dec|]. split.
  { intros X HX%elem_of_list_singleton. subst X. split; [dec|]. exists ∅. split; [dec|]. split; dec. }
  split.
  { intros X HX%elem_of_list_singleton. subst X. assert ((mirror pe_s (prow pe_p o1).1, mirror pe_s (prow pe_p o1).2) = prow pe_p o1) as -> by dec. left. }
  split; [dec|]. split; [dec|]. split; dec.
Qed.

(** ** C94 *)
(** What happens to a partial example (certain attributes, possible attributes): it is
    refused when some implication of the base rules out every way to fill it, then
    when the name is taken, and added otherwise. *)
Theorem C94_refused o X d : X.1 ⊆ X.2 → (∃ i, i ∈ pd_imps d ∧ ∀ Y, X.1 ⊆ Y → Y ⊆ X.2 → ¬ respects Y i) →
  pdstep (PDAddExample o X) d = (d, Err IllegalContextModification).
Proof. exact (pd_add_refused o X d). Qed.
Print Assumptions C94_refused.
Theorem C94_taken o X d : X.1 ⊆ X.2 → (∀ i, i ∈ pd_imps d → ∃ Y, X.1 ⊆ Y ∧ Y ⊆ X.2 ∧ respects Y i) → o ∈ p_objs (pd_cxt d) →
  pdstep (PDAddExample o X) d = (d, Err NotUniqueObjectName).
Proof. exact (pd_add_taken o X d). Qed.
Print Assumptions C94_taken.
Theorem C94_added o X d : let M : gset name := list_to_set (p_atts (pd_cxt d)) in
  partial_ok (pd_cxt d) → comparable (p_atts (pd_cxt d)) = true → (∀ i, i ∈ pd_imps d → i.1 ⊆ M ∧ i.2 ⊆ M) →
  X.1 ⊆ X.2 → X.2 ⊆ M → (∀ i, i ∈ pd_imps d → ∃ Y, X.1 ⊆ Y ∧ Y ⊆ X.2 ∧ respects Y i) → o ∉ p_objs (pd_cxt d) →
  ∃ d', pdstep (PDAddExample o X) d = (d', Ok tt) ∧ partial_ok (pd_cxt d') ∧ p_objs (pd_cxt d') = p_objs (pd_cxt d) ++ [o] ∧
    p_atts (pd_cxt d') = p_atts (pd_cxt d) ∧ rows (pd_cxt d') = rows (pd_cxt d) ++ [X] ∧ pd_imps d' = pd_imps d ∧ pd_cond d' = pd_cond d ∧
    compute_partial_dg_basis (pd_cxt d') (Some (pd_imps d')) (pd_cond d') = Ok (pd_open d').
Proof. exact (pd_add_ok o X d). Qed.
Print Assumptions C94_added.
(** The other changes of examples and all changes of attributes fail and change nothing. *)
Theorem C94_unavailable op d : match op with
    | PDDeleteExample _ | PDEditExample _ _ _ | PDDeleteAttribute _ | PDAddAttribute _ _ | PDEditAttribute _ _ _ => True
    | _ => False
    end → ∃ e, pdstep op d = (d, Err e) ∧ (e = AttributeError ∨ e = NotUniqueAttributeName).
Proof.
  destruct op; intros []; unfold pdstep, pdecorated; eexists; (split; [reflexivity|]); try (by left).
  - destruct (bool_decide _); auto.
  - destruct (bool_decide _ && _); auto.
Qed.
Print Assumptions C94_unavailable.
(** The check looks at one implication at a time: an example that no set respecting the
    base can fill is accepted, and the completion then raises with the example added. *)
Definition pz_d := get_ok (PDB pe_p [] always []) (new_pdb pe_p [({[sa]}, {[sb]}); ({[sb]}, {[sc]})] always).
Definition pz_X : gset name * gset name := ({[sa]}, {[sa; sb]}).
Definition pz_i : fimp := (∅, {[sc]}).
Theorem C94_fillable_refuted : ∃ d X o i, partial_ok (pd_cxt d) ∧ comparable (p_atts (pd_cxt d)) = true ∧ X.1 ⊆ X.2 ∧
  (¬ ∃ Y, fills (pd_imps d) X.1 X.2 Y) ∧ (pdstep (PDAddExample o X) d).2 = Ok tt ∧
  (pae_reject i [o] [X] d).2 = Err ValueError ∧ o ∈ p_objs (pd_cxt (pae_reject i [o] [X] d).1).
Proof.
  exists pz_d, pz_X, o2, pz_i. split; [apply mkp_ok; [by apply (bool_decide_unpack _)..|reflexivity|reflexivity|dec]|]. split; [dec|]. split; [dec|].
  split.
  { intros (Y & H1 & H2 & H3). change ({[sa]} ⊆ Y) in H1. assert (pd_imps pz_d = [({[sa]}, {[sb]}); ({[sb]}, {[sc]})]) as E by dec. rewrite E in H3.
    assert ({[sb]} ⊆ Y) as Hb by (refine (H3 ({[sa]}, {[sb]}) _ H1); left).
    assert ({[sc]} ⊆ Y) as Hc by (refine (H3 ({[sb]}, {[sc]}) _ Hb); right; left).
    assert (sc ∈ pz_X.2) as H by (apply H2, Hc; by apply elem_of_singleton). revert H. apply (bool_decide_unpack _). by vm_compute. }
  split; [dec|]. split; dec.
Qed.
Print Assumptions C94_fillable_refuted.
Example C94_case : pdstep (PDAddExample o2 ({[sa]}, {[sa]})) pz_d = (pz_d, Err IllegalContextModification) ∧
  (pdstep (PDAddExample o2 ({[sc]}, {[sb; sc]})) pz_d).2 = Ok tt ∧ pdstep (PDAddExample o1 ({[sc]}, {[sb; sc]})) pz_d = (pz_d, Err NotUniqueObjectName).
Proof.
  split; [|split; [dec|]].
  - apply C94_refused; [done|]. exists ({[sa]}, {[sb]}). split; [dec|]. cbn [fst snd]. intros Y H1 H2 H3. specialize (H3 H1).
    assert (sb ∈ ({[sa]} : gset name)) as H by (apply H2, H3; by apply elem_of_singleton). revert H. apply (bool_decide_unpack _). by vm_compute.
  - apply C94_taken; [dec| |dec]. assert (pd_imps pz_d = [({[sa]}, {[sb]}); ({[sb]}, {[sc]})]) as -> by dec.
    intros i Hi. exists {[sb; sc]}. split; [dec|]. split; [done|].
    assert (Forall (λ i, i.1 ⊆ ({[sb; sc]} : gset name) → i.2 ⊆ ({[sb; sc]} : gset name)) [({[sa]} : gset name, {[sb]} : gset name); ({[sb]}, {[sc]})]) as H by dec.
    rewrite Forall_forall in H. exact (H i Hi).
Qed.

(** ** C95 *)
(** The open implications are computed before the rows are completed: after an answer the
    next question may be one that the context already refutes. *)
Theorem C95_before i d d' : pae_confirm [i] d = (d', Ok tt) →
  compute_partial_dg_basis (pd_cxt d) (Some (pd_imps d ++ [i])) (pd_cond d) = Ok (pd_open d') ∧ pd_imps d' = pd_imps d ++ [i].
Proof.
  unfold pae_confirm. cbn [map pae_steps]. unfold pdstep, pdecorated, pd_refresh. cbn [pd_cxt pd_imps pd_cond].
  destruct (compute_partial_dg_basis _ _ _) as [R|e]; cbn [then_complete]; [|congruence].
  unfold pd_complete. cbn [pd_cxt pd_imps pd_cond pd_open]. by intros [= <- _].
Qed.
Print Assumptions C95_before.
Definition ps_p := mkp [[true; false; false]] [[true; false; true]] [o1] [sa; sb; sc].
Definition ps_d := get_ok (PDB ps_p [] always []) (new_pdb ps_p [] always).
Lemma hd_tl {A} (x : A) l : length l ≠ 0 → l = hd x l :: tl l.
Proof. by destruct l. Qed.
Definition ps_r := pae_confirm [({[sc]}, {[sb]})] ps_d.
Theorem C95_settled_refuted : ∃ p d d' i R, partial_ok p ∧ comparable (p_atts p) = true ∧ new_pdb p [] always = Ok d ∧
  pae_confirm [({[sc]}, {[sb]})] d = (d', Ok tt) ∧ pd_open d' = i :: R ∧ ¬ unrefuted (pd_cxt d') i ∧
  compute_partial_dg_basis (pd_cxt d') (Some (pd_imps d')) always ≠ Ok (pd_open d').
Proof.
  exists ps_p, ps_d, ps_r.1, (hd (∅, ∅) (pd_open ps_r.1)), (tl (pd_open ps_r.1)).
  split; [apply mkp_ok; [by apply (bool_decide_unpack _)..|reflexivity|reflexivity|dec]|]. split; [dec|].
  split; [apply get_ok_eq; vm_compute; reflexivity|].
  split; [change (ps_r = (ps_r.1, Ok tt)); rewrite (surjective_pairing ps_r) at 1; f_equal; dec|]. split.
  - apply hd_tl. dec.
  - split; [|dec]. intros H. specialize (H o1). revert H. dec.
Qed.
Print Assumptions C95_settled_refuted.
