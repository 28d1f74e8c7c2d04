(** * Facts about [compare_tuples] *)
From Verif Require Import Py Spec PyFacts SpecFacts DgSpec ContextModel ContextSpec ContextOps ContextFacts ContextInit
  ContextFinal ClosureModel ClosureFacts DgModel DgFacts DgMain DgCons DgCxt DgFinal NorrisFacts AiModel AiFacts AiRound AiFinal
  LexModel LexSpec.

Lemma differ_elem P Q x : x ∈ (P ∖ Q) ∪ (Q ∖ P) ↔ differ P Q x.
Proof. unfold differ. set_solver. Qed.
Lemma differ_sym P Q x : differ P Q x ↔ differ Q P x.
Proof. unfold differ. tauto. Qed.
Lemma comparable_kind l : comparable l = true ↔ ∀ x y, x ∈ l → y ∈ l → is_str x = is_str y.
Proof.
  unfold comparable. rewrite orb_true_iff, !forallb_forall. split.
  - intros [H|H] x y Hx%elem_of_list_In Hy%elem_of_list_In.
    + by rewrite (H x Hx), (H y Hy).
    + apply H in Hx, Hy. destruct (is_str x), (is_str y); done.
  - intros H. destruct l as [|a l]; [by left|]. destruct (is_str a) eqn:E.
    + left. intros x Hx%elem_of_list_In. rewrite <-E. apply H; [done|]. left.
    + right. intros x Hx%elem_of_list_In. rewrite (H x a); [by rewrite E|done|left].
Qed.

Section compare.
  Context (p r : pre).
  Notation P := (pset p). Notation Q := (pset r).
  Lemma compare_error : ¬ same_kind P Q → compare_tuples p r = Err TypeError.
  Proof.
    intros H. unfold compare_tuples. rewrite bool_decide_true.
    2:{ intros E. apply H. intros x y Hx%differ_elem. rewrite E in Hx. set_solver. }
    unfold py_sorted. destruct (comparable _) eqn:E; [|done]. exfalso. apply H. intros x y Hx Hy.
    apply comparable_kind with (x := x) (y := y) in E; [done| |]; by apply elem_of_elements, differ_elem.
  Qed.
  Lemma compare_same : P = Q → compare_tuples p r = Ok 0%Z.
  Proof. intros E. unfold compare_tuples. rewrite E. rewrite bool_decide_false; [done|]. intros H. apply H. set_solver. Qed.
  Lemma compare_first : same_kind P Q → P ≠ Q →
    ∃ m, first_difference P Q m ∧ compare_tuples p r = Ok (if bool_decide (m ∈ P) then 1 else -1)%Z.
  Proof.
    intros Hk Hne. unfold compare_tuples. set (D := (P ∖ Q) ∪ (Q ∖ P)).
    assert (D ≠ ∅) as HD.
    { intros E. apply Hne. apply set_eq. intros x. assert (¬ differ P Q x) as H by (rewrite <-differ_elem; fold D; rewrite E; set_solver).
      unfold differ in H. destruct (decide (x ∈ P)), (decide (x ∈ Q)); tauto. }
    rewrite bool_decide_true by done.
    destruct (py_sorted (elements D)) as [l|e] eqn:E.
    2:{ exfalso. unfold py_sorted in E. destruct (comparable (elements D)) eqn:Ec; [done|].
        rewrite (proj2 (comparable_kind _)) in Ec; [done|]. intros x y Hx%elem_of_elements%differ_elem Hy%elem_of_elements%differ_elem. by apply Hk. }
    apply py_sorted_spec in E as [E1 E2]. cbn [mbind res_bind]. destruct l as [|m l].
    { exfalso. apply HD. apply set_eq. intros x. rewrite <-elem_of_elements, <-E1. set_solver. }
    exists m. split; [|done]. split.
    - apply differ_elem, elem_of_elements. fold D. rewrite <-E1. left.
    - intros x Hx%differ_elem%elem_of_elements. fold D in Hx. rewrite <-E1 in Hx. apply elem_of_cons in Hx as [->|Hx].
      + unfold name_le. by destruct (name_leb_total m m).
      + inversion E2 as [|?? _ HF]; subst. rewrite Forall_forall in HF. by apply HF.
  Qed.
End compare.

Lemma first_unique P Q m m' : first_difference P Q m → first_difference P Q m' → m = m'.
Proof. intros [H1 H2] [H3 H4]. apply name_leb_antisym; [by apply H2|by apply H4]. Qed.
Lemma first_sym P Q m : first_difference P Q m → first_difference Q P m.
Proof. intros [H1 H2]. split; [by apply differ_sym|]. intros x Hx. by apply H2, differ_sym. Qed.

(** Lectic order over a list sorted by name. *)
Lemma sorted_lookup (l : list name) a b x y : StronglySorted name_le l → l !! a = Some x → l !! b = Some y → a < b → name_le x y.
Proof.
  intros HS. revert a b. induction HS as [|z l HS IH HF]; intros a b Ha Hb Hab; [done|].
  destruct a as [|a], b as [|b]; cbn in *; try lia.
  - injection Ha as ->. rewrite Forall_forall in HF. apply HF. by eapply elem_of_list_lookup_2.
  - apply (IH a b); [done|done|lia].
Qed.
Lemma lectic_first ms P Q : StronglySorted name_le ms → P ⊆ list_to_set ms → Q ⊆ list_to_set ms →
  lectic ms P Q ↔ ∃ m, first_difference P Q m ∧ m ∈ Q.
Proof.
  intros HS HP HQ. split.
  - intros (j & m & Hj & H1 & H2 & Ha). exists m. split; [|done]. split; [by right|].
    intros x Hx. assert (x ∈ ms) as Hm.
    { apply (elem_of_list_to_set (C := gset name)). destruct Hx as [[H _]|[H _]]; [by apply HP|by apply HQ]. }
    apply elem_of_list_lookup in Hm as (k & Hk). destruct (decide (j < k)) as [|Hjk].
    { by eapply sorted_lookup. }
    destruct (decide (j = k)) as [->|]. { assert (x = m) as -> by congruence. unfold name_le. by destruct (name_leb_total m m). }
    exfalso. pose proof (Ha k x ltac:(lia) Hk). destruct Hx as [[]|[]]; tauto.
  - intros (m & [H1 H2] & Hm). assert (m ∉ P) as Hn by (destruct H1 as [[]|[]]; tauto).
    assert (m ∈ ms) as Hms by (apply (elem_of_list_to_set (C := gset name)); by apply HQ).
    destruct (list_find (λ x, x = m) ms) as [[j y]|] eqn:E.
    2:{ apply list_find_None in E. rewrite Forall_forall in E. by destruct (E m Hms). }
    apply list_find_Some in E as (Hj & -> & Hlt). exists j, m. split; [done|]. split; [done|]. split; [done|].
    intros k x Hk Hx. destruct (decide (x ∈ P)) as [h1|h1], (decide (x ∈ Q)) as [h2|h2]; try tauto; exfalso.
    + apply (Hlt k x Hx Hk). apply name_leb_antisym; [by eapply sorted_lookup|]. apply H2. by left.
    + apply (Hlt k x Hx Hk). apply name_leb_antisym; [by eapply sorted_lookup|]. apply H2. by right.
Qed.
Lemma kind_sub ms P Q : comparable ms = true → P ⊆ list_to_set ms → Q ⊆ list_to_set ms → same_kind P Q.
Proof.
  intros Hc HP HQ x y Hx Hy. rewrite comparable_kind in Hc. apply Hc.
  - apply (elem_of_list_to_set (C := gset name)). destruct Hx as [[]|[]]; [by apply HP|by apply HQ].
  - apply (elem_of_list_to_set (C := gset name)). destruct Hy as [[]|[]]; [by apply HP|by apply HQ].
Qed.

(** The comparison in terms of the lectic order. *)
Lemma compare_lectic ms p r : comparable ms = true → StronglySorted name_le ms →
  pset p ⊆ list_to_set ms → pset r ⊆ list_to_set ms →
  (compare_tuples p r = Ok (-1)%Z ∧ lectic ms (pset p) (pset r)) ∨
  (compare_tuples p r = Ok 1%Z ∧ lectic ms (pset r) (pset p)) ∨
  (compare_tuples p r = Ok 0%Z ∧ pset p = pset r).
Proof.
  intros Hc HS HP HQ. destruct (decide (pset p = pset r)) as [E|E].
  { right. right. split; [by apply compare_same|done]. }
  pose proof (kind_sub ms _ _ Hc HP HQ) as Hk. destruct (compare_first p r Hk E) as (m & Hf & ->).
  destruct (decide (m ∈ pset p)) as [Hm|Hm].
  - right. left. rewrite bool_decide_true by done. split; [done|]. rewrite (lectic_first ms) by done. exists m. split; [by apply first_sym|done].
  - left. rewrite bool_decide_false by done. split; [done|]. rewrite (lectic_first ms) by done. exists m. split; [done|].
    destruct Hf as [[[]|[]] _]; tauto.
Qed.

(** The computation sorts lists of sets of attributes only. *)
Section within.
  Context (c : context).
  Notation M := (list_to_set (atts c) : gset name).
  Definition iin (i : fimp) : Prop := i.1 ⊆ M ∧ i.2 ⊆ M.
  Definition pin (p : pre) : Prop := match p with PConcept _ B => B ⊆ M | PImp _ i => iin i end.
  Definition stin (st : ustate) : Prop :=
    Forall iin (old_stable st) ∧ Forall iin (new_stable st) ∧ Forall iin (min_mod st) ∧
    Forall iin (map snd (non_min st)) ∧ Forall pin (mod_extra st) ∧ Forall pin (new_pre st).
  Lemma pin_set p : pin p → pset p ⊆ M.
  Proof. destruct p; cbn; [done|]. by intros []. Qed.
  Lemma kclosure_in s k C : kclosure s k c = Ok C → C ⊆ M.
  Proof.
    unfold kclosure. destruct (examples c) as [es|]; [|done]. intros [= <-].
    assert (∀ es X, X ⊆ M → kclosure_loop s X es ⊆ M) as H.
    { clear. induction es as [|o es IH]; intros X HX; cbn; [done|]. case_bool_decide; [done|]. apply IH. case_bool_decide; set_solver. }
    apply H. intros x Hx%elem_of_list_to_set. apply elem_of_list_to_set. by eapply elem_of_take in Hx as (? & ?%elem_of_list_lookup_2 & _).
  Qed.
  Ltac inall :=
    repeat match goal with
    | |- _ ∧ _ => split
    | |- stin _ => unfold stin; cbn [old_stable new_stable min_mod non_min mod_extra new_pre]
    | |- context [map snd (_ ++ _)] => rewrite map_app
    | |- Forall _ (_ ++ _) => apply Forall_app
    | |- Forall _ (_ :: _) => apply Forall_cons
    | |- Forall _ (map snd [_]) => cbn [map]
    | |- Forall _ [] => apply Forall_nil_2
    | |- iin _ => unfold iin; cbn [fst snd]
    | |- pin _ => cbn [pin]
    | |- _ => assumption
    end.
  Lemma stin_one m E k p st st' : m ∈ M → pin p → stin st → update_one m E (λ s, kclosure s k c) p st = Ok st' → stin st'.
  Proof.
    intros Hm Hp (h1 & h2 & h3 & h4 & h5 & h6). unfold update_one. case_bool_decide.
    - destruct p as [A B|A i]; cbn in Hp; intros [= <-].
      + unfold modified_concept. destruct (existsb _ _); inall; set_solver.
      + destruct Hp as [Hp1 Hp2]. unfold modified_implication. destruct (existsb _ _); inall; set_solver.
    - destruct p as [A B|A i]; cbn in Hp.
      + unfold stable_concept. destruct (forallb _ _).
        2:{ intros [= <-]. unfold push_pre. inall. }
        destruct (kclosure _ _ _) as [C|] eqn:EC; [|done]. apply kclosure_in in EC. cbn [mbind res_bind]. intros [= <-].
        case_bool_decide; unfold push_pre; inall; set_solver.
      + intros [= <-]. destruct Hp as [Hp1 Hp2]. unfold push_old, push_pre. inall.
  Qed.
  Lemma stin_loop m E k ps st st' : m ∈ M → Forall pin ps → stin st → update_loop m E (λ s, kclosure s k c) ps st = Ok st' → stin st'.
  Proof.
    intros Hm HF. revert st. induction HF as [|p ps Hp _ IH]; intros st Hst; cbn; [by intros [= <-]|].
    destruct (update_one _ _ _ _ _) as [s|] eqn:E1; [|done]. cbn [mbind res_bind]. apply IH. by eapply stin_one.
  Qed.
  Lemma simple_closure_in s L C : s ⊆ M → Forall iin L → simple_closure s L = Ok C → C ⊆ M.
  Proof.
    intros Hs HL H. destruct (forallb hashable L) eqn:Eh.
    - destruct (simple_closure_spec s L) as (C' & H' & Hc).
      { intros i Hi%elem_of_list_In. revert i Hi. by apply forallb_forall. }
      rewrite H in H'. injection H' as <-.
      apply Hc; [done|]. intros i Hi _. rewrite Forall_forall in HL. by apply HL.
    - unfold simple_closure in H. by rewrite Eh in H.
  Qed.
  Lemma close_loop_in fixed rl added extra r : Forall iin fixed → Forall iin (map snd rl) → Forall iin added → Forall pin extra →
    close_loop fixed rl added extra = Ok r → Forall pin r.2.
  Proof.
    intros Hf. revert added extra. induction rl as [|[A i] rl IH]; intros added extra Hr Ha He; cbn; [by intros [= <-]|].
    inversion Hr as [|?? Hi Hrl]; subst. destruct (simple_closure _ _) as [X|] eqn:EX; [|done]. cbn [mbind res_bind].
    apply simple_closure_in in EX; [|apply Hi|].
    2:{ rewrite !Forall_app. split; [done|]. split; [|done]. by rewrite reverse_Permutation. }
    destruct Hi as [Hi1 Hi2]. case_bool_decide; [by apply IH|]. apply IH; [done| |].
    - apply Forall_app. split; [done|]. constructor; [|done]. split; cbn; set_solver.
    - apply Forall_app. split; [done|]. constructor; [|done]. split; cbn; set_solver.
  Qed.
  Lemma canonical_ext srt srt' : (∀ i l, srt i l ≡ₚ l) → (∀ i l, (∀ p, p ∈ l → pset p ⊆ M) → srt i l = srt' i l) →
    compute_canonical_basis srt c = compute_canonical_basis srt' c.
  Proof.
    intros Hp He. unfold compute_canonical_basis.
    assert (∀ is ps b, Forall pin ps → canonical_loop srt c is ps b = canonical_loop srt' c is ps b) as H.
    { induction is as [|i is IH]; intros ps b Hps; [done|]. cbn [canonical_loop].
      unfold update_preclosed. destruct (aname c i) as [m|] eqn:Em; [|done]. cbn [mbind res_bind].
      destruct (get_attribute_extent_by_index c i) as [E|]; [|done]. cbn [mbind res_bind].
      destruct (update_loop _ _ _ _ _) as [st|] eqn:Es; [|done]. cbn [mbind res_bind].
      apply stin_loop in Es; [| |done|by repeat split; constructor].
      2:{ apply elem_of_list_to_set. unfold aname in Em. destruct (atts c !! i) eqn:Ei; [|done]. injection Em as ->. by eapply elem_of_list_lookup_2. }
      destruct Es as (h1 & h2 & h3 & h4 & h5 & h6).
      destruct (close_loop _ _ _ _) as [r|] eqn:Er; [|done]. cbn [mbind res_bind fst snd].
      apply close_loop_in in Er; [|by rewrite !Forall_app| |constructor|done].
      2:{ by rewrite reverse_Permutation. }
      rewrite <-He. 2:{ intros p Hin. rewrite Forall_forall in Er. by apply pin_set, Er. }
      apply IH. apply Forall_app. split; [done|]. by rewrite Hp. }
    apply H. constructor; [|done]. cbn. set_solver.
  Qed.
End within.
