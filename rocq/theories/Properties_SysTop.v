(** * Top and bottom of systems of concepts: the final statements (C145) *)
From Coq Require Import ZArith QArith Qcanon Floats.SpecFloat.
From Verif Require Import FloatSpec.
From Verif Require Import Py PyFacts Spec SpecFacts ContextModel ContextSpec ContextOps ContextFacts ContextInit ContextFinal
  LatticeSpec LatticeModel NorrisFacts LatticeFacts FilterModel FilterFacts FilterFacts2 FloatModel FloatFacts FloatFacts2
  Properties_Context Properties_Lattice Properties_Filter Properties_Float Properties_Iceberg.
Local Open Scope nat_scope.

Lemma head_filter {A} (P : A → bool) l x : head (List.filter P l) = Some x ↔
  ∃ i, l !! i = Some x ∧ P x = true ∧ ∀ j y, j < i → l !! j = Some y → P y = false.
Proof.
  induction l as [|y l IH]; cbn [List.filter].
  - split; [done|]. intros (i & H & _). done.
  - destruct (P y) eqn:E.
    + cbn [head]. split.
      * intros [= ->]. exists 0. split; [done|]. split; [done|]. lia.
      * intros ([|i] & H1 & H2 & H3); [by injection H1 as ->|]. rewrite (H3 0 y) in E; [done|lia|done].
    + rewrite IH. split.
      * intros (i & H1 & H2 & H3). exists (S i). split; [done|]. split; [done|]. intros [|j] z Hj Hz; [by injection Hz as <-|].
        apply (H3 j); [lia|done].
      * intros ([|i] & H1 & H2 & H3); [injection H1 as ->; congruence|]. exists i. split; [done|]. split; [done|].
        intros j z Hj Hz. apply (H3 (S j)); [lia|done].
Qed.
Lemma no_filter (cs : list fconcept) x :
  match cfilter cs x with [] => true | _ => false end = true ↔ ∀ y, y ∈ cs → ¬ y.2 ⊂ x.2.
Proof.
  assert (∀ y, y ∈ cfilter cs x ↔ y ∈ cs ∧ y.2 ⊂ x.2) as H.
  { intros y. unfold cfilter. rewrite !elem_of_list_In, filter_In. by rewrite bool_decide_eq_true. }
  destruct (cfilter cs x) as [|z zs].
  - split; [|done]. intros _ y Hy Hs. assert (y ∈ ([] : list fconcept)) as H' by by apply H. by apply elem_of_nil in H'.
  - split; [done|]. intros H'. destruct (proj1 (H z)) as [H1 H2]; [by left|]. by destruct (H' z H1).
Qed.
Lemma no_ideal (cs : list fconcept) x :
  match cideal cs x with [] => true | _ => false end = true ↔ ∀ y, y ∈ cs → ¬ x.2 ⊂ y.2.
Proof.
  assert (∀ y, y ∈ cideal cs x ↔ y ∈ cs ∧ x.2 ⊂ y.2) as H.
  { intros y. unfold cideal. rewrite !elem_of_list_In, filter_In. by rewrite bool_decide_eq_true. }
  destruct (cideal cs x) as [|z zs].
  - split; [|done]. intros _ y Hy Hs. assert (y ∈ ([] : list fconcept)) as H' by by apply H. by apply elem_of_nil in H'.
  - split; [done|]. intros H'. destruct (proj1 (H z)) as [H1 H2]; [by left|]. by destruct (H' z H1).
Qed.
Lemma list_extremal (R : fconcept → fconcept → Prop) (f : fconcept → nat) (cs : list fconcept) :
  (∀ x y, x ∈ cs → y ∈ cs → R y x → f y < f x) → cs ≠ [] → ∃ x, x ∈ cs ∧ ∀ y, y ∈ cs → ¬ R y x.
Proof.
  intros Hf Hne. assert (∃ x, x ∈ cs ∧ ∀ y, y ∈ cs → f x ≤ f y) as (x & Hx & Hm).
  { clear Hf. induction cs as [|a cs IH]; [done|]. destruct cs as [|b cs].
    - exists a. split; [by left|]. intros y ->%elem_of_list_singleton. done.
    - destruct IH as (x & Hx & Hm); [done|]. destruct (decide (f a ≤ f x)) as [H|H].
      + exists a. split; [by left|]. intros y [->|Hy]%elem_of_cons; [done|]. specialize (Hm y Hy). lia.
      + exists x. split; [by right|]. intros y [->|Hy]%elem_of_cons; [lia|]. by apply Hm. }
  exists x. split; [done|]. intros y Hy HR. specialize (Hf x y Hx Hy HR). specialize (Hm y Hy). lia.
Qed.

(** ** C145 *)
(** The top concept of a system is the first in the list with no concept of smaller intent beside it, the bottom concept the
    first with none of larger intent; both exist unless the system is empty. *)
Theorem C145_first (cs : list fconcept) :
  (∀ x, top_of cs = Ok x ↔ ∃ i, cs !! i = Some x ∧ (∀ y, y ∈ cs → ¬ y.2 ⊂ x.2) ∧
     ∀ j z, j < i → cs !! j = Some z → ∃ y, y ∈ cs ∧ y.2 ⊂ z.2) ∧
  (∀ x, bottom_of cs = Ok x ↔ ∃ i, cs !! i = Some x ∧ (∀ y, y ∈ cs → ¬ x.2 ⊂ y.2) ∧
     ∀ j z, j < i → cs !! j = Some z → ∃ y, y ∈ cs ∧ z.2 ⊂ y.2) ∧
  (top_of cs = Err IndexError ↔ cs = []) ∧ (bottom_of cs = Err IndexError ↔ cs = []) ∧
  (cs ≠ [] → is_ok (top_of cs) = true ∧ is_ok (bottom_of cs) = true).
Proof.
  assert (∀ x, top_of cs = Ok x ↔ ∃ i, cs !! i = Some x ∧ (∀ y, y ∈ cs → ¬ y.2 ⊂ x.2) ∧
     ∀ j z, j < i → cs !! j = Some z → ∃ y, y ∈ cs ∧ y.2 ⊂ z.2) as Ht.
  { intros x. unfold top_of. trans (head (List.filter (fun x => match cfilter cs x with [] => true | _ => false end) cs) = Some x).
    { destruct (head _); cbn; split; congruence. }
    rewrite head_filter. apply exist_proper. intros i. rewrite no_filter.
    apply and_iff_compat_l, and_iff_compat_l. apply forall_proper. intros j. apply forall_proper. intros z.
    apply forall_proper. intros _. apply forall_proper. intros _.
    rewrite <- not_true_iff_false, no_filter. split.
    - intros H. destruct (decide (Exists (λ y : fconcept, y.2 ⊂ z.2) cs)) as [HE|HE]; [by apply Exists_exists in HE|].
      exfalso. apply H. intros y Hy Hs. apply HE, Exists_exists. eauto.
    - intros (y & Hy & Hs) H. exact (H y Hy Hs). }
  assert (∀ x, bottom_of cs = Ok x ↔ ∃ i, cs !! i = Some x ∧ (∀ y, y ∈ cs → ¬ x.2 ⊂ y.2) ∧
     ∀ j z, j < i → cs !! j = Some z → ∃ y, y ∈ cs ∧ z.2 ⊂ y.2) as Hb.
  { intros x. unfold bottom_of. trans (head (List.filter (fun x => match cideal cs x with [] => true | _ => false end) cs) = Some x).
    { destruct (head _); cbn; split; congruence. }
    rewrite head_filter. apply exist_proper. intros i. rewrite no_ideal.
    apply and_iff_compat_l, and_iff_compat_l. apply forall_proper. intros j. apply forall_proper. intros z.
    apply forall_proper. intros _. apply forall_proper. intros _.
    rewrite <- not_true_iff_false, no_ideal. split.
    - intros H. destruct (decide (Exists (λ y : fconcept, z.2 ⊂ y.2) cs)) as [HE|HE]; [by apply Exists_exists in HE|].
      exfalso. apply H. intros y Hy Hs. apply HE, Exists_exists. eauto.
    - intros (y & Hy & Hs) H. exact (H y Hy Hs). }
  assert (∀ P : fconcept → bool, (∃ x, x ∈ cs ∧ P x = true) → is_ok (get_or IndexError (head (List.filter P cs))) = true) as Hh.
  { intros P (x & Hx & HP). assert (In x (List.filter P cs)) as H by (apply filter_In; split; [by apply elem_of_list_In|done]).
    destruct (List.filter P cs); [done|]. done. }
  assert (cs ≠ [] → is_ok (top_of cs) = true) as Kt.
  { intros Hne. apply Hh. destruct (list_extremal (λ y x : fconcept, y.2 ⊂ x.2) (λ x, size x.2) cs) as (x & Hx & H); [|done|].
    - intros x y _ _ Hs. by apply subset_size.
    - exists x. split; [done|]. by apply no_filter. }
  assert (cs ≠ [] → is_ok (bottom_of cs) = true) as Kb.
  { intros Hne. apply Hh.
    destruct (list_extremal (λ y x : fconcept, x.2 ⊂ y.2) (λ x, foldr (λ y n, size y.2 + n) 0 cs - size x.2) cs) as (x & Hx & H); [|done|].
    - intros x y Hx Hy Hs. apply subset_size in Hs.
      assert (∀ z, z ∈ cs → size z.2 ≤ foldr (λ y n, size y.2 + n) 0 cs) as Hle.
      { clear. induction cs as [|a cs IH]; intros z; [by intros ?%elem_of_nil|]. cbn [foldr]. intros [->|Hz]%elem_of_cons; [lia|].
        specialize (IH z Hz). lia. }
      specialize (Hle y Hy). lia.
    - exists x. split; [done|]. by apply no_ideal. }
  split; [done|]. split; [done|]. split; [|split; [|by auto]].
  - split; [|by intros ->]. intros E. destruct cs; [done|]. rewrite E in Kt. by specialize (Kt ltac:(done)).
  - split; [|by intros ->]. intros E. destruct cs; [done|]. rewrite E in Kb. by specialize (Kb ltac:(done)).
Qed.
Print Assumptions C145_first.
(** Concepts of a context: if some concept of the system is more general (special) than all, it is the top (bottom) concept; in
    particular the top and bottom concept of the lattice when they are in the system. *)
Theorem C145_greatest c (cs : list fconcept) : (∀ x, x ∈ cs → is_concept (abs c) x.1 x.2) →
  (∀ x, x ∈ cs → (∀ y, y ∈ cs → y.1 ⊆ x.1) → top_of cs = Ok x) ∧
  (∀ x, x ∈ cs → (∀ y, y ∈ cs → x.1 ⊆ y.1) → bottom_of cs = Ok x) ∧
  (∀ x, top_of cs = Ok x → ∀ y, y ∈ cs → ¬ x.1 ⊂ y.1) ∧ (∀ x, bottom_of cs = Ok x → ∀ y, y ∈ cs → ¬ y.1 ⊂ x.1).
Proof.
  intros Hc. destruct (C145_first cs) as (Ht & Hb & _ & _ & Hok).
  assert (∀ x, top_of cs = Ok x → x ∈ cs ∧ ∀ y, y ∈ cs → ¬ x.1 ⊂ y.1) as Kt.
  { intros x (i & Hi & Hm & _)%Ht. apply elem_of_list_lookup_2 in Hi. split; [done|]. intros y Hy Hs. apply (Hm y Hy).
    by apply (concept_order_strict (abs c) x.1 x.2 y.1 y.2); [apply Hc|apply Hc|]. }
  assert (∀ x, bottom_of cs = Ok x → x ∈ cs ∧ ∀ y, y ∈ cs → ¬ y.1 ⊂ x.1) as Kb.
  { intros x (i & Hi & Hm & _)%Hb. apply elem_of_list_lookup_2 in Hi. split; [done|]. intros y Hy Hs. apply (Hm y Hy).
    by apply (concept_order_strict (abs c) y.1 y.2 x.1 x.2); [apply Hc|apply Hc|]. }
  assert (∀ x y : fconcept, x ∈ cs → y ∈ cs → x.1 = y.1 → x = y) as Heq.
  { intros [A B] [A' B'] (_ & _ & H1 & _)%Hc (_ & _ & H2 & _)%Hc. cbn in *. intros ->. congruence. }
  split; [|split; [|split; [intros x H; apply (Kt x H)|intros x H; apply (Kb x H)]]].
  - intros x Hx Hg. destruct Hok as [Hok _]; [by destruct cs; [apply elem_of_nil in Hx|]|].
    destruct (top_of cs) as [t|]; [|done]. destruct (Kt t eq_refl) as [Hin Hm]. f_equal. apply Heq; [done|done|].
    apply (anti_symm (⊆)); [by apply Hg|]. destruct (decide (x.1 ⊆ t.1)) as [H|H]; [done|]. destruct (Hm x Hx). split; [by apply Hg|done].
  - intros x Hx Hg. destruct Hok as [_ Hok]; [by destruct cs; [apply elem_of_nil in Hx|]|].
    destruct (bottom_of cs) as [t|]; [|done]. destruct (Kb t eq_refl) as [Hin Hm]. f_equal. apply Heq; [done|done|].
    apply (anti_symm (⊆)); [|by apply Hg]. destruct (decide (t.1 ⊆ x.1)) as [H|H]; [done|]. destruct (Hm x Hx). split; [by apply Hg|done].
Qed.
Print Assumptions C145_greatest.
(** But the top concept need not be above the others, and can be the bottom concept at the same time. *)
Theorem C145_above_refuted : ∃ c (cs : list fconcept) x, good c ∧ (∀ x, x ∈ cs → is_concept (abs c) x.1 x.2) ∧
  top_of cs = Ok x ∧ bottom_of cs = Ok x ∧ ∃ y, y ∈ cs ∧ ¬ y.1 ⊆ x.1 ∧ ¬ x.1 ⊆ y.1.
Proof.
  exists ex, [({[o1]}, {[sa; sb]}); ({[o2]}, {[sa; sc]})], ({[o1]}, {[sa; sb]}).
  split; [exact ex_good|]. split.
  { intros x [ -> | ->%elem_of_list_singleton ]%elem_of_cons; dec. }
  split; [dec|]. split; [dec|]. exists ({[o2]}, {[sa; sc]}). split; [right; by left|]. split; dec.
Qed.
Print Assumptions C145_above_refuted.
(** After filtering by extent size the top concept is that of the lattice, after filtering by intent size the bottom concept is,
    if anything is left. *)
Theorem C145_filtered c l d opt s : good c → comparable (objs c) = true → comparable (atts c) = true → mk_lattice c = Ok l →
  pyfloat opt → ffilter_concepts d "value" opt = Ok s → sconcepts s ≠ [] →
  (objs c ≠ [] → fcompute_extent_size l = Ok d → top_of (sconcepts s) = Ok (ltop l)) ∧
  (atts c ≠ [] → fcompute_intent_size l = Ok d → bottom_of (sconcepts s) = Ok (lbottom l)).
Proof.
  intros Hg Ho Ha Hl Hopt Es Hne. destruct (lattice_spec c Hg Ho Ha l Hl) as (_ & _ & Hcs & Hbot & Htop & _).
  assert (∃ A B, (A, B) ∈ sconcepts s) as (A & B & HAB) by (destruct (sconcepts s) as [|[A B] ?]; [done|]; exists A, B; by left).
  split; intros Hn Ed.
  - destruct (C140_extent_size c l d opt Hg Ho Ha Hl Hn Ed Hopt) as (s' & Es' & Hc & Hu & _).
    assert (s' = s) as -> by congruence.
    assert (is_concept (abs c) (ltop l).1 (ltop l).2) as Kt by (rewrite Htop; apply top_concept).
    destruct (C145_greatest c (sconcepts s)) as (Hgr & _); [intros [X Y]; apply Hc|]. apply Hgr.
    + destruct (ltop l) as [X Y]. apply (Hu A B X Y HAB Kt). injection Htop as -> _. apply (Hc A B HAB).
    + intros [X Y] HX. rewrite Htop. apply (Hc X Y HX).
  - destruct (C140_intent_size c l d opt Hg Ho Ha Hl Hn Ed Hopt) as (s' & Es' & Hc & Hu & _).
    assert (s' = s) as -> by congruence.
    assert (is_concept (abs c) (lbottom l).1 (lbottom l).2) as Kb by (rewrite Hbot; apply bot_concept).
    assert (∀ X Y, is_concept (abs c) X Y → (lbottom l).1 ⊆ X) as Hleast.
    { intros X Y HX. apply (concept_order (abs c) _ (lbottom l).2 X Y Kb HX). rewrite Hbot. apply HX. }
    destruct (C145_greatest c (sconcepts s)) as (_ & Hgr & _); [intros [X Y]; apply Hc|]. apply Hgr.
    + pose proof (Hleast A B (Hc A B HAB)) as Hle. destruct (lbottom l) as [X Y]. exact (Hu A B X Y HAB Kb Hle).
    + intros [X Y] HX. exact (Hleast X Y (Hc X Y HX)).
Qed.
Print Assumptions C145_filtered.
(** A system with all concepts of the lattice, in any order and repeated or not, has the top, bottom, parents and children
    of the lattice. *)
Theorem C145_whole c l (cs : list fconcept) : good c → comparable (objs c) = true → comparable (atts c) = true → mk_lattice c = Ok l →
  (∀ x, x ∈ cs ↔ x ∈ lconcepts l) →
  top_of cs = Ok (ltop l) ∧ bottom_of cs = Ok (lbottom l) ∧
  ∀ x, x ∈ cs → is_ok (lat_parents l x) = true ∧ is_ok (lat_children l x) = true ∧
    (sparents_of (mk_system cs) x).2 = lat_parents l x ∧ (schildren (mk_system cs) x).2 = lat_children l x.
Proof.
  intros Hg Ho Ha Hl Hin. destruct (lattice_spec c Hg Ho Ha l Hl) as (_ & _ & Hcs & Hbot & Htop & Hp & _).
  assert (∀ x, x ∈ cs ↔ is_concept (abs c) x.1 x.2) as Hc by (intros [A B]; rewrite Hin; apply Hcs).
  destruct (C145_greatest c cs) as (Hgt & Hgb & _); [intros x; by apply Hc|].
  split; [|split].
  - apply Hgt; [apply Hc; rewrite Htop; apply top_concept|]. intros y Hy%Hc. rewrite Htop. apply Hy.
  - assert (is_concept (abs c) (lbottom l).1 (lbottom l).2) as Kb by (rewrite Hbot; apply bot_concept).
    apply Hgb; [by apply Hc|]. intros y Hy%Hc. apply (concept_order (abs c) _ (lbottom l).2 _ y.2 Kb Hy). rewrite Hbot. apply Hy.
  - intros x Hx. destruct (convex_system c Hg Ho Ha l Hl cs x) as (ps & ks & ps' & ks' & E1 & E2 & E3 & E4 & H1 & H2).
    + intros z. by apply Hc.
    + intros x' y z _ _ Hy _ _. by apply Hc.
    + done.
    + rewrite E1, E2, E3, E4. split; [done|]. split; [done|].
      destruct (Hp x (proj1 (Hc x) Hx)) as ((qs & F1 & G1) & (rs & F2 & G2) & _).
      assert (qs = ps') as -> by congruence. assert (rs = ks') as -> by congruence.
      split; f_equal; apply set_eq; intros y.
      * rewrite H1. split; [by intros [? _]|]. intros H. split; [done|]. apply Hc. apply G1 in H. apply H.
      * rewrite H2. split; [by intros [? _]|]. intros H. split; [done|]. apply Hc. apply G2 in H. apply H.
Qed.
Print Assumptions C145_whole.
Example C145_case :
  top_of [({[o1]}, {[sa; sb]}); ({[o1; o2; o3]}, {[sa]}); ({[o2]}, {[sa; sc]})] = Ok ({[o1; o2; o3]}, {[sa]}) ∧
  bottom_of [({[o1; o2; o3]}, {[sa]}); ({[o2]}, {[sa; sc]}); ({[o1]}, {[sa; sb]})] = Ok ({[o2]}, {[sa; sc]}) ∧
  top_of [] = Err IndexError ∧
  (let cs := rev (lconcepts ex_lat) in
   top_of cs = Ok (ltop ex_lat) ∧ bottom_of cs = Ok (lbottom ex_lat) ∧
   (sparents_of (mk_system cs) ({[o1]}, {[sa; sb]})).2 = Ok {[({[o1; o2; o3]}, {[sa]})]}).
Proof. repeat split; dec. Qed.
Example C145_case_filtered : objs ex ≠ [] ∧ pyfloat f34 ∧
  ∃ d s, fcompute_extent_size ex_lat = Ok d ∧ ffilter_concepts d "value" f34 = Ok s ∧ sconcepts s ≠ [] ∧
    top_of (sconcepts s) = Ok ({[o1; o2; o3; o4]}, ∅) ∧ bottom_of (sconcepts s) = Ok ({[o1; o2; o3]}, {[sa]}).
Proof.
  split; [done|]. split; [unfold pyfloat, f34; lia|].
  set (d := get_ok [] (fcompute_extent_size ex_lat)).
  exists d, (get_ok (mk_system []) (ffilter_concepts d "value" f34)).
  split; [by apply get_ok_eq; vm_compute|]. split; [by apply get_ok_eq; vm_compute|]. split; [dec|split; dec].
Qed.
