(** * Filtering with different thresholds: the final statements (C141) *)
From Coq Require Import ZArith Reals QArith Qcanon Floats.SpecFloat.
From Verif Require Import FloatSpec FloatReal.
From Verif Require Import Py PyFacts Spec SpecFacts ContextModel ContextSpec ContextOps ContextFacts ContextInit ContextFinal
  LatticeSpec LatticeModel NorrisFacts LatticeFacts FilterModel FilterFacts FilterFacts2 FloatModel FloatFacts FloatFacts2
  Properties_Context Properties_Lattice Properties_Filter Properties_Float.
Local Open Scope nat_scope.

Lemma SFleb_trans x y z : pyfloat x → pyfloat y → pyfloat z → SFleb x y = true → SFleb y z = true → SFleb x z = true.
Proof.
  intros Hx Hy Hz. destruct (fvalue x) as [r|] eqn:E1, (fvalue y) as [s|] eqn:E2, (fvalue z) as [t|] eqn:E3.
  { rewrite (SFleb_value x y r s), (SFleb_value y z s t), (SFleb_value x z r t) by done. apply Rle_trans. }
  all: clear -E1 E2 E3; destruct x as [[]|[]| |[]], y as [[]|[]| |[]], z as [[]|[]| |[]]; simpl in *; try discriminate; done.
Qed.
(** [d] is the dictionary that one of the index functions returned. *)
Inductive index_dict (l : lattice) (d : list (fconcept * spec_float)) : Prop :=
| index_istab pop : (∀ k W, W ≠ ∅ → pop k W ∈ W) → fcompute_istability pop (lconcepts l) = Ok d → index_dict l d
| index_estab pop : (∀ k W, W ≠ ∅ → pop k W ∈ W) → fcompute_estability pop (lconcepts l) = Ok d → index_dict l d
| index_separation : fcompute_separation_index l = Ok d → index_dict l d
| index_extent : fcompute_extent_size l = Ok d → index_dict l d
| index_intent : fcompute_intent_size l = Ok d → index_dict l d.
Lemma index_dict_float c l d : good c → comparable (objs c) = true → comparable (atts c) = true → mk_lattice c = Ok l →
  objs c ≠ [] → atts c ≠ [] → index_dict l d → ∃ num den, float_index c d num den.
Proof.
  intros Hg Ho Ha Hl Hno Hna [pop Hp E|pop Hp E|E|E|E].
  - destruct (istability_float c Hg Ho Ha l Hl pop Hp) as (d' & E' & Hd). rewrite E in E'. injection E' as <-. eauto.
  - destruct (estability_float c Hg Ho Ha l Hl pop Hp) as (d' & E' & Hd). rewrite E in E'. injection E' as <-. eauto.
  - destruct (separation_float c Hg Ho Ha l Hl Hno) as (d' & E' & Hd). rewrite E in E'. injection E' as <-. eauto.
  - destruct (extent_size_float c Hg Ho Ha l Hl Hno) as (d' & E' & Hd). rewrite E in E'. injection E' as <-. eauto.
  - destruct (intent_size_float c Hg Ho Ha l Hl Hna) as (d' & E' & Hd). rewrite E in E'. injection E' as <-. eauto.
Qed.
Lemma float_index_values c d num den p : float_index c d num den → p ∈ d →
  ∃ a b, (0 <= a <= b)%Z ∧ (0 < b)%Z ∧ rounded (qdiv a b) p.2.
Proof.
  intros (Hnd & Hk & _ & _ & Hv) Hp. destruct p as [[A B] y].
  assert (is_concept (abs c) A B) as Hc. { apply (Hk (A, B)). apply elem_of_list_fmap. by exists (A, B, y). }
  destruct (Hv A B Hc) as (a & b & y' & _ & _ & Hab & Hb & Ey & Hr). apply elem_of_dget in Hp; [|done].
  assert (y = y') as -> by congruence. by exists a, b.
Qed.
Lemma filter_impl_sublist {A} (f g : A → bool) (l : list A) : (∀ x, x ∈ l → g x = true → f x = true) →
  List.filter g l `sublist_of` List.filter f l.
Proof.
  induction l as [|x l IH]; intros H; [constructor|]. simpl.
  assert (List.filter g l `sublist_of` List.filter f l) as IH' by (apply IH; intros y Hy; apply H; by right).
  destruct (g x) eqn:E; [rewrite (H x) by (done || by left); by constructor|]. destruct (f x); [by constructor|done].
Qed.

Lemma full_size (X Y : gset name) : X ⊆ Y → size Y ≤ size X → X = Y.
Proof.
  intros H Hs. destruct (decide (Y ⊆ X)) as [H'|H']; [by apply set_eq; split; [apply H|apply H']|].
  assert (size X < size Y) by by apply subset_size. lia.
Qed.

(** ** C141 *)
(** For every index: a higher threshold keeps a part of the concepts, in the same order; the threshold 0
    keeps all of them, and NaN or a threshold above 1.0 none. *)
Theorem C141_thresholds c l d : good c → comparable (objs c) = true → comparable (atts c) = true → mk_lattice c = Ok l →
  objs c ≠ [] → atts c ≠ [] → index_dict l d →
  ∃ kept : spec_float → list fconcept,
    (∀ opt, ffilter_concepts d "value" opt = Ok (mk_system (kept opt))) ∧
    (∀ opt opt', pyfloat opt → pyfloat opt' → SFleb opt opt' = true → kept opt' `sublist_of` kept opt) ∧
    (∀ b x, x ∈ kept (S754_zero b) ↔ is_concept (abs c) x.1 x.2) ∧ NoDup (kept (S754_zero false)) ∧
    kept S754_nan = [] ∧
    ∀ opt, pyfloat opt → SFltb fone opt = true → kept opt = [].
Proof.
  intros Hg Ho Ha Hl Hno Hna Hi. destruct (index_dict_float c l d Hg Ho Ha Hl Hno Hna Hi) as (num & den & Hd).
  pose proof (float_index_values c d num den) as Hv. pose proof (float_index_not_nil _ _ _ _ Hd) as Hne.
  exists (λ opt, map fst (List.filter (λ p, fge p.2 opt) d)).
  assert (∀ p b, p ∈ d → SFleb (S754_zero b) p.2 = true) as H0.
  { intros p b Hp. destruct (Hv p Hd Hp) as (x & y & Hx & Hy & Hr & Er).
    apply (SFleb_value (S754_zero b) p.2 0%R _ I Hr eq_refl Er).
    rewrite <- rnd_0. apply rnd_le. rewrite Q2R_qdiv by done. by apply quot_unit. }
  split. { intros opt. unfold ffilter_concepts, filter_concepts. destruct d; done. }
  split. { intros opt opt' Hopt Hopt' Hle. apply fmap_sublist. apply filter_impl_sublist. intros p Hp. unfold fge.
    destruct (Hv p Hd Hp) as (x & y & _ & _ & Hr & _). by apply SFleb_trans. }
  assert (∀ b, List.filter (λ p, fge p.2 (S754_zero b)) d = d) as Hall.
  { intros b. clear -H0. induction d as [|p d IH]; [done|]. simpl. unfold fge at 1. rewrite H0 by by left.
    f_equal. apply IH. intros q b' Hq. apply H0. by right. }
  split. { intros b x. rewrite Hall. apply Hd. }
  split. { rewrite Hall. apply Hd. }
  assert (∀ opt, (∀ p, p ∈ d → SFleb opt p.2 = false) → map fst (List.filter (λ p, fge p.2 opt) d) = []) as Hnone.
  { intros opt. clear. induction d as [|p d IH]; [done|]. intros H. simpl. unfold fge at 1. rewrite H by by left.
    apply IH. intros q Hq. apply H. by right. }
  split. { by apply Hnone. }
  intros opt Hopt Hlt. apply Hnone. intros p Hp. destruct (Hv p Hd Hp) as (x & y & Hx & Hy & Hr).
  destruct (SFleb opt p.2) eqn:E; [|done]. exfalso.
  assert (SFleb opt fone = true) as H1.
  { apply (SFleb_up opt (qdiv x y) (Q2Qc 1) p.2 fone Hopt Hr fone_rounded); [|done]. by apply qdiv_unit. }
  destruct (fvalue opt) as [r|] eqn:Er.
  - destruct fone_rounded as [Hf1 Hf2].
    apply (SFleb_value _ _ _ _ Hopt Hf1 Er Hf2) in H1. apply (SFltb_value _ _ _ _ Hf1 Hopt Hf2 Er) in Hlt.
    exact (Rlt_not_le _ _ Hlt H1).
  - clear -H1 Hlt Er. destruct opt as [|[]| |]; done.
Qed.
Print Assumptions C141_thresholds.
(** The default threshold 1: by extent size only the top concept is kept, by intent size only the bottom. *)
Theorem C141_one c l : good c → comparable (objs c) = true → comparable (atts c) = true → mk_lattice c = Ok l →
  (objs c ≠ [] → (Z.of_nat (length (objs c)) < 2 ^ 53)%Z →
     ∃ d s, fcompute_extent_size l = Ok d ∧ ffilter_concepts d "value" fone = Ok s ∧
       ∀ x, x ∈ sconcepts s ↔ x = ltop l) ∧
  (atts c ≠ [] → (Z.of_nat (length (atts c)) < 2 ^ 53)%Z →
     ∃ d s, fcompute_intent_size l = Ok d ∧ ffilter_concepts d "value" fone = Ok s ∧
       ∀ x, x ∈ sconcepts s ↔ x = lbottom l).
Proof.
  intros Hg Ho Ha Hl. destruct (lattice_spec c Hg Ho Ha l Hl) as (_ & _ & _ & Hb & Ht & _).
  assert (fdiv 1 1 = Ok fone) as E1 by by vm_compute.
  split; intros Hne Hs.
  - destruct (extent_size_float c Hg Ho Ha l Hl Hne) as (d & E & _). exists d.
    destruct (C109_extent_size c l d 1 1 fone Hg Ho Ha Hl Hne E) as (s & Es & H); [lia|lia|done|lia|].
    exists s. split; [done|]. split; [done|]. intros [A B]. rewrite H, Ht. split.
    + intros [(HA & HB & E2 & E3) Hle]. assert (A = fG (abs c)) as ->; [|by rewrite E2].
      apply full_size; [done|].
      change (size (list_to_set (objs c) : gset name) ≤ size A). rewrite size_list_to_set by apply Hg. lia.
    + intros [= -> ->]. split; [apply top_concept|].
      change (size (fG (abs c))) with (size (list_to_set (objs c) : gset name)). rewrite size_list_to_set by apply Hg. lia.
  - destruct (intent_size_float c Hg Ho Ha l Hl Hne) as (d & E & _). exists d.
    destruct (C109_intent_size c l d 1 1 fone Hg Ho Ha Hl Hne E) as (s & Es & H); [lia|lia|done|lia|].
    exists s. split; [done|]. split; [done|]. intros [A B]. rewrite H, Hb. split.
    + intros [(HA & HB & E2 & E3) Hle]. assert (B = fM (abs c)) as ->; [|by rewrite E3].
      apply full_size; [done|].
      change (size (list_to_set (atts c) : gset name) ≤ size B). rewrite size_list_to_set by apply Hg. lia.
    + intros [= -> ->]. split; [apply bot_concept|].
      change (size (fM (abs c))) with (size (list_to_set (atts c) : gset name)). rewrite size_list_to_set by apply Hg. lia.
Qed.
Print Assumptions C141_one.
(** Thresholds 5/8 and 3/4 for the stability, 3/4 and 1.0 for the extent size. *)
Example C141_case : objs ex ≠ [] ∧ atts ex ≠ [] ∧ is_ok (mk_lattice ex) = true ∧
  pyfloat f58 ∧ pyfloat f34 ∧ SFleb f58 f34 = true ∧ SFltb fone S754_nan = false ∧ SFltb fone (S754_infinity false) = true ∧
  (∃ d s s', fcompute_istability pop_first (lconcepts ex_lat) = Ok d ∧ index_dict ex_lat d ∧
    ffilter_concepts d "value" f58 = Ok s ∧ ffilter_concepts d "value" f34 = Ok s' ∧
    sconcepts s = [(∅, {[sa; sb; sc]}); ({[o1; o2; o3]}, {[sa]})] ∧ sconcepts s' = [(∅, {[sa; sb; sc]})]) ∧
  (∃ d s, fcompute_extent_size ex_lat = Ok d ∧ ffilter_concepts d "value" fone = Ok s ∧
    sconcepts s = [({[o1; o2; o3; o4]}, ∅)]).
Proof.
  split; [done|]. split; [done|]. split; [by vm_compute|].
  split; [unfold pyfloat, f58; lia|]. split; [unfold pyfloat, f34; lia|].
  split; [by vm_compute|]. split; [by vm_compute|]. split; [by vm_compute|]. split.
  - set (d := get_ok [] (fcompute_istability pop_first (lconcepts ex_lat))).
    exists d, (get_ok (mk_system []) (ffilter_concepts d "value" f58)), (get_ok (mk_system []) (ffilter_concepts d "value" f34)).
    assert (fcompute_istability pop_first (lconcepts ex_lat) = Ok d) as E by by apply get_ok_eq; vm_compute.
    split; [done|]. split; [exact (index_istab _ _ pop_first pop_first_in E)|].
    split; [by apply get_ok_eq; vm_compute|]. split; [by apply get_ok_eq; vm_compute|]. split; dec.
  - set (d := get_ok [] (fcompute_extent_size ex_lat)).
    exists d, (get_ok (mk_system []) (ffilter_concepts d "value" fone)).
    split; [by apply get_ok_eq; vm_compute|]. split; [by apply get_ok_eq; vm_compute|]. dec.
Qed.
