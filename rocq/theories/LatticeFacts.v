(** * Facts about the covering relation, concept lattices and concept systems *)
From Verif Require Import Py PyFacts Spec SpecFacts ContextModel ContextSpec ContextFacts LatticeSpec LatticeModel NorrisFacts
  ClosureModel ClosureFacts DgCxt.

Lemma between_spec cs x y : between cs x y = true ↔ ∃ z, z ∈ cs ∧ x.2 ⊂ z.2 ∧ z.2 ⊂ y.2.
Proof.
  unfold between. rewrite existsb_exists. setoid_rewrite andb_true_iff. setoid_rewrite bool_decide_eq_true.
  by setoid_rewrite <-elem_of_list_In.
Qed.
Lemma cover_fold cs l : ∀ d,
  (∀ x y, (x, y) ∈ l → x ∈ cs ∧ y ∈ map fst d) →
  let d' := foldl (cover_step cs) d l in
  map fst d' = map fst d ∧
  ∀ y s, dget y d = Some s → (∀ x, x ∈ s → covers cs x y) →
    ∃ s', dget y d' = Some s' ∧ ∀ x, x ∈ s' ↔ x ∈ s ∨ ((x, y) ∈ l ∧ covers cs x y).
Proof.
  induction l as [|[x0 y0] l IH]; intros d Hl; cbn [foldl].
  { split; [done|]. intros y s Hs Hc. exists s. split; [done|]. intros x. rewrite elem_of_nil. tauto. }
  assert (∃ s0, dget y0 d = Some s0) as [s0 Hs0] by (apply dget_is_Some, (Hl x0), elem_of_cons; by left).
  assert (x0 ∈ cs) as Hx0 by (apply (Hl x0 y0), elem_of_cons; by left).
  assert (map fst (cover_step cs d (x0, y0)) = map fst d) as Hk.
  { unfold cover_step. case_bool_decide; [|done]. rewrite keys_dset. rewrite decide_True; [done|].
    apply dget_is_Some. by eexists. }
  destruct (IH (cover_step cs d (x0, y0))) as [H1 H2].
  { intros x y Hin. rewrite Hk. apply Hl, elem_of_cons. by right. }
  split; [by rewrite H1|]. intros y s Hs Hc.
  assert (∃ s1, dget y (cover_step cs d (x0, y0)) = Some s1 ∧ ∀ x, x ∈ s1 ↔ x ∈ s ∨ (x = x0 ∧ y = y0 ∧ covers cs x y)) as (s1 & Hs1 & Hs1').
  { unfold cover_step. case_bool_decide as Hsub.
    - rewrite dget_dset. destruct (decide (y0 = y)) as [->|Hne].
      + rewrite Hs in *. injection Hs0 as <-. simpl. eexists. split; [done|]. intros x.
        destruct (between cs x0 y) eqn:Eb.
        * apply between_spec in Eb. rewrite elem_of_difference, elem_of_union, elem_of_singleton. split; [tauto|].
          intros [Hx|(-> & _ & Hx)]; [|by destruct Hx as (_ & _ & Hx)]. split; [by left|].
          intros ->. apply Hc in Hx as (_ & _ & Hx). done.
        * assert (covers cs x0 y) as Hcov.
          { split; [done|]. split; [done|]. rewrite <-between_spec, Eb. done. }
          rewrite elem_of_union, elem_of_singleton. split; [|tauto]. intros [?| ->]; tauto.
      + exists s. split; [done|]. intros x. split; [tauto|]. intros [?|(_ & -> & _)]; done.
    - exists s. split; [done|]. intros x. split; [tauto|]. intros [?|(-> & -> & Hx)]; [done|].
      destruct Hx as (_ & Hx & _). done. }
  destruct (H2 y s1 Hs1) as (s' & Hs' & Hx').
  { intros x. rewrite Hs1'. intros [?|?]; [auto|tauto]. }
  exists s'. split; [done|]. intros x. rewrite Hx', Hs1', elem_of_cons. split.
  - intros [[?|(-> & -> & ?)]|[??]]; [by left|right; split; [by left|done]|right; split; [by right|done]].
  - intros [?|[[[= -> ->]|?] ?]]; [by left; left|left; right; tauto|right; tauto].
Qed.
Lemma covering_ok cs : (∀ x, x ∈ cs → chash x = true) → ∃ d, compute_covering_relation cs = Ok d ∧
  (∀ y, is_Some (dget y d) ↔ y ∈ cs) ∧
  ∀ y s, dget y d = Some s → ∀ x, x ∈ s ↔ covers cs x y.
Proof.
  intros Hh. unfold compute_covering_relation. assert (forallb chash cs = true) as ->.
  { apply forallb_forall. intros x Hx. apply Hh. by apply elem_of_list_In. }
  set (d0 := dict_of (map (fun x : fconcept => (x, ∅ : gset fconcept)) cs)).
  set (l := x ← cs; y ← cs; [(x, y)]).
  assert (∀ x, x ∈ map fst d0 ↔ x ∈ cs) as Hk.
  { intros x. unfold d0. rewrite elem_of_keys_dict_of, map_map. simpl. by rewrite map_id. }
  assert (∀ x y, (x, y) ∈ l ↔ x ∈ cs ∧ y ∈ cs) as Hl.
  { intros x y. unfold l. rewrite elem_of_list_bind. split.
    - intros (x' & H & Hx). apply elem_of_list_bind in H as (y' & H & Hy). apply elem_of_list_singleton in H.
      injection H as -> ->. done.
    - intros [Hx Hy]. exists x. split; [|done]. apply elem_of_list_bind. exists y. split; [|done]. by apply elem_of_list_singleton. }
  destruct (cover_fold cs l d0) as [H1 H2].
  { intros x y [Hx Hy]%Hl. split; [done|]. by apply Hk. }
  eexists. split; [done|]. split.
  - intros y. rewrite dget_is_Some, H1. apply Hk.
  - intros y s Hs x. assert (y ∈ map fst d0) as Hy.
    { rewrite <-H1. apply dget_is_Some. by eexists. }
    assert (dget y d0 = Some ∅) as Hy0.
    { pose proof Hy as [v Hv]%dget_is_Some. pose proof Hv as Hv'. apply dget_dict_of_elem in Hv'.
      apply elem_of_list_fmap in Hv' as (? & [= -> ->] & _). done. }
    destruct (H2 y ∅ Hy0) as (s' & Hs' & Hx); [by intros x' ?%elem_of_empty|].
    rewrite Hs in Hs'. injection Hs' as <-. rewrite Hx. split.
    + intros [?%elem_of_empty|[_ ?]]; done.
    + intros Hc. right. split; [|done]. apply Hl. split; [apply Hc|]. by apply Hk.
Qed.
Lemma covering_err cs x : x ∈ cs → chash x = false → compute_covering_relation cs = Err TypeError.
Proof.
  intros Hx Hh. unfold compute_covering_relation. destruct (forallb chash cs) eqn:E; [|done].
  rewrite forallb_forall in E. rewrite (E x) in Hh; [done|]. by apply elem_of_list_In.
Qed.

(** ** The lattice *)
Lemma chash_comparable x : comparable (elements x.1) = true → comparable (elements x.2) = true → chash x = true.
Proof. intros H1 H2. unfold chash. rewrite H1, H2, !orb_true_r. done. Qed.
Lemma in_cfilter cs x y : y ∈ cfilter cs x ↔ y ∈ cs ∧ y.2 ⊂ x.2.
Proof. unfold cfilter. rewrite elem_of_list_In, filter_In, <-elem_of_list_In, bool_decide_eq_true. done. Qed.
Lemma in_cideal cs x y : y ∈ cideal cs x ↔ y ∈ cs ∧ x.2 ⊂ y.2.
Proof. unfold cideal. rewrite elem_of_list_In, filter_In, <-elem_of_list_In, bool_decide_eq_true. done. Qed.
Lemma head_filter (f : fconcept → bool) cs x : x ∈ cs → f x = true → (∀ y, y ∈ cs → f y = true → y = x) →
  head (List.filter f cs) = Some x.
Proof.
  intros Hx Hf Hu. destruct (List.filter f cs) as [|y l] eqn:E; simpl.
  - exfalso. assert (In x (List.filter f cs)) as H by (apply filter_In; split; [by apply elem_of_list_In|done]).
    by rewrite E in H.
  - f_equal. assert (In y (List.filter f cs)) as H by (rewrite E; by left). apply filter_In in H as [H1 H2].
    apply Hu; [by apply elem_of_list_In|done].
Qed.
Lemma cget_ok {A} (d : list (fconcept * A)) x v : chash x = true → dget x d = Some v → cget d x = Ok v.
Proof. intros H1 H2. unfold cget. rewrite H1, H2. done. Qed.
Lemma children_of_ok f x cs (P : fconcept → Prop) : chash x = true →
  (∀ y, y ∈ cs → ∃ ps, f y = Ok ps ∧ (x ∈ ps ↔ P y)) →
  ∃ r, children_of f x cs = Ok r ∧ ∀ y, y ∈ r ↔ y ∈ cs ∧ P y.
Proof.
  intros Hh. induction cs as [|y cs IH]; intros H; simpl.
  { exists ∅. split; [done|]. intros y. rewrite elem_of_empty, elem_of_nil. tauto. }
  destruct (H y) as (ps & Hps & HP); [by left|]. rewrite Hps. simpl. rewrite Hh.
  destruct IH as (r & Hr & Hr'); [intros z Hz; apply H; by right|]. rewrite Hr. simpl. eexists. split; [done|].
  intros z. rewrite elem_of_cons. case_bool_decide as Hx.
  - rewrite elem_of_union, elem_of_singleton, Hr'. apply HP in Hx. split; [intros [->|?]; tauto|].
    intros [[->|?] ?]; tauto.
  - rewrite Hr'. split; [tauto|]. intros [[->|?] ?]; [|tauto]. tauto.
Qed.
Lemma bot_concept K : is_concept K (down K (fM K)) (fM K).
Proof.
  split; [apply down_sub|]. split; [done|]. split; [|done]. apply set_eq. intros m. rewrite elem_of_up. split; [tauto|].
  intros Hm. split; [done|]. intros g [_ H]%elem_of_down. by apply H.
Qed.
Lemma top_concept K : is_concept K (fG K) (up K (fG K)).
Proof.
  split; [done|]. split; [apply up_sub|]. split; [done|]. apply set_eq. intros g. rewrite elem_of_down. split; [tauto|].
  intros Hm. split; [done|]. intros m [_ H]%elem_of_up. by apply H.
Qed.
Lemma concept_order K A B A' B' : is_concept K A B → is_concept K A' B' → A ⊆ A' ↔ B' ⊆ B.
Proof.
  intros (HA & HB & H1 & H2) (HA' & HB' & H1' & H2'). split; intros H.
  - rewrite <-H1, <-H1'. by apply up_anti.
  - rewrite <-H2, <-H2'. by apply down_anti.
Qed.
Lemma concept_order_strict K A B A' B' : is_concept K A B → is_concept K A' B' → A ⊂ A' ↔ B' ⊂ B.
Proof. intros H1 H2. unfold strict. by rewrite (concept_order K A B A' B'), (concept_order K A' B' A B). Qed.

Section lat.
  Context (c : context) (Hg : good c) (Ho : comparable (objs c) = true) (Ha : comparable (atts c) = true).
  Local Notation K := (abs c).
  Lemma concept_hash A B : is_concept K A B → chash (A, B) = true.
  Proof.
    intros (HA & HB & _). apply chash_comparable; simpl.
    - eapply comparable_sub, Ho. intros x Hx%elem_of_elements. apply HA in Hx. by apply elem_of_list_to_set in Hx.
    - eapply comparable_sub, Ha. intros x Hx%elem_of_elements. apply HB in Hx. by apply elem_of_list_to_set in Hx.
  Qed.
  Lemma covers_upper cs x y : (∀ A B, (A, B) ∈ cs ↔ is_concept K A B) → y ∈ cs →
    covers cs x y ↔ is_upper_cover K x y.
  Proof.
    intros Hcs Hy. destruct x as [A B], y as [A' B']. pose proof (proj1 (Hcs _ _) Hy) as Hy'. unfold covers, is_upper_cover. simpl.
    rewrite Hcs. split; intros (Hx & H1 & H2).
    - split; [done|]. split; [by eapply concept_order_strict|]. intros ([A1 B1] & Hz & Hz1 & Hz2). simpl in *.
      apply H2. exists (A1, B1). split; [by apply Hcs|]. simpl.
      split; [by apply (concept_order_strict K A1 B1 A B)|by apply (concept_order_strict K A' B' A1 B1)].
    - split; [done|]. split; [by apply (concept_order_strict K A' B' A B)|]. intros ([A1 B1] & Hz%Hcs & Hz1 & Hz2). simpl in *.
      apply H2. exists (A1, B1). split; [done|]. simpl.
      split; [by apply (concept_order_strict K A' B' A1 B1)|by apply (concept_order_strict K A1 B1 A B)].
  Qed.
  Lemma mk_lattice_ok : ∃ l, mk_lattice c = Ok l ∧ lcxt l = c ∧ norris c = Ok (lconcepts l) ∧
    lbottom l = (down K (fM K), fM K) ∧ ltop l = (fG K, up K (fG K)) ∧
    (∀ y, is_Some (dget y (lparents l)) ↔ y ∈ lconcepts l) ∧
    (∀ y s, dget y (lparents l) = Some s → ∀ x, x ∈ s ↔ is_upper_cover K x y).
  Proof.
    unfold mk_lattice. destruct (norris_spec c Hg) as (cs & Hcs & Hnd & Hnd2 & Hc). rewrite Hcs. cbn [mbind res_bind].
    destruct (covering_ok cs) as (d & Hd & Hd1 & Hd2).
    { intros [A B] Hx. by apply concept_hash, Hc. }
    rewrite Hd. cbn [mbind res_bind].
    assert (bottom_of cs = Ok (down K (fM K), fM K)) as ->.
    { unfold bottom_of. rewrite (head_filter _ cs (down K (fM K), fM K)).
      - done.
      - apply Hc, bot_concept.
      - destruct (cideal cs _) as [|z l] eqn:E; [done|]. exfalso.
        assert (z ∈ cideal cs (down K (fM K), fM K)) as Hz by (rewrite E; by left). apply in_cideal in Hz as [Hz1 Hz2].
        destruct z as [A B]. apply Hc in Hz1 as (_ & HB & _). simpl in *. by apply Hz2.
      - intros [A B] Hx Hf. pose proof (proj1 (Hc _ _) Hx) as Hx'. destruct (cideal cs _) as [|z l] eqn:E; [|done].
        assert (B = fM K) as ->.
        { destruct (decide (fM K ⊆ B)) as [H|H]; [apply set_eq; intros m; split; [apply Hx'|apply H]|]. exfalso.
          assert ((down K (fM K), fM K) ∈ cideal cs (A, B)) as Hin.
          { apply in_cideal. split; [apply Hc, bot_concept|]. simpl. split; [apply Hx'|done]. }
          rewrite E in Hin. by apply elem_of_nil in Hin. }
        destruct Hx' as (_ & _ & _ & <-). done. }
    cbn [mbind res_bind].
    assert (top_of cs = Ok (fG K, up K (fG K))) as ->.
    { unfold top_of. rewrite (head_filter _ cs (fG K, up K (fG K))).
      - done.
      - apply Hc, top_concept.
      - destruct (cfilter cs _) as [|z l] eqn:E; [done|]. exfalso.
        assert (z ∈ cfilter cs (fG K, up K (fG K))) as Hz by (rewrite E; by left). apply in_cfilter in Hz as [Hz1 Hz2].
        destruct z as [A B]. apply Hc in Hz1. cbn [snd] in Hz2. apply Hz2.
        apply (concept_order K A B (fG K) (up K (fG K))); [exact Hz1|apply top_concept|]. apply Hz1.
      - intros [A B] Hx Hf. pose proof (proj1 (Hc _ _) Hx) as Hx'. destruct (cfilter cs _) as [|z l] eqn:E; [|done].
        assert (A = fG K) as ->.
        { destruct (decide (fG K ⊆ A)) as [H|H]; [apply set_eq; intros m; split; [apply Hx'|apply H]|]. exfalso.
          assert ((fG K, up K (fG K)) ∈ cfilter cs (A, B)) as Hin.
          { apply in_cfilter. split; [apply Hc, top_concept|]. simpl. apply (concept_order_strict K A B (fG K) (up K (fG K))); [done|apply top_concept|].
            split; [apply Hx'|done]. }
          rewrite E in Hin. by apply elem_of_nil in Hin. }
        destruct Hx' as (_ & _ & <- & _). done. }
    cbn [mbind res_bind]. eexists. split; [done|]. simpl. split; [done|]. split; [done|]. split; [done|]. split; [done|].
    split; [done|]. intros y s Hs x. rewrite (Hd2 y s Hs). apply covers_upper; [done|]. apply Hd1. by eexists.
  Qed.
  Lemma lattice_spec l : mk_lattice c = Ok l →
    lcxt l = c ∧ NoDup (lconcepts l) ∧ (∀ A B, (A, B) ∈ lconcepts l ↔ is_concept K A B) ∧
    lbottom l = (down K (fM K), fM K) ∧ ltop l = (fG K, up K (fG K)) ∧
    (∀ x : fconcept, is_concept K x.1 x.2 →
       (∃ ps, lat_parents l x = Ok ps ∧ ∀ y, y ∈ ps ↔ is_upper_cover K y x) ∧
       (∃ ks, lat_children l x = Ok ks ∧ ∀ y : fconcept, y ∈ ks ↔ is_concept K y.1 y.2 ∧ is_upper_cover K x y) ∧
       (∀ y : fconcept, y ∈ cfilter (lconcepts l) x ↔ is_concept K y.1 y.2 ∧ x.1 ⊂ y.1) ∧
       (∀ y : fconcept, y ∈ cideal (lconcepts l) x ↔ is_concept K y.1 y.2 ∧ y.1 ⊂ x.1)) ∧
    (∀ x : fconcept, ¬ is_concept K x.1 x.2 → lat_parents l x = Err KeyError ∨ lat_parents l x = Err TypeError).
  Proof.
    intros E. destruct mk_lattice_ok as (l' & E' & H1 & H2 & H3 & H4 & H5 & H6). rewrite E in E'. injection E' as <-.
    destruct (norris_spec c Hg) as (cs & Hcs & Hnd & _ & Hc). rewrite H2 in Hcs. injection Hcs as <-.
    split; [done|]. split; [done|]. split; [done|]. split; [done|]. split; [done|].
    assert (∀ x : fconcept, is_concept K x.1 x.2 → ∃ ps, lat_parents l x = Ok ps ∧ ∀ y, y ∈ ps ↔ is_upper_cover K y x) as Hp.
    { intros [A B] Hx. pose proof (proj2 (Hc _ _) Hx) as Hin. apply H5 in Hin as [s Hs]. exists s. split.
      - apply cget_ok; [by apply concept_hash|done].
      - by apply H6. }
    split.
    - intros [A B] Hx. split; [by apply Hp|]. split; [|split].
      + destruct (children_of_ok (lat_parents l) (A, B) (lconcepts l) (is_upper_cover K (A, B))) as (ks & Hk & Hk').
        * by apply concept_hash.
        * intros [A' B'] Hy%Hc. destruct (Hp (A', B') Hy) as (ps & Hps & Hps'). exists ps. split; [done|]. apply Hps'.
        * exists ks. split; [done|]. intros [A' B']. rewrite Hk', Hc. done.
      + intros [A' B']. rewrite in_cfilter, Hc. simpl in *. split; intros [Hy Hy']; (split; [done|]).
        * by apply (concept_order_strict K A B A' B').
        * by apply (concept_order_strict K A B A' B').
      + intros [A' B']. rewrite in_cideal, Hc. simpl in *. split; intros [Hy Hy']; (split; [done|]).
        * by apply (concept_order_strict K A' B' A B).
        * by apply (concept_order_strict K A' B' A B).
    - intros [A B] Hx. unfold lat_parents, cget. destruct (chash _); [left|by right].
      destruct (dget (A, B) (lparents l)) eqn:Ed; [|done]. exfalso. apply Hx, Hc, H5. by eexists.
  Qed.
End lat.

(** ** Concept systems *)
(** The invariant: a cached relation is the relation of the current concepts. *)
Definition sinv (s : csystem) : Prop :=
  match sparents s with Some (p :: d) => compute_covering_relation (sconcepts s) = Ok (p :: d) | _ => True end.
Lemma sparents_of_step s x : sinv s → sinv (sparents_of s x).1 ∧ sconcepts (sparents_of s x).1 = sconcepts s ∧
  (sparents_of s x).2 = d ← compute_covering_relation (sconcepts s); cget d x.
Proof.
  unfold sparents_of, sinv. intros H.
  destruct (sparents s) as [[|p d]|] eqn:Es.
  - destruct (compute_covering_relation (sconcepts s)) as [[|q d]|e] eqn:Ec; simpl; rewrite ?Es; done.
  - simpl. rewrite Es, H. done.
  - destruct (compute_covering_relation (sconcepts s)) as [[|q d]|e] eqn:Ec; simpl; rewrite ?Es; done.
Qed.
Lemma schildren_loop_step x cs : ∀ s, sinv s → sinv (schildren_loop s x cs).1 ∧ sconcepts (schildren_loop s x cs).1 = sconcepts s ∧
  (schildren_loop s x cs).2 = children_of (fun y => d ← compute_covering_relation (sconcepts s); cget d y) x cs.
Proof.
  induction cs as [|y cs IH]; intros s H; [done|]. cbn [schildren_loop children_of].
  destruct (sparents_of_step s y H) as (H1 & H2 & H3).
  destruct (sparents_of s y) as [s' [ps|e]]; simpl in H1, H2, H3; rewrite <-H3; [|done].
  cbn [mbind res_bind]. destruct (chash x); [|done]. destruct (IH s' H1) as (I1 & I2 & I3).
  rewrite H2 in I3. destruct (schildren_loop s' x cs) as [s'' [r|e]]; simpl in *; rewrite <-I3; simpl; split_and!; congruence.
Qed.
Lemma schildren_step s x : sinv s → sinv (schildren s x).1 ∧ sconcepts (schildren s x).1 = sconcepts s ∧
  (schildren s x).2 = children_of (fun y => d ← compute_covering_relation (sconcepts s); cget d y) x (sconcepts s).
Proof. apply schildren_loop_step. Qed.
Lemma sstep_inv s o : sinv s → sinv (sstep s o).
Proof.
  intros H. destruct o as [x|x|x|x]; simpl.
  - done.
  - unfold sremove. destruct (list_remove _ _); done.
  - by apply sparents_of_step.
  - by apply schildren_step.
Qed.
Lemma srun_inv l : ∀ s, sinv s → sinv (srun s l).
Proof. induction l as [|o l IH]; intros s H; [done|]. simpl. apply IH. by apply sstep_inv. Qed.
(** What the operations do to the list. *)
Definition slist (cs : list fconcept) (o : sop) : list fconcept :=
  match o with
  | SAppend x => cs ++ [x]
  | SRemove x => match list_remove x cs with Ok l => l | Err _ => cs end
  | _ => cs
  end.
Lemma sstep_list s o : sinv s → sconcepts (sstep s o) = slist (sconcepts s) o.
Proof.
  intros H. destruct o as [x|x|x|x]; simpl.
  - done.
  - unfold sremove. destruct (list_remove _ _); done.
  - by apply sparents_of_step.
  - by apply schildren_step.
Qed.
Lemma srun_list l : ∀ s, sinv s → sconcepts (srun s l) = foldl slist (sconcepts s) l.
Proof. induction l as [|o l IH]; intros s H; [done|]. simpl. rewrite IH by by apply sstep_inv. by rewrite sstep_list. Qed.
Lemma list_remove_spec x l :
  (x ∉ l → list_remove x l = Err ValueError) ∧
  (x ∈ l → ∃ l1 l2, l = l1 ++ x :: l2 ∧ x ∉ l1 ∧ list_remove x l = Ok (l1 ++ l2)).
Proof.
  induction l as [|y l [IH1 IH2]]; simpl; (split; [intros H|intros H]).
  - done.
  - by apply elem_of_nil in H.
  - apply not_elem_of_cons in H as [H1 H2]. rewrite decide_False by done. by rewrite IH1.
  - destruct (decide (y = x)) as [->|Hne].
    + exists [], l. split; [done|]. split; [apply not_elem_of_nil|done].
    + apply elem_of_cons in H as [->|H]; [done|]. destruct (IH2 H) as (l1 & l2 & -> & H1 & H2).
      exists (y :: l1), l2. split; [done|]. split; [|by rewrite H2]. apply not_elem_of_cons. split; [done|done].
Qed.
