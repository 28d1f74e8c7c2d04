(** * Changes through what lattices and systems hand out: the final statements (C147) *)
From Verif Require Import Py PyFacts Spec SpecFacts ContextModel ContextSpec ContextOps ContextFacts ContextInit ContextFinal
  LatticeSpec LatticeModel NorrisFacts LatticeFacts ShowModel LatAliasModel Properties_Context Properties_Lattice.

Lemma children_of_all (f : fconcept → res (gset fconcept)) (x : fconcept) (cs : list fconcept) (d : fconcept → gset fconcept) : chash x = true → (∀ y, y ∈ cs → f y = Ok (d y)) →
  ∃ r, children_of f x cs = Ok r ∧ ∀ y, y ∈ r ↔ y ∈ cs ∧ x ∈ d y.
Proof. intros Hh Hf. apply (children_of_ok f x cs (λ y, x ∈ d y) Hh). intros y Hy. exists (d y). split; [by apply Hf|done]. Qed.
Lemma children_of_err (f : fconcept → res (gset fconcept)) (x : fconcept) (cs : list fconcept) e : chash x = true → (∀ y, y ∈ cs → is_ok (f y) = true ∨ f y = Err e) → (∃ y, y ∈ cs ∧ f y = Err e) →
  children_of f x cs = Err e.
Proof.
  intros Hh. induction cs as [|y cs IH]; intros H (z & Hz & E); [by apply elem_of_nil in Hz|]. cbn [children_of].
  destruct (H y) as [Hy|Hy]; [by left| |by rewrite Hy]. destruct (f y) as [ps|] eqn:Ey; [|done]. cbn [mbind res_bind]. rewrite Hh.
  rewrite IH; [done|intros w Hw; apply H; by right|]. exists z. split; [|done]. apply elem_of_cons in Hz as [->|Hz]; [congruence|done].
Qed.

(** ** C147 *)
(** Whatever a program does to the list of concepts (appending) and the sets of parents, context, top and bottom stay what they
    were, and the list grows by what was appended. *)
Definition appended (o : lop) : list fconcept := match o with LAppend x => [x] | _ => [] end.
Theorem C147_fixed l os : let l' := lat_run l os in
  lcxt l' = lcxt l ∧ ltop l' = ltop l ∧ lbottom l' = lbottom l ∧ lconcepts l' = lconcepts l ++ concat (map appended os).
Proof.
  cbv zeta. revert l. induction os as [|o os IH]; intros l; [by rewrite app_nil_r|].
  change (lat_run l (o :: os)) with (lat_run (lat_step l o).1 os). destruct (IH (lat_step l o).1) as (-> & -> & -> & ->).
  assert (∀ x y f, let l' := (lat_change l x y f).1 in lcxt l' = lcxt l ∧ ltop l' = ltop l ∧ lbottom l' = lbottom l ∧ lconcepts l' = lconcepts l) as H.
  { intros x y f. unfold lat_change. destruct (lat_parents l x); [|done]. destruct (chash y); done. }
  cbn [map concat]. destruct o as [x|x y|x y]; cbn [lat_step appended].
  - cbn [fst lcxt ltop lbottom lconcepts]. by rewrite <- app_assoc.
  - destruct (H x y (λ ps, ps ∪ {[y]})) as (-> & -> & -> & ->). done.
  - destruct (H x y (λ ps, ps ∖ {[y]})) as (-> & -> & -> & ->). done.
Qed.
Print Assumptions C147_fixed.
(** Adding a concept to a set of parents makes it a parent, and the other its child, whatever the context says; nothing else
    changes.  Discarding undoes it. *)
Theorem C147_parents c l x y : good c → comparable (objs c) = true → comparable (atts c) = true → mk_lattice c = Ok l →
  is_concept (abs c) x.1 x.2 → is_concept (abs c) y.1 y.2 →
  ∃ l' ps ks, lat_step l (LAdd x y) = (l', Ok tt) ∧ lat_parents l x = Ok ps ∧ lat_parents l' x = Ok (ps ∪ {[y]}) ∧
    (∀ z, z ≠ x → lat_parents l' z = lat_parents l z) ∧
    lat_children l y = Ok ks ∧ lat_children l' y = Ok (ks ∪ {[x]}) ∧
    (∀ z, is_concept (abs c) z.1 z.2 → z ≠ y → lat_children l' z = lat_children l z) ∧
    ∃ l'', lat_step l' (LDiscard x y) = (l'', Ok tt) ∧ (y ∉ ps → ∀ z, lat_parents l'' z = lat_parents l z).
Proof.
  intros Hg Ho Ha Hl Hx Hy. destruct (lattice_spec c Hg Ho Ha l Hl) as (_ & _ & Hcs & _ & _ & Hp & _).
  assert (∀ z, z ∈ lconcepts l ↔ is_concept (abs c) z.1 z.2) as Hc by (intros [A B]; apply Hcs).
  assert (∀ z : fconcept, is_concept (abs c) z.1 z.2 → chash z = true) as Hh by (intros [A B]; apply (concept_hash c Ho Ha)).
  assert (∀ z : fconcept, is_concept (abs c) z.1 z.2 → ∃ qs, lat_parents l z = Ok qs) as Hpar.
  { intros z Hz. destruct (Hp z Hz) as ((qs & E & _) & _). eauto. }
  destruct (Hpar x Hx) as [ps Eps]. set (l' := Lattice (lcxt l) (lconcepts l) (dset x (ps ∪ {[y]}) (lparents l)) (lbottom l) (ltop l)).
  assert (lat_parents l' x = Ok (ps ∪ {[y]})) as Ex.
  { apply cget_ok; [by apply Hh|]. cbn [l' lparents]. rewrite dget_dset. by rewrite decide_True. }
  assert (∀ z, z ≠ x → lat_parents l' z = lat_parents l z) as Ez.
  { intros z Hz. unfold lat_parents, cget. cbn [l' lparents]. rewrite dget_dset, decide_False by congruence. done. }
  set (d z := get_ok ∅ (lat_parents l z)). set (d' z := get_ok ∅ (lat_parents l' z)).
  assert (∀ z, z ∈ lconcepts l → lat_parents l z = Ok (d z)) as Hd.
  { intros z Hz%Hc. destruct (Hpar z Hz) as [qs E]. unfold d. by rewrite E. }
  assert (∀ z, z ∈ lconcepts l → lat_parents l' z = Ok (d' z)) as Hd'.
  { intros z Hz. unfold d'. destruct (decide (z = x)) as [->|Hne]; [by rewrite Ex|]. rewrite Ez by done. by rewrite Hd. }
  assert (d' x = d x ∪ {[y]}) as Edx by (unfold d, d'; by rewrite Ex, Eps).
  assert (∀ z, z ≠ x → d' z = d z) as Edz by (intros z Hz; unfold d, d'; by rewrite Ez).
  assert (∀ w, is_concept (abs c) w.1 w.2 → ∃ r r', lat_children l w = Ok r ∧ lat_children l' w = Ok r' ∧
    (∀ z, z ∈ r ↔ z ∈ lconcepts l ∧ w ∈ d z) ∧ (∀ z, z ∈ r' ↔ z ∈ lconcepts l ∧ w ∈ d' z)) as Hk.
  { intros w Hw. destruct (children_of_all _ w (lconcepts l) d (Hh w Hw) Hd) as (r & E & Hr).
    destruct (children_of_all _ w (lconcepts l) d' (Hh w Hw) Hd') as (r' & E' & Hr'). exists r, r'. done. }
  destruct (Hk y Hy) as (ks & ks' & E1 & E2 & H1 & H2).
  exists l', ps, ks. split; [cbn [lat_step]; unfold lat_change; by rewrite Eps, (Hh y Hy)|]. split; [done|]. split; [done|]. split; [done|].
  split; [done|]. split; [|split].
  - rewrite E2. f_equal. apply set_eq. intros z. rewrite elem_of_union, elem_of_singleton, H1, H2. destruct (decide (z = x)) as [->|Hne].
    + rewrite Edx, elem_of_union, elem_of_singleton, Hc. tauto.
    + rewrite Edz by done. tauto.
  - intros z Hz Hne. destruct (Hk z Hz) as (r & r' & -> & -> & G1 & G2). f_equal. apply set_eq. intros w. rewrite G1, G2.
    destruct (decide (w = x)) as [->|Hw]; [|by rewrite Edz]. rewrite Edx, elem_of_union, elem_of_singleton. tauto.
  - eexists. split; [cbn [lat_step]; unfold lat_change; rewrite Ex, (Hh y Hy); reflexivity|]. intros Hny z.
    unfold lat_parents, cget. cbn [l' lparents]. rewrite !dget_dset. destruct (decide (x = z)) as [<-|Hne]; [|done].
    unfold lat_parents, cget in Eps. destruct (chash x); [|done]. destruct (dget x (lparents l)) as [qs|]; [|done].
    cbn in Eps |- *. injection Eps as ->. f_equal. apply set_eq. intros w. rewrite elem_of_difference, elem_of_union, elem_of_singleton.
    split; [tauto|]. intros Hw. split; [by left|]. by intros ->.
Qed.
Print Assumptions C147_parents.
(** Appending something new to the list of concepts makes it a member without parents, and no children can be found any more. *)
Theorem C147_append c l x : good c → comparable (objs c) = true → comparable (atts c) = true → mk_lattice c = Ok l →
  ¬ is_concept (abs c) x.1 x.2 → chash x = true →
  ∃ l', lat_step l (LAppend x) = (l', Ok tt) ∧ concepts_contains (lconcepts l') x = true ∧
    concepts_len (lconcepts l') = S (concepts_len (lconcepts l)) ∧ lat_parents l' x = Err KeyError ∧
    (∀ z, z ≠ x → lat_parents l' z = lat_parents l z) ∧
    ∀ z, chash z = true → lat_children l' z = Err KeyError.
Proof.
  intros Hg Ho Ha Hl Hx Hhx. destruct (lattice_spec c Hg Ho Ha l Hl) as (_ & _ & Hcs & _ & _ & Hp & Hno).
  assert (∀ z, z ∈ lconcepts l ↔ is_concept (abs c) z.1 z.2) as Hc by (intros [A B]; apply Hcs).
  eexists. split; [reflexivity|]. cbn [lconcepts]. split; [|split; [|split; [|split]]].
  - unfold concepts_contains. rewrite existsb_app. cbn [existsb]. rewrite bool_decide_true by done. by rewrite orb_true_r.
  - unfold concepts_len. rewrite app_length. cbn [length]. lia.
  - change (lat_parents l x = Err KeyError). destruct (Hno x Hx) as [H|H]; [done|]. unfold lat_parents, cget in H. rewrite Hhx in H.
    by destruct (dget x (lparents l)).
  - done.
  - intros z Hz. unfold lat_children. cbn [lconcepts]. apply children_of_err; [done| |].
    + intros w [Hw | Hw%elem_of_list_singleton]%elem_of_app; [|subst w].
      * left. destruct (Hp w (proj1 (Hc w) Hw)) as ((qs & E & _) & _). change (is_ok (lat_parents l w) = true). by rewrite E.
      * right. change (lat_parents l x = Err KeyError). destruct (Hno x Hx) as [H|H]; [done|]. unfold lat_parents, cget in H.
        rewrite Hhx in H. by destruct (dget x (lparents l)).
    + exists x. split; [apply elem_of_app; right; by left|]. change (lat_parents l x = Err KeyError).
      destruct (Hno x Hx) as [H|H]; [done|]. unfold lat_parents, cget in H. rewrite Hhx in H. by destruct (dget x (lparents l)).
Qed.
Print Assumptions C147_append.
(** In a system the change lasts until something is appended or removed: then the parents are the covers again. *)
Theorem C147_system cs l x y : let s := srun (mk_system cs) l in (∀ z, z ∈ sconcepts s → chash z = true) →
  x ∈ sconcepts s → chash y = true →
  ∃ s' ps, sys_add s x y = (s', Ok tt) ∧ (sparents_of s x).2 = Ok ps ∧ (sparents_of s' x).2 = Ok (ps ∪ {[y]}) ∧
    (∀ z, z ∈ sconcepts s → z ≠ x → (sparents_of s' z).2 = (sparents_of s z).2) ∧
    (∀ w z, (sparents_of (sappend s' w) z).2 = (sparents_of (mk_system (sconcepts s ++ [w])) z).2) ∧
    ∀ w z, w ∈ sconcepts s → ∃ k, list_remove w (sconcepts s) = Ok k ∧ (sparents_of (sremove s' w).1 z).2 = (sparents_of (mk_system k) z).2.
Proof.
  intros s Hh Hx Hy. assert (sinv s) as Hs by (apply srun_inv; done).
  destruct (covering_ok _ Hh) as (d & Hd & Hd1 & Hd2).
  assert (∀ z, (sparents_of s z).2 = cget d z) as Hpar by (intros z; rewrite (proj2 (proj2 (sparents_of_step s z Hs))), Hd; done).
  assert (d ≠ []) as Hdne.
  { intros ->. destruct (proj2 (Hd1 x) Hx) as [ps E]. done. }
  assert ((sparents_of s x).1 = CSystem (sconcepts s) (Some d)) as Hst.
  { unfold sparents_of. unfold sinv in Hs. destruct s as [ss [[|p q]|]]; cbn [sparents sconcepts] in *.
    - by rewrite Hd.
    - rewrite Hd in Hs. injection Hs as ->. done.
    - by rewrite Hd. }
  destruct (proj2 (Hd1 x) Hx) as [ps Eps]. pose proof (cget_ok d x ps (Hh x Hx) Eps) as Ex.
  exists (CSystem (sconcepts s) (Some (dset x (ps ∪ {[y]}) d))), ps.
  assert (sys_add s x y = (CSystem (sconcepts s) (Some (dset x (ps ∪ {[y]}) d)), Ok tt)) as Hadd.
  { unfold sys_add. specialize (Hpar x). destruct (sparents_of s x) as [s1 r]. cbn [fst snd] in *. subst r s1. rewrite Ex, Hy. done. }
  assert (∀ z, (sparents_of (CSystem (sconcepts s) (Some (dset x (ps ∪ {[y]}) d))) z).2 = cget (dset x (ps ∪ {[y]}) d) z) as Hnew.
  { intros z. unfold sparents_of. cbn [sparents]. destruct (dset x (ps ∪ {[y]}) d) as [|p q] eqn:E; [|done].
    exfalso. pose proof (keys_dset x (ps ∪ {[y]}) d) as Hk. rewrite E in Hk. destruct d as [|[a b] d]; [done|].
    cbn [map] in Hk. destruct (decide _); discriminate Hk. }
  split; [done|]. split; [by rewrite Hpar|]. split; [|split; [|split]].
  - rewrite Hnew. apply cget_ok; [by apply Hh|]. rewrite dget_dset. by rewrite decide_True.
  - intros z Hz Hne. rewrite Hnew, Hpar. unfold cget. rewrite dget_dset, decide_False by congruence. done.
  - intros w z. done.
  - intros w z Hw. unfold sremove. cbn [sconcepts]. destruct (list_remove_spec w (sconcepts s)) as [_ H].
    destruct (H Hw) as (l1 & l2 & _ & _ & E). rewrite E. eexists. split; [reflexivity|]. done.
Qed.
Print Assumptions C147_system.
Example C147_case : is_ok (mk_lattice ex) = true ∧
  let x : fconcept := ({[o1]}, {[sa; sb]}) in let y : fconcept := ({[o2]}, {[sa; sc]}) in let z : fconcept := ({[o4]}, {[sb]}) in
  lat_parents (lat_run ex_lat [LAdd x y]) x = Ok {[({[o1; o2; o3]}, {[sa]}); y]} ∧
  lat_children (lat_run ex_lat [LAdd x y]) y = Ok {[(∅, {[sa; sb; sc]}); x]} ∧
  lat_children (lat_run ex_lat [LAppend z]) y = Err KeyError ∧
  (sparents_of (sys_add (mk_system [x; y]) x y).1 x).2 = Ok {[y]} ∧
  (sparents_of (sappend (sys_add (mk_system [x; y]) x y).1 z) x).2 = Ok {[z]}.
Proof. split; [by vm_compute|]. intros x y z. repeat split; dec. Qed.
Example C147_case_new : ¬ is_concept (abs ex) {[o4]} {[sb]} ∧ chash ({[o4]}, {[sb]}) = true ∧
  is_concept (abs ex) {[o1]} {[sa; sb]} ∧ is_concept (abs ex) {[o2]} {[sa; sc]}.
Proof. split; [dec|]. split; [dec|]. split; dec. Qed.
