(** * Contexts: abstraction, derivation operators *)
From Verif Require Import Py Spec ContextModel ContextSpec PyFacts SpecFacts.

Lemma elem_of_fI c g m : (g, m) ∈ fI (abs c) ↔ incident c g m.
Proof.
  unfold abs, incident; simpl. rewrite elem_of_list_to_set, elem_of_list_In, in_concat.
  setoid_rewrite <-elem_of_list_In. split.
  - intros (l & Hl & Hin). apply elem_of_lookup_zip_with in Hl as (i & g' & r & -> & Hg & Hr).
    apply elem_of_list_fmap in Hin as ([m' b] & [= <- ->] & Hin).
    apply elem_of_list_filter in Hin as [Hb Hin]. simpl in Hb; subst b.
    apply elem_of_lookup_zip_with in Hin as (j & m'' & b & [= <- <-] & ? & ?).
    exists i, j, r. done.
  - intros (i & j & r & Hg & Hm & Hr & Hb).
    eexists. split.
    + apply elem_of_lookup_zip_with. exists i, g, r. done.
    + apply elem_of_list_fmap. exists (m, true). split; [done|].
      apply elem_of_list_filter. split; [done|].
      apply elem_of_lookup_zip_with. exists j, m, true. done.
Qed.

Lemma abs_fwf c : fwf (abs c).
Proof.
  intros g m (i & j & r & ? & ? & _)%elem_of_fI. simpl.
  rewrite !elem_of_list_to_set. split; by eapply elem_of_list_lookup_2.
Qed.

Lemma cellb_Some c i j b : cellb c i j = Some b ↔ ∃ r, np c !! i = Some r ∧ r !! j = Some b.
Proof. unfold cellb. rewrite bind_Some. done. Qed.

Lemma incident_cell c i j g m :
  distinct c → objs c !! i = Some g → atts c !! j = Some m →
  (g, m) ∈ fI (abs c) ↔ cellb c i j = Some true.
Proof.
  intros [Ho Ha] Hi Hj. rewrite elem_of_fI, cellb_Some. split.
  - intros (i' & j' & r & Hi' & Hj' & Hr & Hb).
    assert (i = i') as <- by (eapply NoDup_lookup; [exact Ho|done|done]).
    assert (j = j') as <- by (eapply NoDup_lookup; [exact Ha|done|done]).
    eauto.
  - intros (r & ? & ?). exists i, j, r. done.
Qed.

Section facts.
  Context (c : context) (Hwf : wf c).

  Lemma np_row_Some i r : np c !! i = Some r → np_row c i = Ok r.
  Proof. intros H. unfold np_row. by rewrite H. Qed.
  Lemma row_exists i : i < length (objs c) → ∃ r, np c !! i = Some r ∧ length r = length (atts c).
  Proof.
    intros Hi. rewrite <-(wf_rows c Hwf) in Hi. apply lookup_lt_is_Some in Hi as [r Hr].
    exists r. split; [done|]. by eapply wf_cols.
  Qed.
  Lemma cellb_exists i j : i < length (objs c) → j < length (atts c) → ∃ b, cellb c i j = Some b.
  Proof.
    intros Hi Hj. destruct (row_exists i Hi) as (r & Hr & Hl).
    rewrite <-Hl in Hj. apply lookup_lt_is_Some in Hj as [b Hb].
    exists b. apply cellb_Some. eauto.
  Qed.
  Lemma cellb_lt i j b : cellb c i j = Some b → i < length (objs c) ∧ j < length (atts c).
  Proof.
    intros (r & Hr & Hb)%cellb_Some. split.
    - rewrite <-(wf_rows c Hwf). by eapply lookup_lt_Some.
    - rewrite <-(wf_cols c Hwf _ _ Hr). by eapply lookup_lt_Some.
  Qed.
  Lemma cell_cellb i j b : cellb c i j = Some b → cell c i j = Ok b.
  Proof. intros (r & Hr & Hb)%cellb_Some. unfold cell. rewrite (np_row_Some _ _ Hr). simpl. by rewrite Hb. Qed.

  Lemma np_col_spec j :
    j < length (atts c) → (np c = [] → ∃ k, npz c = Some k ∧ j < k) →
    ∃ v, np_col c j = Ok v ∧ length v = length (objs c) ∧ ∀ i, v !! i = cellb c i j.
  Proof.
    intros Hj Hz. unfold np_col. destruct (np c) as [|r0 rs] eqn:E.
    - destruct Hz as (k & -> & Hk); [done|].
      rewrite (proj2 (Nat.ltb_lt _ _) Hk). exists []. split; [done|].
      split; [by rewrite <-(wf_rows c Hwf), E|].
      intros i. unfold cellb. rewrite E. by rewrite !lookup_nil.
    - assert (∀ r, r ∈ np c → ∃ b, get_or IndexError (r !! j) = Ok b) as Hall.
      { intros r [i Hi]%elem_of_list_lookup. apply (wf_cols c Hwf) in Hi. rewrite <-Hi in Hj.
        apply lookup_lt_is_Some in Hj as [b Hb]. exists b. by rewrite Hb. }
      rewrite E in Hall. apply mapM_is_ok in Hall as [v Hv].
      exists v. split; [done|]. split.
      + apply mapM_length in Hv. rewrite Hv, <-E. apply wf_rows, Hwf.
      + intros i. unfold cellb. rewrite E.
        destruct ((r0 :: rs) !! i) as [r|] eqn:Er; simpl.
        * destruct (mapM_lookup _ _ _ _ _ Hv Er) as (b & Hb & Hb').
          rewrite Hb. destruct (r !! j); simpl in Hb'; [|done]. congruence.
        * apply lookup_ge_None. apply lookup_ge_None in Er.
          apply mapM_length in Hv. lia.
  Qed.

  Lemma fold_rows_spec rest r0 :
    length r0 = length (atts c) → (∀ i, i ∈ rest → i < length (objs c)) →
    ∃ r, foldl (fun acc i' => r ← acc; r' ← np_row c i'; Ok (zip_with andb r r')) (Ok r0) rest = Ok r
         ∧ length r = length (atts c)
         ∧ ∀ j, r !! j = Some true ↔ r0 !! j = Some true ∧ ∀ i, i ∈ rest → cellb c i j = Some true.
  Proof.
    revert r0; induction rest as [|i rest IH]; intros r0 H0 Hin; simpl.
    - exists r0. split; [done|]. split; [done|]. intros j. set_solver.
    - destruct (row_exists i) as (r' & Hr' & Hl'); [apply Hin; left|].
      rewrite (np_row_Some _ _ Hr'). simpl.
      destruct (IH (zip_with andb r0 r')) as (r & Hf & Hl & Hr).
      + rewrite zip_with_length. lia.
      + intros; apply Hin; by right.
      + exists r. split; [done|]. split; [done|]. intros j. rewrite Hr, lookup_zip_with_Some.
        setoid_rewrite elem_of_cons. setoid_rewrite cellb_Some. split.
        * intros [(x & y & Hxy & Hx & Hy) Hall]. symmetry in Hxy. apply andb_true_iff in Hxy as [-> ->].
          split; [done|]. intros i' [->|?]; eauto.
        * intros [H1 Hall]. split; [|eauto]. destruct (Hall i) as (r'' & ? & ?); [by left|].
          simplify_eq. by exists true, true.
  Qed.

  Lemma oprime_inds_spec inds :
    (∀ i, i ∈ inds → i < length (objs c)) →
    ∃ l, oprime_inds c inds = Ok l ∧ NoDup l ∧
         ∀ j, j ∈ l ↔ j < length (atts c) ∧ ∀ i, i ∈ inds → cellb c i j = Some true.
  Proof.
    intros Hin. destruct inds as [|i rest]; simpl.
    - eexists. split; [done|]. split; [apply NoDup_seq|]. intros j. rewrite elem_of_seq. set_solver by lia.
    - destruct (row_exists i) as (r' & Hr' & Hl'); [apply Hin; left|].
      rewrite (np_row_Some _ _ Hr').
      destruct (fold_rows_spec rest r') as (r & -> & Hl & Hr); [done|intros; apply Hin; by right|].
      simpl. eexists. split; [done|]. split; [apply NoDup_nonzero|]. intros j.
      rewrite elem_of_nonzero, Hr. setoid_rewrite elem_of_cons. setoid_rewrite cellb_Some. split.
      + intros [H1 H2]. split; [rewrite <-Hl'; by eapply lookup_lt_Some|].
        intros i' [->|?]; eauto.
      + intros [H1 H2]. split; [|eauto]. destruct (H2 i) as (r'' & ? & ?); [by left|]. congruence.
  Qed.

  Lemma fold_cols_spec rest v0 :
    length v0 = length (objs c) →
    (∀ j, j ∈ rest → j < length (atts c)) →
    (np c = [] → ∀ j, j ∈ rest → ∃ k, npz c = Some k ∧ j < k) →
    ∃ v, foldl (fun acc i' => r ← acc; r' ← np_col c i'; Ok (zip_with andb r r')) (Ok v0) rest = Ok v
         ∧ length v = length (objs c)
         ∧ ∀ i, v !! i = Some true ↔ v0 !! i = Some true ∧ ∀ j, j ∈ rest → cellb c i j = Some true.
  Proof.
    revert v0; induction rest as [|j rest IH]; intros v0 H0 Hin Hz; simpl.
    - exists v0. split; [done|]. split; [done|]. intros i. set_solver.
    - destruct (np_col_spec j) as (v' & -> & Hl' & Hv'); [apply Hin; left|intros; apply Hz; [done|left]|].
      simpl. destruct (IH (zip_with andb v0 v')) as (v & Hf & Hl & Hv).
      + rewrite zip_with_length. lia.
      + intros; apply Hin; by right.
      + intros; apply Hz; [done|by right].
      + exists v. split; [done|]. split; [done|]. intros i. rewrite Hv, lookup_zip_with_Some.
        setoid_rewrite elem_of_cons. split.
        * intros [(x & y & Hxy & Hx & Hy) Hall]. symmetry in Hxy. apply andb_true_iff in Hxy as [-> ->].
          split; [done|]. intros i' [->|?]; [|eauto]. by rewrite <-Hv'.
        * intros [H1 Hall]. split; [|eauto]. exists true, true. rewrite Hv'. eauto.
  Qed.

  Lemma aprime_inds_spec inds :
    shape_ok c → (∀ j, j ∈ inds → j < length (atts c)) →
    ∃ l, aprime_inds c inds = Ok l ∧ NoDup l ∧
         ∀ i, i ∈ l ↔ i < length (objs c) ∧ ∀ j, j ∈ inds → cellb c i j = Some true.
  Proof.
    intros Hs Hin. destruct inds as [|j rest]; simpl.
    - eexists. split; [done|]. split; [apply NoDup_seq|]. intros i. rewrite elem_of_seq. set_solver by lia.
    - destruct (decide (np c = [] ∧ npz c = None)) as [[Hn Hz]|Hn].
      + unfold np_col. rewrite Hn, Hz.
        assert (length (objs c) = 0) as -> by by rewrite <-(wf_rows c Hwf), Hn.
        eexists; split; [done|]. split; [apply NoDup_seq|]. intros i. rewrite elem_of_seq. lia.
      + assert (np c = [] → ∀ j', j' ∈ j :: rest → ∃ k, npz c = Some k ∧ j' < k) as Hz.
        { intros Hnp j' Hj'. specialize (Hs Hnp). destruct (npz c) as [k|]; [|naive_solver].
          exists k. split; [done|]. apply Hin in Hj'. lia. }
        destruct (np_col_spec j) as (v' & -> & Hl' & Hv'); [apply Hin; left|intros; apply Hz; [done|left]|].
        destruct (fold_cols_spec rest v') as (v & -> & Hl & Hv);
          [done|intros; apply Hin; by right|intros; apply Hz; [done|by right]|].
        simpl. eexists. split; [done|]. split; [apply NoDup_nonzero|]. intros i.
        rewrite elem_of_nonzero, Hv. setoid_rewrite elem_of_cons. split.
        * intros [H1 H2]. split; [rewrite <-Hl'; by eapply lookup_lt_Some|].
          intros i' [->|?]; [|eauto]. by rewrite <-Hv'.
        * intros [H1 H2]. split; [|eauto]. rewrite Hv'. eauto.
  Qed.

  Lemma oind_lt x i : oind c x = Ok i → objs c !! i = Some x.
  Proof. unfold oind. destruct (oidx c !! x) as [i'|] eqn:E; simpl; [|done]. intros [= <-]. by apply wf_oidx_pos. Qed.
  Lemma aind_lt x i : aind c x = Ok i → atts c !! i = Some x.
  Proof. unfold aind. destruct (aidx c !! x) as [i'|] eqn:E; simpl; [|done]. intros [= <-]. by apply wf_aidx_pos. Qed.
  Lemma oind_Ok x : x ∈ objs c → ∃ i, oind c x = Ok i.
  Proof. intros Hx. apply (wf_oidx c Hwf) in Hx as [i Hi]. exists i. unfold oind. by rewrite Hi. Qed.
  Lemma aind_Ok x : x ∈ atts c → ∃ i, aind c x = Ok i.
  Proof. intros Hx. apply (wf_aidx c Hwf) in Hx as [i Hi]. exists i. unfold aind. by rewrite Hi. Qed.
  Lemma oind_Err x e : oind c x = Err e ↔ e = KeyError ∧ x ∉ objs c.
  Proof.
    unfold oind. rewrite <-(wf_oidx c Hwf x). destruct (oidx c !! x); simpl; split.
    - done.
    - intros [_ []]. eauto.
    - intros [= <-]. split; [done|]. by intros [? ?].
    - by intros [-> _].
  Qed.
  Lemma aind_Err x e : aind c x = Err e ↔ e = KeyError ∧ x ∉ atts c.
  Proof.
    unfold aind. rewrite <-(wf_aidx c Hwf x). destruct (aidx c !! x); simpl; split.
    - done.
    - intros [_ []]. eauto.
    - intros [= <-]. split; [done|]. by intros [? ?].
    - by intros [-> _].
  Qed.
  Lemma mapM_oind os : (∀ x, x ∈ os → x ∈ objs c) → ∃ l, mapM (oind c) os = Ok l.
  Proof. intros H. apply mapM_is_ok. intros x Hx. by apply oind_Ok, H. Qed.
  Lemma mapM_aind os : (∀ x, x ∈ os → x ∈ atts c) → ∃ l, mapM (aind c) os = Ok l.
  Proof. intros H. apply mapM_is_ok. intros x Hx. by apply aind_Ok, H. Qed.
  Lemma mapM_oind_Err os : (∃ x, x ∈ os ∧ x ∉ objs c) → mapM (oind c) os = Err KeyError.
  Proof.
    intros (x & Hx & Hn). eapply mapM_first_Err; [done|by apply oind_Err|].
    intros y e' _ He%oind_Err. by destruct He.
  Qed.
  Lemma mapM_aind_Err os : (∃ x, x ∈ os ∧ x ∉ atts c) → mapM (aind c) os = Err KeyError.
  Proof.
    intros (x & Hx & Hn). eapply mapM_first_Err; [done|by apply aind_Err|].
    intros y e' _ He%aind_Err. by destruct He.
  Qed.

  (** Names of a list of valid positions. *)
  Lemma mapM_aname js : (∀ j, j ∈ js → j < length (atts c)) →
    ∃ l, mapM (aname c) js = Ok l ∧ ∀ x, x ∈ l ↔ ∃ j, j ∈ js ∧ atts c !! j = Some x.
  Proof.
    intros H. destruct (mapM_is_ok (aname c) js) as [l Hl].
    - intros j Hj%H. apply lookup_lt_is_Some in Hj as [x Hx]. exists x. unfold aname. by rewrite Hx.
    - exists l. split; [done|]. intros x. rewrite (mapM_elem _ _ _ _ Hl).
      apply exist_proper. intros j. unfold aname.
      destruct (atts c !! j); simpl; naive_solver.
  Qed.
  Lemma mapM_oname js : (∀ j, j ∈ js → j < length (objs c)) →
    ∃ l, mapM (oname c) js = Ok l ∧ ∀ x, x ∈ l ↔ ∃ j, j ∈ js ∧ objs c !! j = Some x.
  Proof.
    intros H. destruct (mapM_is_ok (oname c) js) as [l Hl].
    - intros j Hj%H. apply lookup_lt_is_Some in Hj as [x Hx]. exists x. unfold oname. by rewrite Hx.
    - exists l. split; [done|]. intros x. rewrite (mapM_elem _ _ _ _ Hl).
      apply exist_proper. intros j. unfold oname.
      destruct (objs c !! j); simpl; naive_solver.
  Qed.
End facts.

Section derivation.
  Context (c : context) (Hg : good c).
  Let Hwf := good_wf c Hg.
  Let Hd := good_distinct c Hg.
  Let Hs := good_shape c Hg.

  (** Positions corresponding to a list of names. *)
  Lemma oinds_spec os inds : mapM (oind c) os = Ok inds →
    (∀ i, i ∈ inds → i < length (objs c)) ∧
    (∀ i g, objs c !! i = Some g → i ∈ inds ↔ g ∈ os).
  Proof.
    intros H. split.
    - intros i Hi. apply (mapM_elem _ _ _ _ H) in Hi as (x & Hx & Hi).
      apply oind_lt in Hi; [|done]. by eapply lookup_lt_Some.
    - intros i g Hg'. rewrite (mapM_elem _ _ _ _ H). split.
      + intros (x & Hx & Hi). apply oind_lt in Hi; [|done]. congruence.
      + intros Hin. exists g. split; [done|].
        destruct (oind_Ok c Hwf g) as [i' Hi']; [by eapply elem_of_list_lookup_2|].
        rewrite Hi'. f_equal. apply oind_lt in Hi'; [|done].
        eapply (NoDup_lookup _ _ _ g); [exact (proj1 Hd)|eassumption|eassumption].
  Qed.
  Lemma ainds_spec os inds : mapM (aind c) os = Ok inds →
    (∀ i, i ∈ inds → i < length (atts c)) ∧
    (∀ i g, atts c !! i = Some g → i ∈ inds ↔ g ∈ os).
  Proof.
    intros H. split.
    - intros i Hi. apply (mapM_elem _ _ _ _ H) in Hi as (x & Hx & Hi).
      apply aind_lt in Hi; [|done]. by eapply lookup_lt_Some.
    - intros i g Hg'. rewrite (mapM_elem _ _ _ _ H). split.
      + intros (x & Hx & Hi). apply aind_lt in Hi; [|done]. congruence.
      + intros Hin. exists g. split; [done|].
        destruct (aind_Ok c Hwf g) as [i' Hi']; [by eapply elem_of_list_lookup_2|].
        rewrite Hi'. f_equal. apply aind_lt in Hi'; [|done].
        eapply (NoDup_lookup _ _ _ g); [exact (proj2 Hd)|eassumption|eassumption].
  Qed.

  (** A list of positions denotes a set of names. *)
  Definition denotes (names : list name) (l : list nat) (X : gset name) : Prop :=
    (∀ i, i ∈ l → i < length names) ∧
    (∀ i x, names !! i = Some x → i ∈ l ↔ x ∈ X) ∧ (∀ x, x ∈ X → x ∈ names).

  Lemma denotes_onames l X : denotes (objs c) l X →
    ∃ k, mapM (oname c) l = Ok k ∧ (list_to_set k : gset name) = X.
  Proof.
    intros (H1 & H2 & H3). destruct (mapM_oname c l) as (k & Hk & Hkx); [done|].
    exists k. split; [done|]. apply set_eq. intros x. rewrite elem_of_list_to_set, Hkx. split.
    - intros (j & Hj & Hx). by eapply H2.
    - intros Hx. destruct (proj1 (elem_of_list_lookup _ _) (H3 _ Hx)) as [i Hi].
      exists i. split; [|done]. by eapply H2.
  Qed.
  Lemma denotes_anames l X : denotes (atts c) l X →
    ∃ k, mapM (aname c) l = Ok k ∧ (list_to_set k : gset name) = X.
  Proof.
    intros (H1 & H2 & H3). destruct (mapM_aname c l) as (k & Hk & Hkx); [done|].
    exists k. split; [done|]. apply set_eq. intros x. rewrite elem_of_list_to_set, Hkx. split.
    - intros (j & Hj & Hx). by eapply H2.
    - intros Hx. destruct (proj1 (elem_of_list_lookup _ _) (H3 _ Hx)) as [i Hi].
      exists i. split; [|done]. by eapply H2.
  Qed.
  Lemma denotes_oinds os : (∀ x, x ∈ os → x ∈ objs c) →
    ∃ l, mapM (oind c) os = Ok l ∧ denotes (objs c) l (list_to_set os).
  Proof.
    intros H. destruct (mapM_oind c Hwf os H) as [l Hl]. exists l. split; [done|].
    destruct (oinds_spec _ _ Hl) as [H1 H2]. split; [done|]. split.
    - intros i x Hx. rewrite elem_of_list_to_set. by apply H2.
    - intros x. rewrite elem_of_list_to_set. auto.
  Qed.
  Lemma denotes_ainds os : (∀ x, x ∈ os → x ∈ atts c) →
    ∃ l, mapM (aind c) os = Ok l ∧ denotes (atts c) l (list_to_set os).
  Proof.
    intros H. destruct (mapM_aind c Hwf os H) as [l Hl]. exists l. split; [done|].
    destruct (ainds_spec _ _ Hl) as [H1 H2]. split; [done|]. split.
    - intros i x Hx. rewrite elem_of_list_to_set. by apply H2.
    - intros x. rewrite elem_of_list_to_set. auto.
  Qed.

  Lemma oprime_inds_denotes l X : denotes (objs c) l X →
    ∃ l', oprime_inds c l = Ok l' ∧ NoDup l' ∧ denotes (atts c) l' (up (abs c) X).
  Proof.
    intros (H1 & H2 & H3). destruct (oprime_inds_spec c Hwf l H1) as (l' & Hl' & Hnd & Hj).
    exists l'. split; [done|]. split; [done|]. split; [|split].
    - intros j Hj'. by apply Hj.
    - intros j m Hm. rewrite Hj, elem_of_up. split.
      + intros [_ H]. split; [simpl; rewrite elem_of_list_to_set; by eapply elem_of_list_lookup_2|].
        intros g HgX. destruct (proj1 (elem_of_list_lookup _ _) (H3 _ HgX)) as [i Hi].
        apply (incident_cell c i j g m); [done..|]. apply H. by apply (H2 i g).
      + intros [_ H]. split; [by eapply lookup_lt_Some|].
        intros i Hi. destruct (proj2 (lookup_lt_is_Some _ _) (H1 _ Hi)) as [g Hgi].
        apply (incident_cell c i j g m); [done..|]. apply H. by apply (H2 i g).
    - intros m [Hm _]%elem_of_up. by apply elem_of_list_to_set in Hm.
  Qed.
  Lemma aprime_inds_denotes l X : denotes (atts c) l X →
    ∃ l', aprime_inds c l = Ok l' ∧ NoDup l' ∧ denotes (objs c) l' (down (abs c) X).
  Proof.
    intros (H1 & H2 & H3). destruct (aprime_inds_spec c Hwf l Hs H1) as (l' & Hl' & Hnd & Hj).
    exists l'. split; [done|]. split; [done|]. split; [|split].
    - intros j Hj'. by apply Hj.
    - intros j m Hm. rewrite Hj, elem_of_down. split.
      + intros [_ H]. split; [simpl; rewrite elem_of_list_to_set; by eapply elem_of_list_lookup_2|].
        intros g HgX. destruct (proj1 (elem_of_list_lookup _ _) (H3 _ HgX)) as [i Hi].
        apply (incident_cell c j i m g); [done..|]. apply H. by apply (H2 i g).
      + intros [_ H]. split; [by eapply lookup_lt_Some|].
        intros i Hi. destruct (proj2 (lookup_lt_is_Some _ _) (H1 _ Hi)) as [g Hgi].
        apply (incident_cell c j i m g); [done..|]. apply H. by apply (H2 i g).
    - intros m [Hm _]%elem_of_down. by apply elem_of_list_to_set in Hm.
  Qed.

  Lemma oprime_spec os : (∀ x, x ∈ os → x ∈ objs c) →
    oprime c os = Ok (up (abs c) (list_to_set os)).
  Proof.
    intros H. unfold oprime. destruct (denotes_oinds os H) as (l & -> & Hl). simpl.
    destruct (oprime_inds_denotes l _ Hl) as (l' & -> & _ & Hl'). simpl.
    destruct (denotes_anames _ _ Hl') as (k & -> & Hk). simpl. by rewrite Hk.
  Qed.
  Lemma aprime_spec os : (∀ x, x ∈ os → x ∈ atts c) →
    aprime c os = Ok (down (abs c) (list_to_set os)).
  Proof.
    intros H. unfold aprime. destruct (denotes_ainds os H) as (l & -> & Hl). simpl.
    destruct (aprime_inds_denotes l _ Hl) as (l' & -> & _ & Hl'). simpl.
    destruct (denotes_onames _ _ Hl') as (k & -> & Hk). simpl. by rewrite Hk.
  Qed.
  Lemma oclosure_spec os : (∀ x, x ∈ os → x ∈ objs c) →
    oclosure c os = Ok (ocl (abs c) (list_to_set os)).
  Proof.
    intros H. unfold oclosure, oclosure_inds. destruct (denotes_oinds os H) as (l & -> & Hl). simpl.
    destruct (oprime_inds_denotes l _ Hl) as (l' & -> & _ & Hl'). simpl.
    destruct (aprime_inds_denotes l' _ Hl') as (l'' & -> & _ & Hl''). simpl.
    destruct (denotes_onames _ _ Hl'') as (k & -> & Hk). simpl. by rewrite Hk.
  Qed.
  Lemma aclosure_spec os : (∀ x, x ∈ os → x ∈ atts c) →
    aclosure c os = Ok (acl (abs c) (list_to_set os)).
  Proof.
    intros H. unfold aclosure, aclosure_inds. destruct (denotes_ainds os H) as (l & -> & Hl). simpl.
    destruct (aprime_inds_denotes l _ Hl) as (l' & -> & _ & Hl'). simpl.
    destruct (oprime_inds_denotes l' _ Hl') as (l'' & -> & _ & Hl''). simpl.
    destruct (denotes_anames _ _ Hl'') as (k & -> & Hk). simpl. by rewrite Hk.
  Qed.
  Lemma oprime_KeyError os : (∃ x, x ∈ os ∧ x ∉ objs c) → oprime c os = Err KeyError.
  Proof. intros H. unfold oprime. by rewrite mapM_oind_Err. Qed.
  Lemma aprime_KeyError os : (∃ x, x ∈ os ∧ x ∉ atts c) → aprime c os = Err KeyError.
  Proof. intros H. unfold aprime. by rewrite mapM_aind_Err. Qed.
  Lemma oclosure_KeyError os : (∃ x, x ∈ os ∧ x ∉ objs c) → oclosure c os = Err KeyError.
  Proof. intros H. unfold oclosure. by rewrite mapM_oind_Err. Qed.
  Lemma aclosure_KeyError os : (∃ x, x ∈ os ∧ x ∉ atts c) → aclosure c os = Err KeyError.
  Proof. intros H. unfold aclosure. by rewrite mapM_aind_Err. Qed.

  (** Rows and columns read as sets. *)
  Lemma get_object_intent_by_index_spec i g : objs c !! i = Some g →
    get_object_intent_by_index c i = Ok (up (abs c) {[ g ]}).
  Proof.
    intros Hi. assert (i < length (objs c)) as Hlt by by eapply lookup_lt_Some.
    destruct (row_exists c Hwf i Hlt) as (r & Hr & Hl).
    unfold get_object_intent_by_index. rewrite (np_row_Some c _ _ Hr). simpl.
    destruct (denotes_anames (nonzero r) (up (abs c) {[ g ]})) as (k & -> & Hk);
      [|simpl; by rewrite Hk].
    assert (∀ j, j ∈ nonzero r ↔ cellb c i j = Some true) as Hnz.
    { intros j. rewrite elem_of_nonzero, cellb_Some. naive_solver. }
    split; [|split].
    - intros j Hj%Hnz. by eapply cellb_lt.
    - intros j m Hm. rewrite Hnz, elem_of_up. rewrite <-(incident_cell c i j g m) by done.
      split; [|set_solver]. intros H. split; [|set_solver].
      simpl; rewrite elem_of_list_to_set; by eapply elem_of_list_lookup_2.
    - intros m [Hm _]%elem_of_up. by apply elem_of_list_to_set in Hm.
  Qed.
  Lemma get_object_intent_spec g : g ∈ objs c →
    get_object_intent c g = Ok (up (abs c) {[ g ]}).
  Proof.
    intros [i Hi]%(oind_Ok c Hwf). unfold get_object_intent. rewrite Hi. simpl.
    apply get_object_intent_by_index_spec. by apply oind_lt.
  Qed.
  Lemma get_attribute_extent_by_index_spec j m : np c ≠ [] → atts c !! j = Some m →
    get_attribute_extent_by_index c j = Ok (down (abs c) {[ m ]}).
  Proof.
    intros Hne Hj. assert (j < length (atts c)) as Hlt by by eapply lookup_lt_Some.
    destruct (np_col_spec c Hwf j Hlt) as (v & Hv & Hl & Hvi); [done|].
    unfold get_attribute_extent_by_index. rewrite Hv. simpl.
    destruct (denotes_onames (nonzero v) (down (abs c) {[ m ]})) as (k & -> & Hk);
      [|simpl; by rewrite Hk].
    assert (∀ i, i ∈ nonzero v ↔ cellb c i j = Some true) as Hnz.
    { intros i. by rewrite elem_of_nonzero, Hvi. }
    split; [|split].
    - intros i Hi%Hnz. by eapply cellb_lt.
    - intros i g Hi. rewrite Hnz, elem_of_down. rewrite <-(incident_cell c i j g m) by done.
      split; [|set_solver]. intros H. split; [|set_solver].
      simpl; rewrite elem_of_list_to_set; by eapply elem_of_list_lookup_2.
    - intros g [Hg' _]%elem_of_down. by apply elem_of_list_to_set in Hg'.
  Qed.
  Lemma get_attribute_extent_spec m : np c ≠ [] → m ∈ atts c →
    get_attribute_extent c m = Ok (down (abs c) {[ m ]}).
  Proof.
    intros Hne [i Hi]%(aind_Ok c Hwf). unfold get_attribute_extent. rewrite Hi. simpl.
    apply get_attribute_extent_by_index_spec; [done|]. by apply aind_lt.
  Qed.
End derivation.
