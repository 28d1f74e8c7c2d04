(** * Non-mutating operations on contexts *)
From Verif Require Import Py Spec ContextModel ContextSpec ContextOps PyFacts SpecFacts ContextFacts ContextInit ContextMut ContextEffects.

Lemma abs_eq c d :
  (list_to_set (objs c) : gset name) = list_to_set (objs d) →
  (list_to_set (atts c) : gset name) = list_to_set (atts d) →
  (∀ g m, incident c g m ↔ incident d g m) → abs c = abs d.
Proof.
  intros Ho Ha Hi. unfold abs. f_equal; [done|done|].
  apply set_eq. intros [g m]. apply (iff_trans (elem_of_fI c g m)).
  symmetry. apply (iff_trans (elem_of_fI d g m)). symmetry. apply Hi.
Qed.

Global Instance incident_dec c g m : Decision (incident c g m).
Proof.
  destruct (decide ((g, m) ∈ fI (abs c))) as [H|H]; [left; by apply elem_of_fI|right].
  intros H'. by apply H, elem_of_fI.
Defined.

(** ** Values *)
Lemma get_value_spec c g m :
  wf c → distinct c → g ∈ objs c → m ∈ atts c →
  ∃ b, get_value c g m = Ok b ∧ (b = true ↔ incident c g m).
Proof.
  intros Hwf Hd Hg Hm. unfold get_value.
  destruct (py_index_Some g (objs c) Hg) as [i Hi]. rewrite Hi. simpl.
  destruct (py_index_Some m (atts c) Hm) as [j Hj]. rewrite Hj. simpl.
  apply py_index_Ok in Hi, Hj.
  destruct (cellb_exists c Hwf i j) as [b Hb]; [by eapply lookup_lt_Some..|].
  exists b. split; [by apply cell_cellb|].
  rewrite <-elem_of_fI, (incident_cell c i j g m) by done. rewrite Hb. naive_solver.
Qed.
Lemma get_value_unknown c g m : g ∉ objs c ∨ m ∉ atts c → get_value c g m = Err ValueError.
Proof.
  intros H. unfold get_value. destruct (decide (g ∈ objs c)) as [Hg|Hg].
  - destruct H as [H|Hm]; [done|]. destruct (py_index_Some g (objs c) Hg) as [i ->]. simpl.
    by rewrite py_index_Err.
  - by rewrite (py_index_Err g).
Qed.

(** ** Pairs *)
Lemma elem_of_cells (t : list (list bool)) i j :
  (i, j) ∈ concat (imap (fun i r => map (fun j => (i, j)) (nonzero r)) t) ↔
  ∃ r, t !! i = Some r ∧ r !! j = Some true.
Proof.
  rewrite elem_of_list_In, in_concat. setoid_rewrite <-elem_of_list_In. split.
  - intros (l & Hl & Hin). apply elem_of_lookup_imap in Hl as (k & r & -> & Hr).
    apply elem_of_list_fmap in Hin as (j' & [= -> ->] & Hj). exists r. by rewrite <-elem_of_nonzero.
  - intros (r & Hr & Hb). exists (map (λ j, (i, j)) (nonzero r)). split.
    + apply elem_of_lookup_imap. eauto.
    + apply elem_of_list_fmap. exists j. by rewrite elem_of_nonzero.
Qed.
Lemma NoDup_cells (t : list (list bool)) k :
  NoDup (concat (imap (fun i r => map (fun j => (k + i, j)) (nonzero r)) t)).
Proof.
  revert k; induction t as [|r t IH]; intros k; simpl; [constructor|].
  apply NoDup_app. split; [|split].
  - apply NoDup_fmap_2; [|apply NoDup_nonzero]. by intros ? ? [= ->].
  - intros [a b] Hp Hp'. apply elem_of_list_fmap in Hp as (j & [= -> ->] & _).
    apply elem_of_list_In, in_concat in Hp' as (l & Hl & Hin).
    apply elem_of_list_In, elem_of_lookup_imap in Hl as (i & y & -> & Hy).
    apply elem_of_list_In, elem_of_list_fmap in Hin as (j' & [= Heq ->] & _). lia.
  - rewrite (imap_ext _ (λ i r, map (λ j, (S k + i, j)) (nonzero r))); [apply IH|].
    intros i x _. simpl. apply list_fmap_ext. intros _ j _. f_equal. lia.
Qed.

Lemma pairs_spec c :
  wf c → distinct c →
  ∃ l, get_object_attribute_pairs c = Ok l ∧ NoDup l ∧ ∀ g m, (g, m) ∈ l ↔ incident c g m.
Proof.
  intros Hwf Hd. unfold get_object_attribute_pairs.
  set (cells := concat _).
  assert (∀ p, p ∈ cells → ∃ g m, objs c !! p.1 = Some g ∧ atts c !! p.2 = Some m ∧ cellb c p.1 p.2 = Some true) as Hc.
  { intros [i j] Hp. apply elem_of_cells in Hp as (r & Hr & Hb). simpl.
    destruct (cellb_lt c Hwf i j true) as [Hi Hj]; [apply cellb_Some; eauto|].
    apply lookup_lt_is_Some in Hi as [g Hg]. apply lookup_lt_is_Some in Hj as [m Hm].
    exists g, m. split; [done|]. split; [done|]. apply cellb_Some. eauto. }
  destruct (mapM_is_ok (λ p, o ← oname c p.1; a ← aname c p.2; Ok (o, a)) cells) as [l Hl].
  { intros p (g & m & Hg & Hm & _)%Hc. exists (g, m). unfold oname, aname. by rewrite Hg, Hm. }
  assert (∀ p q, p ∈ cells → (o ← oname c p.1; a ← aname c p.2; Ok (o, a)) = Ok q ↔ objs c !! p.1 = Some q.1 ∧ atts c !! p.2 = Some q.2) as Hq.
  { intros p [g m] (g' & m' & Hg & Hm & _)%Hc. unfold oname, aname. rewrite Hg, Hm. simpl. naive_solver. }
  exists l. split; [done|]. split.
  - apply NoDup_alt. intros a b q Ha Hb.
    destruct (mapM_lookup_r _ _ _ _ _ Hl Ha) as (pa & Hpa & Hqa).
    destruct (mapM_lookup_r _ _ _ _ _ Hl Hb) as (pb & Hpb & Hqb).
    apply Hq in Hqa as [Ha1 Ha2]; [|by eapply elem_of_list_lookup_2].
    apply Hq in Hqb as [Hb1 Hb2]; [|by eapply elem_of_list_lookup_2].
    destruct Hd as [Hdo Hda].
    assert (pa = pb) as <-.
    { destruct pa as [x y], pb as [x' y']; simpl in *. f_equal.
      - eapply (NoDup_lookup (objs c)); done.
      - eapply (NoDup_lookup (atts c)); done. }
    eapply (NoDup_lookup cells); [|done|done]. apply (NoDup_cells (np c) 0).
  - intros g m. rewrite (mapM_elem _ _ _ _ Hl). split.
    + intros (p & Hp & Hpq). pose proof (Hc p Hp) as (g' & m' & Hg & Hm & Hb).
      apply Hq in Hpq as [H1 H2]; [|done]. simpl in *. rewrite <-elem_of_fI.
      by eapply (incident_cell c p.1 p.2 g m).
    + intros (i & j & r & Hi & Hj & Hr & Hb). assert ((i, j) ∈ cells) as Hin.
      { apply elem_of_cells. eauto. }
      exists (i, j). split; [done|]. apply Hq; done.
Qed.

(** ** Transposition *)
Lemma transpose_cell c t :
  mapM (fun j => mapM (fun i => cell c i j) (seq 0 (length (objs c)))) (seq 0 (length (atts c))) = Ok t →
  ∀ j r, t !! j = Some r → length r = length (objs c) ∧ ∀ i b, r !! i = Some b → cell c i j = Ok b.
Proof.
  intros Ht j r Hr. destruct (mapM_lookup_r _ _ _ _ _ Ht Hr) as (j' & [-> _]%lookup_seq & Hj). simpl in Hj.
  split; [apply mapM_length in Hj; by rewrite seq_length in Hj|].
  intros i b Hb. destruct (mapM_lookup_r _ _ _ _ _ Hj Hb) as (i' & [-> _]%lookup_seq & ?). done.
Qed.
Lemma cell_Ok c i j b : cell c i j = Ok b ↔ cellb c i j = Some b.
Proof.
  split; [|apply cell_cellb]. unfold cell, cellb, np_row.
  destruct (np c !! i) as [r|]; simpl; [|done]. destruct (r !! j); simpl; [|done]. by intros [= ->].
Qed.

Lemma transpose_table c : wf c →
  ∃ t, mapM (fun j => mapM (fun i => cell c i j) (seq 0 (length (objs c)))) (seq 0 (length (atts c))) = Ok t
    ∧ length t = length (atts c) ∧ (∀ r, r ∈ t → length r = length (objs c)).
Proof.
  intros Hwf.
  edestruct (mapM_is_ok (fun j => mapM (fun i => cell c i j) (seq 0 (length (objs c)))) (seq 0 (length (atts c)))) as [t Ht].
  { intros j [_ Hj]%elem_of_seq. apply mapM_is_ok. intros i [_ Hi]%elem_of_seq.
    destruct (cellb_exists c Hwf i j) as [b Hb]; [lia..|]. exists b. by apply cell_cellb. }
  exists t. split; [done|]. split; [apply mapM_length in Ht; by rewrite seq_length in Ht|].
  intros r [j Hj]%elem_of_list_lookup. by eapply transpose_cell.
Qed.

Lemma transpose_spec c : wf c → distinct c →
  ∃ c', transpose c = Ok c' ∧ good c' ∧ objs c' = atts c ∧ atts c' = objs c ∧
    (∀ i j, cellb c' j i = cellb c i j) ∧
    ∀ g m, incident c' m g ↔ incident c g m.
Proof.
  intros Hwf Hd. pose proof Hd as [Hdo Hda]. unfold transpose.
  destruct (transpose_table c Hwf) as (t & Ht & Htl & Htr). rewrite Ht. cbn [mbind res_bind].
  destruct (mk_context_ok t None (atts c) (objs c) Htl Htr) as [c' Hc'].
  exists c'. split; [done|].
  pose proof Hc' as (Hg & Ho' & Ha' & Hn')%mk_context_good; [|done..].
  assert (∀ i j, cellb c' j i = cellb c i j) as Hcell.
  { intros i j. destruct (cellb c' j i) as [b|] eqn:E.
    - apply cellb_Some in E as (r & Hr & Hb). rewrite Hn' in Hr. symmetry.
      apply cell_Ok. by eapply transpose_cell.
    - destruct (cellb c i j) as [b|] eqn:E'; [|done]. exfalso.
      apply (cellb_lt c Hwf) in E' as [Hi Hj].
      destruct (cellb_exists c' (good_wf _ Hg) j i) as [b' Hb']; [rewrite Ho'; lia|rewrite Ha'; lia|].
      congruence. }
  split; [done|]. split; [done|]. split; [done|]. split; [done|].
  intros g m. rewrite <-!elem_of_fI. split.
  - intros H. pose proof (proj1 (elem_of_fI _ _ _) H) as (j & i & r & Hj & Hi & _).
    apply (incident_cell c i j g m); [done|congruence|congruence|].
    rewrite <-Hcell. by apply (incident_cell c' j i m g); [apply Hg| | |].
  - intros H. pose proof (proj1 (elem_of_fI _ _ _) H) as (i & j & r & Hi & Hj & _).
    apply (incident_cell c' j i m g); [apply Hg|congruence|congruence|].
    rewrite Hcell. by apply (incident_cell c i j g m).
Qed.
Lemma transpose_abs c c' : wf c → distinct c → transpose c = Ok c' → abs c' = ftrans (abs c).
Proof.
  intros Hwf Hd Hc'. destruct (transpose_spec c Hwf Hd) as (c'' & E & _ & Ho & Ha & _ & Hinc).
  rewrite E in Hc'. injection Hc' as <-.
  assert (fI (abs c'') = fI (ftrans (abs c))) as HI.
  { apply set_eq. intros [m g].
    apply (iff_trans (elem_of_fI c'' m g)). rewrite Hinc, <-elem_of_fI. symmetry. apply ftrans_fI. }
  destruct (abs c'') as [G M I] eqn:Ec. simpl in HI. subst I.
  unfold abs in Ec. rewrite Ho, Ha in Ec. injection Ec as <- <- _. done.
Qed.
Lemma table_eq (c d : context) : wf c → wf d → length (objs c) = length (objs d) →
  length (atts c) = length (atts d) → (∀ i j, cellb c i j = cellb d i j) → np c = np d.
Proof.
  intros Hc Hd Ho Ha H. apply list_eq. intros i.
  destruct (decide (i < length (objs c))) as [Hi|Hi].
  - destruct (row_exists c Hc i Hi) as (r & Hr & Hrl).
    destruct (row_exists d Hd i) as (r' & Hr' & Hrl'); [lia|].
    rewrite Hr, Hr'. f_equal. apply list_eq. intros j. specialize (H i j). unfold cellb in H.
    by rewrite Hr, Hr' in H.
  - rewrite !lookup_ge_None_2; [done| |]; rewrite wf_rows; (done || lia).
Qed.
Lemma transpose_twice c : wf c → distinct c →
  ∃ c' c'', transpose c = Ok c' ∧ transpose c' = Ok c'' ∧
    objs c'' = objs c ∧ atts c'' = atts c ∧ np c'' = np c.
Proof.
  intros Hwf Hd. destruct (transpose_spec c Hwf Hd) as (c' & Hc' & Hg' & Ho' & Ha' & Hcell' & _).
  destruct (transpose_spec c') as (c'' & Hc'' & Hg'' & Ho'' & Ha'' & Hcell'' & _); [apply Hg'|apply Hg'|].
  exists c', c''. split; [done|]. split; [done|]. split; [congruence|]. split; [congruence|].
  apply table_eq; [apply Hg''|done|congruence|congruence|].
  intros i j. by rewrite Hcell'', Hcell'.
Qed.

(** ** Subcontexts *)
Lemma check_names_ok c ns : (∀ a, a ∈ ns → a ∈ atts c) → check_attribute_names c ns = Ok tt.
Proof.
  intros H. unfold check_attribute_names. rewrite bool_decide_eq_true_2; [done|].
  intros a. rewrite !elem_of_list_to_set. apply H.
Qed.
Lemma check_names_err c ns a : a ∈ ns → a ∉ atts c → check_attribute_names c ns = Err ValueError.
Proof.
  intros H1 H2. unfold check_attribute_names. rewrite bool_decide_eq_false_2; [done|].
  intros H. apply H2. specialize (H a). rewrite !elem_of_list_to_set in H. auto.
Qed.

Lemma extract_subcontext_spec c ns :
  wf c → distinct c → NoDup ns → (∀ a, a ∈ ns → a ∈ atts c) →
  ∃ c', extract_subcontext c ns = Ok c' ∧ good c' ∧ objs c' = objs c ∧ atts c' = ns ∧
    ∀ g m, incident c' g m ↔ m ∈ ns ∧ incident c g m.
Proof.
  intros Hwf Hd Hns Hin. pose proof Hd as [Hdo Hda]. unfold extract_subcontext, extract_subtable.
  rewrite check_names_ok by done. simpl.
  destruct (mapM_is_ok (λ a, py_index a (atts c)) ns) as [inds Hinds].
  { intros a Ha%Hin. by apply py_index_Some. }
  rewrite Hinds. simpl.
  assert (∀ k a j, ns !! k = Some a → inds !! k = Some j → atts c !! j = Some a) as Hk.
  { intros k a j Ha Hj. destruct (mapM_lookup _ _ _ _ _ Hinds Ha) as (j' & Hj' & Hi).
    apply py_index_Ok in Hi. congruence. }
  assert (length inds = length ns) as Hil by (by apply mapM_length in Hinds).
  edestruct (mapM_is_ok (fun i => mapM (fun j => cell c i j) inds) (seq 0 (length (np c)))) as [t Ht].
  { intros i [_ Hi]%elem_of_seq. apply mapM_is_ok. intros j [k Hj]%elem_of_list_lookup.
    destruct (lookup_lt_is_Some_2 ns k) as [a Ha]; [rewrite <-Hil; by eapply lookup_lt_Some|].
    destruct (cellb_exists c Hwf i j) as [b Hb].
    - rewrite <-(wf_rows c Hwf). lia.
    - specialize (Hk k a j Ha Hj). by eapply lookup_lt_Some.
    - exists b. by apply cell_cellb. }
  rewrite Ht. simpl.
  assert (length t = length (objs c)) as Htl.
  { apply mapM_length in Ht. rewrite seq_length in Ht. by rewrite Ht, (wf_rows c Hwf). }
  assert (∀ i r, t !! i = Some r → mapM (λ j, cell c i j) inds = Ok r) as Htr.
  { intros i r Hr. destruct (mapM_lookup_r _ _ _ _ _ Ht Hr) as (i' & [-> _]%lookup_seq & H). done. }
  destruct (mk_context_ok t None (objs c) ns) as [c' Hc']; [done| |].
  { intros r [i Hi]%elem_of_list_lookup. apply Htr, mapM_length in Hi. lia. }
  exists c'. split; [done|].
  pose proof Hc' as (Hg & Ho' & Ha' & Hn')%mk_context_good; [|done..].
  split; [done|]. split; [done|]. split; [done|].
  intros g m. unfold incident. rewrite Ho', Ha', Hn'. split.
  - intros (i & k & r & Hi & Hm & Hr & Hb). split; [by eapply elem_of_list_lookup_2|].
    apply Htr in Hr. destruct (mapM_lookup_r _ _ _ _ _ Hr Hb) as (j & Hj & Hc).
    apply cell_Ok, cellb_Some in Hc as (r' & Hr' & Hb'). exists i, j, r'.
    split; [done|]. split; [by eapply Hk|]. done.
  - intros [Hm (i & j & r & Hi & Hj & Hr & Hb)].
    apply elem_of_list_lookup in Hm as [k Hm].
    destruct (lookup_lt_is_Some_2 inds k) as [j' Hj']; [rewrite Hil; by eapply lookup_lt_Some|].
    pose proof (Hk k m j' Hm Hj') as Hj''.
    assert (j = j') as <- by (eapply (NoDup_lookup (atts c)); done).
    destruct (lookup_lt_is_Some_2 t i) as [r' Hr']; [rewrite Htl; by eapply lookup_lt_Some|].
    exists i, k, r'. split; [done|]. split; [done|]. split; [done|].
    apply Htr in Hr'. destruct (mapM_lookup _ _ _ _ _ Hr' Hj') as (b & Hb' & Hc).
    apply cell_Ok, cellb_Some in Hc as (r'' & ? & ?). congruence.
Qed.
Lemma extract_subcontext_err c ns a :
  a ∈ ns → a ∉ atts c → extract_subcontext c ns = Err ValueError.
Proof.
  intros H1 H2. unfold extract_subcontext, extract_subtable.
  by rewrite (check_names_err c ns a H1 H2).
Qed.

Lemma filterM_spec (f : nat → res bool) (p : nat → bool) l :
  (∀ i, i ∈ l → f i = Ok (p i)) → filterM f l = Ok (List.filter p l).
Proof.
  induction l as [|i l IH]; intros H; [done|]. simpl. rewrite (H i) by left. simpl.
  rewrite IH by (intros; apply H; by right). simpl. by destruct (p i).
Qed.

Lemma has_values_spec c i ns : wf c → distinct c → i < length (objs c) → (∀ a, a ∈ ns → a ∈ atts c) →
  ∃ b, has_values c i ns = Ok b ∧ (b = true ↔ ∀ a, a ∈ ns → ∃ j, atts c !! j = Some a ∧ cellb c i j = Some true).
Proof.
  intros Hwf [Hdo Hda] Hi. induction ns as [|a ns IH]; intros Hin; simpl.
  - exists true. split; [done|]. split; [|done]. intros _ a ?%elem_of_nil. done.
  - destruct (py_index_Some a (atts c)) as [j Hj]; [apply Hin; left|]. rewrite Hj. simpl.
    apply py_index_Ok in Hj.
    destruct (cellb_exists c Hwf i j Hi) as [b Hb]; [by eapply lookup_lt_Some|].
    rewrite (cell_cellb c i j b Hb). simpl. destruct b.
    + destruct IH as (b & -> & Hb'); [intros; apply Hin; by right|]. exists b. split; [done|].
      rewrite Hb'. split.
      * intros H a' [->|Ha']%elem_of_cons; [eauto|auto].
      * intros H a' Ha'. apply H. by right.
    + exists false. split; [done|]. split; [done|]. intros H.
      destruct (H a) as (j' & Hj' & Hc); [left|].
      assert (j = j') as <- by (eapply (NoDup_lookup (atts c)); done). congruence.
Qed.
Lemma has_at_least_one_value_spec c i ns : wf c → distinct c → i < length (objs c) → (∀ a, a ∈ ns → a ∈ atts c) →
  ∃ b, has_at_least_one_value c i ns = Ok b ∧ (b = true ↔ ∃ a, a ∈ ns ∧ ∃ j, atts c !! j = Some a ∧ cellb c i j = Some true).
Proof.
  intros Hwf [Hdo Hda] Hi. induction ns as [|a ns IH]; intros Hin; simpl.
  - exists false. split; [done|]. split; [done|]. intros (a & ?%elem_of_nil & _). done.
  - destruct (py_index_Some a (atts c)) as [j Hj]; [apply Hin; left|]. rewrite Hj. simpl.
    apply py_index_Ok in Hj.
    destruct (cellb_exists c Hwf i j Hi) as [b Hb]; [by eapply lookup_lt_Some|].
    rewrite (cell_cellb c i j b Hb). simpl. destruct b.
    + exists true. split; [done|]. split; [|done]. intros _. exists a. split; [left|eauto].
    + destruct IH as (b & -> & Hb'); [intros; apply Hin; by right|]. exists b. split; [done|].
      rewrite Hb'. split.
      * intros (a' & Ha' & H). exists a'. split; [by right|done].
      * intros (a' & [->|Ha']%elem_of_cons & j' & Hj' & Hc); [|eauto].
        assert (j = j') as <- by (eapply (NoDup_lookup (atts c)); done). congruence.
Qed.

(** Selecting rows by position. *)
Lemma select_rows_spec c inds os t :
  wf c → distinct c → (∀ i, i ∈ inds → i < length (objs c)) → NoDup inds →
  mapM (oname c) inds = Ok os → mapM (np_row c) inds = Ok t →
  ∃ c', mk_context t None os (atts c) = Ok c' ∧ good c' ∧ objs c' = os ∧ atts c' = atts c ∧
   (∀ g, g ∈ os ↔ ∃ i, i ∈ inds ∧ objs c !! i = Some g) ∧
   ∀ g m, incident c' g m ↔ g ∈ os ∧ incident c g m.
Proof.
  intros Hwf [Hdo Hda] Hi Hnd Hos Ht.
  assert (∀ k i o, inds !! k = Some i → os !! k = Some o → objs c !! i = Some o) as Hko.
  { intros k i o Hk Ho. destruct (mapM_lookup _ _ _ _ _ Hos Hk) as (o' & Ho' & H).
    unfold oname in H. destruct (objs c !! i); simpl in H; congruence. }
  assert (∀ k i r, inds !! k = Some i → t !! k = Some r → np c !! i = Some r) as Hkr.
  { intros k i o Hk Ho. destruct (mapM_lookup _ _ _ _ _ Ht Hk) as (o' & Ho' & H).
    unfold np_row in H. destruct (np c !! i); simpl in H; congruence. }
  assert (length os = length inds) as Hol by by apply mapM_length in Hos.
  assert (length t = length inds) as Htl by by apply mapM_length in Ht.
  assert (NoDup os) as Hndos.
  { apply NoDup_alt. intros a b o Ha Hb.
    destruct (lookup_lt_is_Some_2 inds a) as [i Hia]; [rewrite <-Hol; by eapply lookup_lt_Some|].
    destruct (lookup_lt_is_Some_2 inds b) as [i' Hib]; [rewrite <-Hol; by eapply lookup_lt_Some|].
    assert (i = i') as <-. { eapply (NoDup_lookup (objs c)); [done|by eapply (Hko a)|by eapply (Hko b)]. }
    eapply (NoDup_lookup inds); done. }
  destruct (mk_context_ok t None os (atts c)) as [c' Hc']; [lia| |].
  { intros r [k Hk]%elem_of_list_lookup.
    destruct (lookup_lt_is_Some_2 inds k) as [i Hik]; [rewrite <-Htl; by eapply lookup_lt_Some|].
    eapply wf_cols; [done|by eapply Hkr]. }
  exists c'. split; [done|].
  pose proof Hc' as (Hg & Ho' & Ha' & Hn')%mk_context_good; [|done..].
  split; [done|]. split; [done|]. split; [done|].
  assert (∀ g, g ∈ os ↔ ∃ i, i ∈ inds ∧ objs c !! i = Some g) as Hos'.
  { intros g. rewrite (mapM_elem _ _ _ _ Hos). apply exist_proper. intros i.
    unfold oname. destruct (objs c !! i); simpl; naive_solver. }
  split; [done|].
  intros g m. unfold incident. rewrite Ho', Ha', Hn'. split.
  - intros (k & j & r & Hk & Hj & Hr & Hb).
    destruct (lookup_lt_is_Some_2 inds k) as [i Hik]; [rewrite <-Htl; by eapply lookup_lt_Some|].
    split; [by eapply elem_of_list_lookup_2|]. exists i, j, r.
    split; [by eapply Hko|]. split; [done|]. split; [by eapply Hkr|done].
  - intros [Hgos (i & j & r & Hgi & Hj & Hr & Hb)].
    apply elem_of_list_lookup in Hgos as [k Hk].
    destruct (lookup_lt_is_Some_2 inds k) as [i' Hik]; [rewrite <-Hol; by eapply lookup_lt_Some|].
    assert (i = i') as <-. { eapply (NoDup_lookup (objs c)); [done|done|by eapply Hko]. }
    destruct (lookup_lt_is_Some_2 t k) as [r' Hr']; [rewrite Htl; by eapply lookup_lt_Some|].
    pose proof (Hkr k i r' Hik Hr'). exists k, j, r'. split; [done|]. split; [done|]. split; [done|]. congruence.
Qed.
Lemma select_rows_ok c inds :
  wf c → (∀ i, i ∈ inds → i < length (objs c)) →
  ∃ os t, mapM (oname c) inds = Ok os ∧ mapM (np_row c) inds = Ok t.
Proof.
  intros Hwf Hi. destruct (mapM_oname c inds Hi) as (os & Hos & _).
  destruct (mapM_is_ok (np_row c) inds) as [t Ht]; [|by eauto].
  intros i Hi'%Hi. destruct (row_exists c Hwf i Hi') as (r & Hr & _). exists r. by apply np_row_Some.
Qed.
(** Sorted selections keep the original order of the objects. *)
Lemma select_filter_order c (p : nat → bool) os (P : name → Prop) `{∀ x, Decision (P x)} :
  mapM (oname c) (List.filter p (seq 0 (length (objs c)))) = Ok os →
  (∀ i g, objs c !! i = Some g → p i = true ↔ P g) →
  os = filter P (objs c).
Proof.
  intros Hos Hp.
  assert (∀ l k, (∀ i g, l !! i = Some g → objs c !! (k + i) = Some g) →
     mapM (oname c) (List.filter p (seq k (length l))) = Ok (filter P l)) as Hl.
  { induction l as [|g l IH]; intros k Hk; [done|]. simpl.
    assert (objs c !! k = Some g) as Hkg by (rewrite <-(Hk 0 g eq_refl); f_equal; lia).
    assert (mapM (oname c) (List.filter p (seq (S k) (length l))) = Ok (filter P l)) as Hrest.
    { apply IH. intros i x Hx. rewrite <-(Hk (S i) x Hx). f_equal. lia. }
    rewrite filter_cons. destruct (p k) eqn:Ep.
    - rewrite decide_True by by eapply Hp. simpl.
      assert (oname c k = Ok g) as -> by (unfold oname; by rewrite Hkg). simpl. by rewrite Hrest.
    - rewrite decide_False; [done|]. intros HP%(Hp k g Hkg). congruence. }
  rewrite (Hl (objs c) 0) in Hos by done. by injection Hos.
Qed.

Lemma sublist_filter_list {A} (P : A → Prop) `{∀ x, Decision (P x)} (l : list A) : filter P l `sublist_of` l.
Proof. induction l as [|x l IH]; [done|]. rewrite filter_cons. destruct (decide (P x)); by constructor. Qed.
Lemma keys_of_names ns : ∀ a, a ∈ map fst (dict_of (map (fun a : name => (a, tt)) ns)) ↔ a ∈ ns.
Proof.
  intros a. rewrite elem_of_keys_dict_of. rewrite map_map. simpl. by rewrite map_id.
Qed.
Lemma extract_filtered_spec c ns (conj : bool) :
  wf c → distinct c → (∀ a, a ∈ ns → a ∈ atts c) →
  ∃ c', extract_subcontext_filtered_by_attributes c ns (if conj then "and" else "or") = Ok c' ∧
    good c' ∧ atts c' = atts c ∧ objs c' `sublist_of` objs c ∧
    (∀ g, g ∈ objs c' ↔ g ∈ objs c ∧
       if conj then ∀ a, a ∈ ns → incident c g a else ∃ a, a ∈ ns ∧ incident c g a) ∧
    ∀ g m, incident c' g m ↔ g ∈ objs c' ∧ incident c g m.
Proof.
  intros Hwf Hd Hin. unfold extract_subcontext_filtered_by_attributes, extract_by_attribute_values.
  set (ks := map fst (dict_of (map (λ a, (a, tt)) ns))).
  assert (∀ a, a ∈ ks ↔ a ∈ ns) as Hks by apply keys_of_names.
  rewrite check_names_ok by (intros a ?%Hks; auto). simpl.
  assert (∀ i g a, objs c !! i = Some g → (∃ j, atts c !! j = Some a ∧ cellb c i j = Some true) ↔ incident c g a) as Hia.
  { intros i g a Hi. rewrite <-elem_of_fI. split.
    - intros (j & Hj & Hc). by apply (incident_cell c i j g a).
    - intros H. pose proof (proj1 (elem_of_fI _ _ _) H) as (i' & j & r & Hi' & Hj & _).
      exists j. split; [done|]. by apply (incident_cell c i j g a). }
  set (P := λ g, if conj then ∀ a, a ∈ ns → incident c g a else ∃ a, a ∈ ns ∧ incident c g a).
  assert (∃ p, (if String.eqb (if conj then "and" else "or") "and"
          then filterM (fun i => has_values c i ks) (seq 0 (length (np c)))
          else if String.eqb (if conj then "and" else "or") "or"
          then filterM (fun i => has_at_least_one_value c i ks) (seq 0 (length (np c)))
          else Err UnboundLocalError) = Ok (List.filter p (seq 0 (length (objs c)))) ∧
          ∀ i g, objs c !! i = Some g → p i = true ↔ P g) as (p & Hp & HpP).
  { rewrite (wf_rows c Hwf). destruct conj; simpl.
    - exists (λ i, match has_values c i ks with Ok b => b | Err _ => false end). split.
      + apply filterM_spec. intros i [_ Hi]%elem_of_seq.
        destruct (has_values_spec c i ks Hwf Hd) as (b & -> & _); [lia|intros a ?%Hks; auto|done].
      + intros i g Hi. destruct (has_values_spec c i ks Hwf Hd) as (b & -> & Hb);
          [by eapply lookup_lt_Some|intros a ?%Hks; auto|].
        rewrite Hb. unfold P. split.
        * intros H a Ha%Hks. by apply (Hia i), H.
        * intros H a Ha%Hks. by apply (Hia i g), H.
    - exists (λ i, match has_at_least_one_value c i ks with Ok b => b | Err _ => false end). split.
      + apply filterM_spec. intros i [_ Hi]%elem_of_seq.
        destruct (has_at_least_one_value_spec c i ks Hwf Hd) as (b & -> & _); [lia|intros a ?%Hks; auto|done].
      + intros i g Hi. destruct (has_at_least_one_value_spec c i ks Hwf Hd) as (b & -> & Hb);
          [by eapply lookup_lt_Some|intros a ?%Hks; auto|].
        rewrite Hb. unfold P. split.
        * intros (a & Ha%Hks & H). exists a. split; [done|]. by apply (Hia i).
        * intros (a & Ha%Hks & H). exists a. split; [done|]. by apply (Hia i g). }
  rewrite Hp. simpl.
  set (inds := List.filter p _).
  assert (∀ i, i ∈ inds → i < length (objs c)) as Hlt.
  { intros i Hi%elem_of_list_In. apply filter_In in Hi as [Hi%elem_of_list_In _]. apply elem_of_seq in Hi. lia. }
  destruct (select_rows_ok c inds Hwf Hlt) as (os & t & Hos & Ht). rewrite Hos, Ht. simpl.
  edestruct (select_rows_spec c inds os t) as (c' & Hc' & Hg & Ho' & Ha' & Hos' & Hinc); try done.
  { unfold inds. apply NoDup_ListNoDup, List.NoDup_filter, seq_NoDup. }
  exists c'. split; [done|]. split; [done|]. split; [done|].
  assert (∀ g, Decision (P g)) as HdP.
  { intros g. unfold P. destruct conj.
    - destruct (decide (Forall (incident c g) ns)) as [H|H]; [left|right];
        [by apply Forall_forall|]. intros H'. by apply H, Forall_forall.
    - destruct (decide (Exists (incident c g) ns)) as [H|H]; [left|right];
        [by apply Exists_exists|]. intros H'. by apply H, Exists_exists. }
  split; [|split].
  - rewrite Ho', (select_filter_order c p os P Hos HpP). apply sublist_filter_list.
  - intros g. rewrite Ho', (select_filter_order c p os P Hos HpP), elem_of_list_filter. unfold P. tauto.
  - intros g m. by rewrite Ho', Hinc.
Qed.
Lemma extract_filtered_mode c ns mode :
  (∀ a, a ∈ ns → a ∈ atts c) → mode ≠ "and"%string → mode ≠ "or"%string →
  extract_subcontext_filtered_by_attributes c ns mode = Err UnboundLocalError.
Proof.
  intros Hin H1 H2. unfold extract_subcontext_filtered_by_attributes, extract_by_attribute_values.
  rewrite check_names_ok by (intros a Ha; apply Hin; by apply keys_of_names). simpl.
  rewrite (proj2 (String.eqb_neq _ _) H1), (proj2 (String.eqb_neq _ _) H2). done.
Qed.
Lemma extract_filtered_err c ns mode a :
  a ∈ ns → a ∉ atts c →
  extract_subcontext_filtered_by_attributes c ns mode = Err ValueError.
Proof.
  intros H1 H2. unfold extract_subcontext_filtered_by_attributes, extract_by_attribute_values.
  rewrite (check_names_err _ _ a); [done| |done]. by apply keys_of_names.
Qed.

(** ** Product *)
Lemma bool_dot_spec r col : bool_dot r col = true ↔ ∃ k, r !! k = Some true ∧ col !! k = Some true.
Proof.
  unfold bool_dot. rewrite existsb_exists. split.
  - intros (b & Hb%elem_of_list_In & Hid). unfold id in Hid. subst b.
    apply elem_of_lookup_zip_with in Hb as (k & x & y & Hxy & Hx & Hy).
    symmetry in Hxy. apply andb_true_iff in Hxy as [-> ->]. eauto.
  - intros (k & Hx & Hy). exists true. split; [|done]. apply elem_of_list_In.
    apply elem_of_lookup_zip_with. exists k, true, true. done.
Qed.
Lemma mul_spec c d :
  wf c → distinct c → wf d → distinct d → objs c ≠ [] → objs d ≠ [] → atts c = objs d →
  ∃ e, context_mul c d = Ok e ∧ good e ∧ objs e = objs c ∧ atts e = atts d ∧
    ∀ g m, incident e g m ↔ ∃ f, incident c g f ∧ incident d f m.
Proof.
  intros Hwc Hdc Hwd Hdd Hnc Hnd Heq. 
  apply np_nonempty in Hnc, Hnd; [|done..].
  set (F := λ r, mapM (λ j, col ← np_col d j; Ok (bool_dot r col)) (seq 0 (length (atts d)))).
  assert (context_mul c d = (t ← mapM F (np c); mk_context t None (objs c) (atts d))) as ->.
  { unfold context_mul, mul_table. rewrite bool_decide_eq_true_2 by done. cbn [negb].
    by destruct (np c), (np d). }
  assert (∀ r, ∃ r', F r = Ok r' ∧ length r' = length (atts d) ∧
    ∀ j, r' !! j = Some true ↔ j < length (atts d) ∧ ∃ k, r !! k = Some true ∧ cellb d k j = Some true) as HF.
  { intros r. destruct (mapM_is_ok (λ j, col ← np_col d j; Ok (bool_dot r col)) (seq 0 (length (atts d)))) as [r' Hr'].
    { intros j [_ Hj]%elem_of_seq. destruct (np_col_spec d Hwd j) as (v & -> & _); [lia|done|]. simpl. eauto. }
    exists r'. split; [done|]. split; [apply mapM_length in Hr'; by rewrite seq_length in Hr'|].
    intros j. split.
    - intros Hb. destruct (mapM_lookup_r _ _ _ _ _ Hr' Hb) as (j' & [-> Hj]%lookup_seq & H). simpl in *.
      split; [done|]. destruct (np_col_spec d Hwd j) as (v & E & _ & Hv); [done|done|]. rewrite E in H. simpl in H.
      injection H as H. apply bool_dot_spec in H as (k & ? & ?). exists k. by rewrite <-Hv.
    - intros [Hj (k & Hk & Hkj)]. destruct (mapM_lookup _ _ _ j j Hr') as (b & Hb & H).
      { apply lookup_seq. done. }
      destruct (np_col_spec d Hwd j) as (v & E & _ & Hv); [done|done|]. rewrite E in H. simpl in H.
      injection H as H. rewrite Hb. f_equal. rewrite <-H. apply bool_dot_spec. exists k. by rewrite Hv. }
  destruct (mapM_is_ok F (np c)) as [t Ht].
  { intros r _. destruct (HF r) as (r' & ? & _). eauto. }
  rewrite Ht. simpl.
  assert (∀ i r', t !! i = Some r' → ∃ r, np c !! i = Some r ∧ F r = Ok r') as Htr.
  { intros i r' Hr'. exact (mapM_lookup_r _ _ _ _ _ Ht Hr'). }
  destruct (mk_context_ok t None (objs c) (atts d)) as [e He].
  { apply mapM_length in Ht. rewrite Ht. apply wf_rows, Hwc. }
  { intros r' [i Hi]%elem_of_list_lookup. apply Htr in Hi as (r & _ & E).
    destruct (HF r) as (r'' & E' & Hl & _). congruence. }
  exists e. split; [done|].
  pose proof He as (Hg & Ho' & Ha' & Hn')%mk_context_good; [|apply Hdc|apply Hdd|done].
  split; [done|]. split; [done|]. split; [done|].
  intros g m. unfold incident. rewrite Ho', Ha', Hn'. split.
  - intros (i & j & r' & Hi & Hj & Hr' & Hb). apply Htr in Hr' as (r & Hr & E).
    destruct (HF r) as (r'' & E' & Hl & HFr). assert (r'' = r') as -> by congruence.
    apply HFr in Hb as [_ (k & Hk & Hkj)]. apply cellb_Some in Hkj as (rd & Hrd & Hbd).
    destruct (lookup_lt_is_Some_2 (objs d) k) as [f Hf].
    { rewrite <-(wf_rows d Hwd). by eapply lookup_lt_Some. }
    exists f. split.
    + exists i, k, r. rewrite Heq. done.
    + exists k, j, rd. done.
  - intros (f & (i & k & r & Hi & Hk & Hr & Hb) & (k' & j & rd & Hk' & Hj & Hrd & Hbd)).
    rewrite Heq in Hk. assert (k = k') as <- by (eapply (NoDup_lookup (objs d)); [apply Hdd|done|done]).
    destruct (mapM_lookup _ _ _ _ _ Ht Hr) as (r' & Hr' & E).
    destruct (HF r) as (r'' & E' & Hl & HFr). assert (r'' = r') as -> by congruence.
    exists i, j, r'. split; [done|]. split; [done|]. split; [done|].
    apply HFr. split; [by eapply lookup_lt_Some|]. exists k. split; [done|]. apply cellb_Some. eauto.
Qed.

(** ** Complement *)
Lemma complementary_spec c :
  wf c → distinct c → (∀ a, a ∈ atts c → ∃ s, a = NStr s) →
  ∃ c', complementary c = Ok c' ∧ good c' ∧ objs c' = objs c ∧
    atts c' = map (λ a, NStr ("not " +:+ pystr a)) (atts c) ∧
    ∀ g m, g ∈ objs c → m ∈ atts c →
      incident c' g (NStr ("not " +:+ pystr m)) ↔ ¬ incident c g m.
Proof.
  intros Hwf Hd Hstr. pose proof Hd as [Hdo Hda]. unfold complementary.
  assert (mapM (λ a, match a with NStr s => Ok (NStr ("not " ++ s)%string) | NInt _ => Err TypeError end) (atts c)
     = Ok (map (λ a, NStr ("not " +:+ pystr a)) (atts c))) as ->.
  { apply mapM_Ok_map. intros a Ha. destruct (Hstr a Ha) as [s ->]. done. }
  cbn [mbind res_bind].
  set (nat_ := λ a, NStr ("not " +:+ pystr a)).
  edestruct (mapM_is_ok (fun i => mapM (fun j => b ← cell c i j; Ok (negb b)) (seq 0 (length (atts c)))) (seq 0 (length (objs c)))) as [t Ht].
  { intros i [_ Hi]%elem_of_seq. apply mapM_is_ok. intros j [_ Hj]%elem_of_seq.
    destruct (cellb_exists c Hwf i j) as [b Hb]; [lia..|]. exists (negb b). by rewrite (cell_cellb c i j b). }
  rewrite Ht. cbn [mbind res_bind].
  assert (length t = length (objs c)) as Htl by (apply mapM_length in Ht; by rewrite seq_length in Ht).
  assert (∀ i r, t !! i = Some r → length r = length (atts c) ∧ ∀ j b, r !! j = Some b → cellb c i j = Some (negb b)) as Htr.
  { intros i r Hr. destruct (mapM_lookup_r _ _ _ _ _ Ht Hr) as (i' & [-> _]%lookup_seq & H). simpl in H.
    split; [apply mapM_length in H; by rewrite seq_length in H|].
    intros j b Hb. destruct (mapM_lookup_r _ _ _ _ _ H Hb) as (j' & [-> _]%lookup_seq & H').
    simpl in H'. destruct (cell c i j) as [b'|] eqn:E; simpl in H'; [|done]. injection H' as <-.
    apply cell_Ok in E. by rewrite negb_involutive. }
  assert (Inj_on : ∀ x y, x ∈ atts c → y ∈ atts c → nat_ x = nat_ y → x = y).
  { intros x y Hx Hy. destruct (Hstr x Hx) as [sx ->]. destruct (Hstr y Hy) as [sy ->]. unfold nat_. simpl. intros [= H]. by f_equal. }
  destruct (mk_context_ok t None (objs c) (map nat_ (atts c))) as [c' Hc']; [done| |].
  { intros r [i Hi]%elem_of_list_lookup. rewrite map_length. by eapply Htr. }
  exists c'. split; [done|].
  pose proof Hc' as (Hg & Ho' & Ha' & Hn')%mk_context_good; [|done| |done].
  2:{ apply NoDup_fmap_2_strong; [|done]. done. }
  split; [done|]. split; [done|]. split; [done|].
  intros g m [i Hi]%elem_of_list_lookup [j Hj]%elem_of_list_lookup.
  rewrite <-!elem_of_fI.
  change (NStr ("not " +:+ pystr m)) with (nat_ m). rewrite (incident_cell c' i j g (nat_ m)); [|apply Hg|congruence|by rewrite Ha', list_lookup_fmap, Hj].
  rewrite (incident_cell c i j g m) by done.
  destruct (cellb_exists c' (good_wf _ Hg) i j) as [b Hb].
  { rewrite Ho'. by eapply lookup_lt_Some. }
  { rewrite Ha', map_length. by eapply lookup_lt_Some. }
  rewrite Hb. apply cellb_Some in Hb as (r & Hr & Hb). rewrite Hn' in Hr.
  apply (Htr i r Hr) in Hb. rewrite Hb. destruct b; simpl; naive_solver.
Qed.
Lemma complementary_err c a z :
  a ∈ atts c → a = NInt z → complementary c = Err TypeError.
Proof.
  intros Ha ->. unfold complementary.
  erewrite (mapM_first_Err _ _ (NInt z) TypeError); [done|done|done|].
  intros [s|z'] e'; naive_solver.
Qed.
Lemma compound_fails c :
  wf c → objs c ≠ [] → atts c ≠ [] → (∀ a, a ∈ atts c → ∃ s, a = NStr s) →
  compound c = Err ValueError.
Proof.
  intros Hwf Hno Hna Hstr. unfold compound, complementary.
  assert (mapM (λ a, match a with NStr s => Ok (NStr ("not " ++ s)%string) | NInt _ => Err TypeError end) (atts c)
     = Ok (map (λ a, NStr ("not " +:+ pystr a)) (atts c))) as ->.
  { apply mapM_Ok_map. intros a Ha. destruct (Hstr a Ha) as [s ->]. done. }
  cbn [mbind res_bind].
  edestruct (mapM_is_ok (fun i => mapM (fun j => b ← cell c i j; Ok (negb b)) (seq 0 (length (atts c)))) (seq 0 (length (objs c)))) as [t Ht].
  { intros i [_ Hi]%elem_of_seq. apply mapM_is_ok. intros j [_ Hj]%elem_of_seq.
    destruct (cellb_exists c Hwf i j) as [b Hb]; [lia..|]. exists (negb b). by rewrite (cell_cellb c i j b). }
  rewrite Ht. cbn [mbind res_bind].
  assert (∀ i r, t !! i = Some r → length r = length (atts c)) as Htr.
  { intros i r Hr. destruct (mapM_lookup_r _ _ _ _ _ Ht Hr) as (i' & _ & H).
    apply mapM_length in H; by rewrite seq_length in H. }
  destruct (mk_context_ok t None (objs c) (map (λ a, NStr ("not " +:+ pystr a)) (atts c))) as [cc Hcc].
  { apply mapM_length in Ht; by rewrite seq_length in Ht. }
  { intros r [i Hi]%elem_of_list_lookup. rewrite map_length. by eapply Htr. }
  rewrite Hcc. cbn [mbind res_bind].
  pose proof (mk_context_wf _ _ _ _ _ Hcc) as Hwcc.
  pose proof Hcc as (_ & _ & Ho' & Ha' & Hn' & _)%mk_context_Ok.
  assert (length (objs cc) = length (objs c)) as Hlo by by rewrite Ho', uniquify_length.
  assert (length (atts cc) = length (atts c)) as Hla by by rewrite Ha', uniquify_length, map_length.
  set (F := λ i, r ← np_row c i; r' ← np_row cc i; if (length r =? length r')%nat then Ok (zip_with orb r r') else Err ValueError).
  assert (∀ i, i < length (objs c) → ∃ r, F i = Ok r ∧ length r = length (atts c)) as HF.
  { intros i Hi. destruct (row_exists c Hwf i Hi) as (r & Hr & Hrl).
    destruct (row_exists cc Hwcc i) as (r' & Hr' & Hrl'); [lia|].
    exists (zip_with orb r r'). unfold F. rewrite (np_row_Some c i r Hr), (np_row_Some cc i r' Hr'). simpl.
    rewrite Hrl, Hrl', Hla, Nat.eqb_refl. split; [done|]. rewrite zip_with_length. lia. }
  destruct (mapM_is_ok F (seq 0 (length (objs c)))) as [t' Ht'].
  { intros i [_ Hi]%elem_of_seq. destruct (HF i) as (r & ? & _); [lia|eauto]. }
  rewrite Ht'. cbn [mbind res_bind].
  rewrite mk_context_spec, decide_False; [done|]. intros [Hl Hf].
  destruct t' as [|r0 t']; [by destruct (objs c)|].
  apply Forall_cons in Hf as [Hf _]. rewrite app_length, Hla in Hf.
  destruct (mapM_lookup_r _ _ _ 0 r0 Ht' eq_refl) as (i & [-> Hi]%lookup_seq & H). 
  destruct (HF 0) as (r & Hr & Hrl); [lia|]. simpl in H. rewrite Hr in H. injection H as <-.
  destruct (atts c); [done|]. simpl in *. lia.
Qed.

(** ** Removing empty objects *)
Lemma list_filter_all {A} (P : A → Prop) `{∀ x, Decision (P x)} (l : list A) :
  Forall P l → filter P l = l.
Proof. induction 1 as [|x l HP _ IH]; [done|]. rewrite filter_cons, decide_True by done. by rewrite IH. Qed.
Lemma delete_objects_loop_effect c l :
  wf c → distinct c → shape_ok c → NoDup l → (∀ o, o ∈ l → o ∈ objs c) →
  ∃ c', delete_objects_loop c l = (c', Ok tt) ∧ good c' ∧
    objs c' = filter (λ x, x ∉ l) (objs c) ∧ atts c' = atts c ∧
    ∀ g m, incident c' g m ↔ g ∉ l ∧ incident c g m.
Proof.
  revert c; induction l as [|o l IH]; intros c Hwf Hd Hs Hnd Hin; simpl.
  - exists c. split; [done|]. split; [done|]. split; [|split; [done|]].
    + symmetry. apply list_filter_all. apply Forall_forall. intros x _. apply not_elem_of_nil.
    + intros g m. split; [|naive_solver]. intros H. split; [apply not_elem_of_nil|done].
  - apply NoDup_cons in Hnd as [Ho Hnd].
    destruct (delete_object_effect c o Hwf Hd) as (c1 & -> & Hg1 & Ho1 & Ha1 & Hinc1); [apply Hin; left|].
    destruct (IH c1) as (c2 & -> & Hg2 & Ho2 & Ha2 & Hinc2); [apply Hg1|apply Hg1|apply Hg1|done| |].
    { intros x Hx. rewrite Ho1. apply elem_of_list_filter. split; [by intros ->|]. apply Hin. by right. }
    exists c2. split; [done|]. split; [done|]. split; [|split; [congruence|]].
    + rewrite Ho2, Ho1, list_filter_filter. apply list_filter_iff. intros x. rewrite not_elem_of_cons. tauto.
    + intros g m. rewrite Hinc2, Hinc1, not_elem_of_cons. tauto.
Qed.

Lemma remove_empty_objects_effect c :
  good c →
  ∃ c', remove_empty_objects c = (c', Ok tt) ∧ good c' ∧ atts c' = atts c ∧
    objs c' `sublist_of` objs c ∧
    (∀ g, g ∈ objs c' ↔ g ∈ objs c ∧ ∃ m, incident c g m) ∧
    ∀ g m, incident c' g m ↔ incident c g m.
Proof.
  intros [Hwf Hd Hs]. pose proof Hd as [Hdo Hda]. unfold remove_empty_objects.
  edestruct (mapM_is_ok (fun i : nat => r ← np_row c i; o ← oname c i; Ok (r, o)) (seq 0 (length (objs c)))) as [l Hl].
  { intros i [_ Hi]%elem_of_seq. destruct (row_exists c Hwf i Hi) as (r & Hr & _).
    apply lookup_lt_is_Some in Hi as [o Ho]. exists (r, o). rewrite (np_row_Some c i r Hr). simpl.
    unfold oname. by rewrite Ho. }
  rewrite Hl. cbn [mbind res_bind].
  set (rm := map snd _).
  assert (∀ i r o, l !! i = Some (r, o) ↔ np c !! i = Some r ∧ objs c !! i = Some o) as Hli.
  { intros i r o. split.
    - intros H. destruct (mapM_lookup_r _ _ _ _ _ Hl H) as (i' & [-> _]%lookup_seq & E). simpl in E.
      unfold np_row, oname in E. destruct (np c !! i); simpl in E; [|done].
      destruct (objs c !! i); simpl in E; naive_solver.
    - intros [Hr Ho]. destruct (mapM_lookup _ _ _ i i Hl) as ([r' o'] & H & E).
      { apply lookup_seq. split; [done|]. by eapply lookup_lt_Some. }
      rewrite (np_row_Some c i r Hr) in E. simpl in E. unfold oname in E. rewrite Ho in E. simpl in E.
      rewrite H. congruence. }
  assert (∀ g, g ∈ rm ↔ g ∈ objs c ∧ ∀ m, ¬ incident c g m) as Hrm.
  { intros g. unfold rm. rewrite elem_of_list_fmap. split.
    - intros ([r o] & -> & [Hr Hin]%elem_of_list_filter). simpl in *.
      apply elem_of_list_lookup in Hin as [i [Hi Ho]%Hli]. split; [by eapply elem_of_list_lookup_2|].
      intros m (i' & j & r' & Hi' & Hj & Hr' & Hb).
      assert (i = i') as <- by (eapply (NoDup_lookup (objs c)); done).
      assert (r' = r) as -> by congruence.
      assert (existsb id r = true); [|congruence]. apply existsb_exists. exists true. split; [|done].
      apply elem_of_list_In. by eapply elem_of_list_lookup_2.
    - intros [[i Hi]%elem_of_list_lookup Hno].
      destruct (row_exists c Hwf i) as (r & Hr & Hrl); [by eapply lookup_lt_Some|].
      exists (r, g). split; [done|]. apply elem_of_list_filter. split; simpl.
      + destruct (existsb id r) eqn:E; [|done]. exfalso.
        apply existsb_exists in E as (b & Hb%elem_of_list_In & Hid). unfold id in Hid. subst b.
        apply elem_of_list_lookup in Hb as [j Hj].
        destruct (lookup_lt_is_Some_2 (atts c) j) as [m Hm]; [rewrite <-Hrl; by eapply lookup_lt_Some|].
        apply (Hno m). exists i, j, r. done.
      + apply elem_of_list_lookup. exists i. by apply Hli. }
  assert (NoDup rm) as Hnd.
  { unfold rm. apply NoDup_fmap_2_strong.
    - intros [r o] [r' o'] [_ [i [Hi Ho]%Hli]%elem_of_list_lookup]%elem_of_list_filter
        [_ [i' [Hi' Ho']%Hli]%elem_of_list_lookup]%elem_of_list_filter. simpl. intros ->.
      assert (i = i') as <- by (eapply (NoDup_lookup (objs c)); done). congruence.
    - apply NoDup_filter. apply NoDup_alt. intros i i' [r o] [_ Hi]%Hli [_ Hi']%Hli.
      eapply (NoDup_lookup (objs c)); done. }
  destruct (delete_objects_loop_effect c rm) as (c' & -> & Hg & Ho' & Ha' & Hinc); [done..|by intros o []%Hrm|].
  exists c'. split; [done|]. split; [done|]. split; [done|]. split; [rewrite Ho'; apply sublist_filter_list|].
  split.
  - intros g. rewrite Ho', elem_of_list_filter, Hrm. split.
    + intros [Hn Hg']. split; [done|]. destruct (decide (Exists (incident c g) (atts c))) as [He|He].
      * apply Exists_exists in He as (m & _ & ?). eauto.
      * exfalso. apply Hn. split; [done|]. intros m Hm. apply He, Exists_exists. exists m. split; [|done].
        apply elem_of_fI, abs_fwf in Hm as [_ Hm%elem_of_list_to_set]. done.
    + intros [Hg' [m Hm]]. split; [|done]. intros [_ Hn]. by apply (Hn m).
  - intros g m. rewrite Hinc. split; [tauto|]. intros H. split; [|done]. intros [_ Hn]%Hrm. by apply (Hn m).
Qed.

(** ** Associative closure: for every attribute of some object of the extent, the
    number of objects of the extent having it *)
Lemma counter_lookup l k :
  counter l !! k = if decide (k ∈ l) then Some (py_count k l) else None.
Proof.
  unfold counter. induction l as [|x l IH] using rev_ind.
  - by destruct (decide (k ∈ [])) as [?%elem_of_nil|].
  - rewrite foldl_app. simpl. rewrite py_count_app, py_count_cons.
    destruct (decide (k = x)) as [->|Hne].
    + rewrite lookup_insert, IH. rewrite (decide_True (P := x ∈ l ++ [x])).
      2:{ apply elem_of_app. right. left. }
      rewrite (decide_True (P := x = x)) by done. assert (py_count x [] = 0) as -> by done.
      destruct (decide (x ∈ l)) as [H|H]; simpl; f_equal; [lia|].
      assert (¬ 0 < py_count x l) by by rewrite py_count_elem. lia.
    + rewrite lookup_insert_ne by done. rewrite IH.
      rewrite (decide_False (P := x = k)) by congruence.
      destruct (decide (k ∈ l)) as [H|H].
      * rewrite decide_True by (apply elem_of_app; by left). f_equal. assert (py_count k [] = 0) as -> by done. lia.
      * rewrite decide_False; [done|]. intros [?|?%elem_of_list_singleton]%elem_of_app; done.
Qed.


Lemma list_filter_iff' {A} (P Q : A → Prop) `{∀ x, Decision (P x)} `{∀ x, Decision (Q x)} (l : list A) :
  (∀ x, x ∈ l → P x ↔ Q x) → filter P l = filter Q l.
Proof.
  induction l as [|x l IH]; intros H'; [done|]. rewrite !filter_cons, IH by (intros; apply H'; by right).
  pose proof (H' x (elem_of_list_here _ _)). destruct (decide (P x)), (decide (Q x)); naive_solver.
Qed.
Lemma denotes_size names l X : NoDup names → NoDup l → denotes names l X → length l = size X.
Proof.
  intros Hn Hl (H1 & H2 & H3).
  destruct (mapM_is_ok (λ i, get_or IndexError (names !! i)) l) as [k Hk].
  { intros i Hi%H1. apply lookup_lt_is_Some in Hi as [x Hx]. exists x. by rewrite Hx. }
  assert (∀ i y, get_or IndexError (names !! i) = Ok y ↔ names !! i = Some y) as Hget.
  { intros i y. destruct (names !! i); simpl; naive_solver. }
  assert (X = list_to_set k) as ->.
  { apply set_eq. intros x. rewrite elem_of_list_to_set, (mapM_elem _ _ _ _ Hk). split.
    - intros Hx. pose proof (H3 x Hx) as Hin. apply elem_of_list_lookup in Hin as [i Hi].
      exists i. rewrite Hget. split; [|done]. by apply (H2 i x).
    - intros (i & Hi & Hx%Hget). by apply (H2 i x). }
  rewrite size_list_to_set; [by rewrite (mapM_length _ _ _ Hk)|].
  apply NoDup_alt. intros a b y Ha Hb.
  destruct (mapM_lookup_r _ _ _ _ _ Hk Ha) as (ia & Hia & Hya%Hget).
  destruct (mapM_lookup_r _ _ _ _ _ Hk Hb) as (ib & Hib & Hyb%Hget).
  assert (ia = ib) as <- by (eapply (NoDup_lookup names); done).
  eapply (NoDup_lookup l); done.
Qed.
Lemma py_count_concat (f : nat → list nat) l j :
  (∀ i, i ∈ l → NoDup (f i)) →
  py_count j (concat (map f l)) = length (filter (λ i, j ∈ f i) l).
Proof.
  induction l as [|i l IH]; intros H; [done|]. simpl. rewrite py_count_app, filter_cons, IH.
  2:{ intros; apply H; by right. }
  assert (NoDup (f i)) as Hi by (apply H; left).
  pose proof (proj1 (NoDup_py_count _) Hi j). case_decide as Hj.
  - apply py_count_elem in Hj. simpl. lia.
  - assert (¬ 0 < py_count j (f i)) by by rewrite py_count_elem. lia.
Qed.
Lemma rekey_spec nm (d : gmap nat nat) :
  (∀ k v, d !! k = Some v → ∃ x, nm k = Ok x) →
  (∀ k k' x, nm k = Ok x → nm k' = Ok x → k = k') →
  ∃ d', rekey nm d = Ok d' ∧ ∀ x v, d' !! x = Some v ↔ ∃ k, nm k = Ok x ∧ d !! k = Some v.
Proof.
  intros H1 H2. unfold rekey.
  destruct (mapM_is_ok (fun p : nat * nat => x ← nm p.1; Ok (x, p.2)) (map_to_list d)) as [l Hl].
  { intros [k v] Hk%elem_of_map_to_list. destruct (H1 k v Hk) as [x Hx]. exists (x, v). simpl. by rewrite Hx. }
  rewrite Hl. simpl. eexists. split; [done|]. intros x v.
  assert (∀ (p : nat * nat) (q : name * nat), (x ← nm p.1; Ok (x, p.2)) = Ok q ↔ nm p.1 = Ok q.1 ∧ p.2 = q.2) as Hq.
  { intros [k w] [y w']. simpl. destruct (nm k); simpl; naive_solver. }
  rewrite <-elem_of_list_to_map.
  - rewrite (mapM_elem _ _ _ _ Hl). split.
    + intros ([k w] & Hk%elem_of_map_to_list & [? ?]%Hq). simpl in *. subst. eauto.
    + intros (k & Hk & Hd). exists (k, v). rewrite Hq, elem_of_map_to_list. done.
  - change (NoDup (map fst l)). apply NoDup_alt. intros a b y Ha Hb.
    rewrite list_lookup_fmap in Ha, Hb.
    destruct (l !! a) as [pa|] eqn:Ea; [|done]. destruct (l !! b) as [pb|] eqn:Eb; [|done].
    simpl in Ha, Hb. injection Ha as Ha. injection Hb as Hb.
    destruct (mapM_lookup_r _ _ _ _ _ Hl Ea) as ([ka va] & Hka & [Hna _]%Hq).
    destruct (mapM_lookup_r _ _ _ _ _ Hl Eb) as ([kb vb] & Hkb & [Hnb _]%Hq). simpl in *.
    assert (ka = kb) as <- by (eapply (H2 ka kb y); congruence).
    assert (va = vb) as <-.
    { apply elem_of_list_lookup_2, elem_of_map_to_list in Hka, Hkb. congruence. }
    eapply (NoDup_lookup (map_to_list d)); [apply NoDup_map_to_list|done|done].
Qed.

Lemma associative_aclosure_spec c ns :
  good c → (∀ a, a ∈ ns → a ∈ atts c) →
  ∃ d n, associative_aclosure c ns = Ok (d, n) ∧
    n = size (down (abs c) (list_to_set ns)) ∧
    (∀ m k, m ∈ atts c → d !! m = Some k →
       k = size (down (abs c) (list_to_set ns) ∩ down (abs c) {[m]})) ∧
    (∀ m, is_Some (d !! m) ↔ m ∈ atts c ∧
       (n = 0 ∨ ∃ g, g ∈ down (abs c) (list_to_set ns) ∧ incident c g m)).
Proof.
  intros Hg Hin. pose proof Hg as [Hwf Hd Hs]. pose proof Hd as [Hdo Hda]. unfold associative_aclosure.
  destruct (denotes_ainds c Hg ns Hin) as (inds & -> & Hden). simpl.
  destruct (aprime_inds_denotes c Hg inds _ Hden) as (ext & -> & Hnd & Hext). simpl.
  set (X := down (abs c) (list_to_set ns)) in *. pose proof Hext as (E1 & E2 & E3).
  assert (∀ j m, atts c !! j = Some m →
     length (filter (λ i, cellb c i j = Some true) ext) = size (X ∩ down (abs c) {[m]})) as Hcount.
  { intros j m Hm. apply (denotes_size (objs c)); [done|by apply NoDup_filter|]. split; [|split].
    - intros i [_ Hi]%elem_of_list_filter. by apply E1.
    - intros i x Hx. rewrite elem_of_list_filter, elem_of_intersection, (E2 i x Hx), elem_of_down.
      split.
      + intros [Hc HX]. split; [done|]. split; [apply elem_of_list_to_set; by eapply elem_of_list_lookup_2|].
        intros m' ->%elem_of_singleton. by apply (incident_cell c i j x m).
      + intros [HX [_ H]]. split; [|done]. apply (incident_cell c i j x m); [done..|]. apply H. by apply elem_of_singleton.
    - intros x [Hx _]%elem_of_intersection. by apply E3. }
  assert (∃ dd, associative_oprime_inds c ext = Ok dd ∧
     (∀ j k, dd !! j = Some k → j < length (atts c) ∧ k = length (filter (λ i, cellb c i j = Some true) ext)) ∧
     ∀ j, j < length (atts c) → is_Some (dd !! j) ↔ ext = [] ∨ ∃ i, i ∈ ext ∧ cellb c i j = Some true) as (dd & -> & D1 & D2).
  { destruct ext as [|i0 ext0] eqn:Ex.
    - eexists. split; [done|].
      assert (∀ j k, (list_to_map (map (λ j, (j, 0)) (seq 0 (length (atts c)))) : gmap nat nat) !! j = Some k ↔
         j < length (atts c) ∧ k = 0) as Hz.
      { intros j k. rewrite <-elem_of_list_to_map.
        - rewrite elem_of_list_fmap. setoid_rewrite elem_of_seq. split.
          + intros (? & [= -> ->] & ?). split; [lia|done].
          + intros [? ->]. exists j. split; [done|lia].
        - rewrite <-list_fmap_compose. simpl. rewrite list_fmap_id. apply NoDup_seq. }
      split.
      + intros j k [? ->]%Hz. done.
      + intros j Hj. split; [by left|]. intros _. exists 0. by apply Hz.
    - rewrite <-Ex in *.
      assert (ext ≠ []) as Hne by by rewrite Ex. clear Ex i0 ext0.
      set (f := λ i, nonzero (default [] (np c !! i))).
      assert (associative_oprime_inds c ext = Ok (counter (concat (map f ext)))) as ->.
      { assert (associative_oprime_inds c ext = (ls ← mapM (fun i => r ← np_row c i; Ok (nonzero r)) ext; Ok (counter (concat ls)))) as ->.
        { by destruct ext. }
        rewrite (mapM_Ok_map _ f); [done|]. intros i Hi. apply E1 in Hi.
        destruct (row_exists c Hwf i Hi) as (r & Hr & _). rewrite (np_row_Some c i r Hr). unfold f. by rewrite Hr. }
      assert (∀ i j, i ∈ ext → j ∈ f i ↔ cellb c i j = Some true) as Hf.
      { intros i j Hi. apply E1 in Hi. destruct (row_exists c Hwf i Hi) as (r & Hr & _).
        unfold f. rewrite Hr, elem_of_nonzero, cellb_Some. simpl. naive_solver. }
      assert (∀ j, j ∈ concat (map f ext) ↔ ∃ i, i ∈ ext ∧ cellb c i j = Some true) as Hel.
      { intros j. rewrite elem_of_list_In, in_concat. split.
        - intros (l & Hl & Hj). apply in_map_iff in Hl as (i & <- & Hi%elem_of_list_In).
          apply elem_of_list_In in Hj. exists i. split; [done|]. by apply Hf.
        - intros (i & Hi & Hj). exists (f i). split; [apply in_map; by apply elem_of_list_In|].
          apply elem_of_list_In. by apply Hf. }
      exists (counter (concat (map f ext))). split; [done|]. split.
      + intros j k. rewrite counter_lookup. case_decide as Hj; [|done]. intros [= <-].
        pose proof (proj1 (Hel j) Hj) as (i & Hi & Hc). split; [by eapply (cellb_lt c Hwf)|].
        rewrite py_count_concat by (intros; apply NoDup_nonzero). f_equal.
        apply list_filter_iff'. intros i' Hi'. by apply Hf.
      + intros j Hj. rewrite counter_lookup. case_decide as Hin'; rewrite Hel in Hin'.
        * split; [naive_solver|]. intros _. eauto.
        * split; [by intros [? ?]|]. intros [?|?]; [done|]. naive_solver. }
  simpl.
  destruct (rekey_spec (aname c) dd) as (d' & -> & Hd').
  { intros k v [Hk _]%D1. apply lookup_lt_is_Some in Hk as [x Hx]. exists x. unfold aname. by rewrite Hx. }
  { intros k k' x. unfold aname. destruct (atts c !! k) eqn:Ek, (atts c !! k') eqn:Ek'; simpl; [|done..].
    intros [= ->] [= ->]. eapply (NoDup_lookup (atts c)); done. }
  assert (∀ k x, aname c k = Ok x ↔ atts c !! k = Some x) as Han.
  { intros k x. unfold aname. destruct (atts c !! k); simpl; naive_solver. }
  simpl. exists d', (length ext). split; [done|]. split; [by apply (denotes_size (objs c))|]. split.
  - intros m k Hm (j & Hj%Han & Hk)%Hd'. apply D1 in Hk as [_ ->]. by apply Hcount.
  - intros m. assert (length ext = 0 ↔ ext = []) as Hz by (destruct ext; naive_solver). rewrite Hz. split.
    + intros [k (j & Hj%Han & Hk)%Hd']. split; [by eapply elem_of_list_lookup_2|].
      destruct (proj1 (D2 j (lookup_lt_Some _ _ _ Hj))) as [|(i & Hi & Hc)]; [eauto|by left|right].
      destruct (lookup_lt_is_Some_2 (objs c) i (E1 i Hi)) as [g Hgi]. exists g.
      split; [by apply (E2 i g)|]. rewrite <-elem_of_fI. by apply (incident_cell c i j g m).
    + intros [[j Hj]%elem_of_list_lookup H].
      destruct (proj2 (D2 j (lookup_lt_Some _ _ _ Hj))) as [k Hk].
      { destruct H as [|(g & HX & Hgm)]; [by left|right].
        pose proof (E3 g HX) as Hin'. apply elem_of_list_lookup in Hin' as [i Hi].
        exists i. split; [by apply (E2 i g)|]. rewrite <-elem_of_fI in Hgm. by apply (incident_cell c i j g m). }
      exists k. apply Hd'. exists j. by rewrite Han.
Qed.
Lemma mul_mismatch c d : atts c ≠ objs d → context_mul c d = Err MultiplicationException.
Proof. intros H. unfold context_mul, mul_table. by rewrite bool_decide_eq_false_2. Qed.
