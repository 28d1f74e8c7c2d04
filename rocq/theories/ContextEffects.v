(** * Exact effects of the mutators on contexts with distinct names *)
From Verif Require Import Py Spec ContextModel ContextSpec ContextOps PyFacts SpecFacts ContextFacts ContextInit ContextMut.

Lemma reinit_effect c t z os ats :
  length t = length os → (∀ r, r ∈ t → length r = length ats) → NoDup os → NoDup ats →
  (t = [] → match z with None => True | Some k => length ats ≤ k end) →
  ∃ c', reinit c t z os ats = (c', Ok tt) ∧ good c' ∧ objs c' = os ∧ atts c' = ats ∧ np c' = t.
Proof.
  intros H1 H2 H3 H4 H5. destruct (reinit_Ok c t z os ats H1 H2) as (c' & Hc' & Hmk).
  exists c'. split; [done|]. by eapply mk_context_good.
Qed.

Lemma add_object_effect c row o :
  wf c → distinct c → length row = length (atts c) → o ∉ objs c →
  ∃ c', add_object c row o = (c', Ok tt) ∧ good c' ∧
    objs c' = objs c ++ [o] ∧ atts c' = atts c ∧
    ∀ g m, incident c' g m ↔ incident c g m ∨ (g = o ∧ (m, true) ∈ zip (atts c) row).
Proof.
  intros Hwf [Hdo Hda] Hrow Ho.
  assert (add_object c row o = reinit c (np c ++ [row]) None (objs c ++ [o]) (atts c)) as ->.
  { unfold add_object. destruct (np c) as [|r0 rs] eqn:E; [done|].
    rewrite (rows_length c r0); [|done|rewrite E; left].
    rewrite Hrow, Nat.eqb_refl. done. }
  edestruct (reinit_effect c (np c ++ [row]) None (objs c ++ [o]) (atts c)) as (c' & Hc' & Hg & Ho' & Ha' & Hn');
    [| | | | |exists c'; split; [done|]; split; [done|]; split; [done|]; split; [done|]].
  - rewrite !app_length, (wf_rows c Hwf). done.
  - intros r [Hr| ->%elem_of_list_singleton]%elem_of_app; [by apply rows_length|done].
  - apply NoDup_app. repeat split; [done| |apply NoDup_singleton]. by intros x Hx ->%elem_of_list_singleton.
  - done.
  - by destruct (np c).
  - intros g m. rewrite !incident_zip, Ho', Ha', Hn', zip_with_app by by rewrite (wf_rows c Hwf).
    setoid_rewrite elem_of_app. simpl. setoid_rewrite elem_of_list_singleton. naive_solver.
Qed.

Lemma elem_of_zip_map {A} (f : A → bool) (l : list A) x :
  (x, true) ∈ zip l (map f l) ↔ x ∈ l ∧ f x = true.
Proof.
  induction l as [|y l IH]; simpl.
  - split; [by intros ?%elem_of_nil|]. intros [?%elem_of_nil _]. done.
  - rewrite !elem_of_cons, IH. split.
    + intros [[= -> ->]|[? ?]]; naive_solver.
    + intros [[->|?] Hf]; [left; by rewrite Hf|naive_solver].
Qed.
Lemma add_object_with_intent_effect c intent o :
  wf c → distinct c → o ∉ objs c →
  ∃ c', add_object_with_intent c intent o = (c', Ok tt) ∧ good c' ∧
    objs c' = objs c ++ [o] ∧ atts c' = atts c ∧
    ∀ g m, incident c' g m ↔ incident c g m ∨ (g = o ∧ m ∈ atts c ∧ m ∈ intent).
Proof.
  intros Hwf Hd Ho. unfold add_object_with_intent.
  destruct (add_object_effect c (map (λ a, bool_decide (a ∈ intent)) (atts c)) o)
    as (c' & ? & ? & ? & ? & Hinc); [done|done|by rewrite map_length|done|].
  exists c'. split; [done|]. split; [done|]. split; [done|]. split; [done|].
  intros g m. rewrite Hinc, elem_of_zip_map, bool_decide_eq_true. done.
Qed.

Lemma zip_snoc_col (ats : list name) a r b m :
  length r = length ats →
  (m, true) ∈ zip (ats ++ [a]) (r ++ [b]) ↔ (m, true) ∈ zip ats r ∨ (m = a ∧ b = true).
Proof.
  intros Hl. rewrite zip_with_app by done. rewrite elem_of_app. simpl.
  rewrite elem_of_list_singleton. naive_solver.
Qed.
Lemma elem_of_zip_fst {A B} (l : list A) (k : list B) x y : (x, y) ∈ zip l k → x ∈ l.
Proof. intros (i & ? & _)%elem_of_zip. by eapply elem_of_list_lookup_2. Qed.

Lemma add_attribute_effect c col a :
  wf c → distinct c → length col = length (objs c) → a ∉ atts c →
  ∃ c', add_attribute c col a = (c', Ok tt) ∧ wf c' ∧ distinct c' ∧ (objs c ≠ [] → good c') ∧
    objs c' = objs c ∧ atts c' = atts c ++ [a] ∧
    ∀ g m, incident c' g m ↔ incident c g m ∨ (m = a ∧ (g, true) ∈ zip (objs c) col).
Proof.
  intros Hwf [Hdo Hda] Hcol Ha. unfold add_attribute.
  rewrite Hcol, <-(wf_rows c Hwf), Nat.eqb_refl. cbn [negb].
  set (t := zip_with (λ r b, r ++ [b]) (np c) col).
  assert (∀ i r', t !! i = Some r' ↔ ∃ r b, r' = r ++ [b] ∧ np c !! i = Some r ∧ col !! i = Some b) as Ht.
  { intros i r'. unfold t. rewrite lookup_zip_with_Some. done. }
  assert (length t = length (objs c)) as Htl.
  { unfold t. rewrite zip_with_length, (wf_rows c Hwf). lia. }
  edestruct (reinit_Ok c t (match npz c with None => Some 2 | Some k => Some (S k) end) (objs c) (atts c ++ [a]))
    as (c' & Hc' & Hmk); [done| |].
  { intros r' [i Hi]%elem_of_list_lookup. apply Ht in Hi as (r & b & -> & Hr & _).
    rewrite !app_length. simpl. f_equal. eapply wf_cols; done. }
  assert (NoDup (atts c ++ [a])) as Hda'.
  { apply NoDup_app. repeat split; [done| |apply NoDup_singleton]. by intros x Hx ->%elem_of_list_singleton. }
  exists c'. split; [done|].
  pose proof (mk_context_wf _ _ _ _ _ Hmk) as Hwf'.
  pose proof Hmk as (_ & _ & Ho' & Ha' & Hn' & _)%mk_context_Ok.
  rewrite uniquify_NoDup in Ho', Ha' by done.
  assert (distinct c') as Hd' by (split; congruence).
  split; [done|]. split; [done|]. split; [|split; [done|]; split; [done|]].
  - intros Hne. split; [done|done|]. intros Hnil. exfalso. apply Hne.
    destruct (objs c); [done|]. rewrite Hn' in Hnil. rewrite Hnil in Htl. done.
  - intros g m. rewrite !incident_zip, Ho', Ha', Hn'. split.
    + intros (r' & (i & Hi & Hr')%elem_of_zip & Hm). apply Ht in Hr' as (r & b & -> & Hr & Hb).
      apply zip_snoc_col in Hm as [Hm|[-> ->]]; [| |by eapply wf_cols].
      * left. exists r. split; [|done]. apply elem_of_zip. eauto.
      * right. split; [done|]. apply elem_of_zip. eauto.
    + intros [(r & (i & Hi & Hr)%elem_of_zip & Hm)|[-> (i & Hi & Hb)%elem_of_zip]].
      * destruct (lookup_lt_is_Some_2 col i) as [b Hb].
        { rewrite Hcol. by eapply lookup_lt_Some. }
        exists (r ++ [b]). split; [apply elem_of_zip; exists i; split; [done|]; apply Ht; eauto|].
        apply zip_snoc_col; [by eapply wf_cols|]. by left.
      * destruct (row_exists c Hwf i) as (r & Hr & Hrl); [by eapply lookup_lt_Some|].
        exists (r ++ [true]). split; [apply elem_of_zip; exists i; split; [done|]; apply Ht; eauto|].
        apply zip_snoc_col; [done|]. by right.
Qed.
Lemma add_attribute_with_extent_effect c extent a :
  wf c → distinct c → a ∉ atts c →
  ∃ c', add_attribute_with_extent c extent a = (c', Ok tt) ∧ wf c' ∧ distinct c' ∧ (objs c ≠ [] → good c') ∧
    objs c' = objs c ∧ atts c' = atts c ++ [a] ∧
    ∀ g m, incident c' g m ↔ incident c g m ∨ (m = a ∧ g ∈ objs c ∧ g ∈ extent).
Proof.
  intros Hwf Hd Ha. unfold add_attribute_with_extent.
  destruct (add_attribute_effect c (map (λ o, bool_decide (o ∈ extent)) (objs c)) a)
    as (c' & ? & ? & ? & ? & ? & ? & Hinc); [done|done|by rewrite map_length|done|].
  exists c'. repeat (split; [done|]).
  intros g m. rewrite Hinc, elem_of_zip_map, bool_decide_eq_true. done.
Qed.

Lemma set_flags_spec n inds :
  (∀ i, i ∈ inds → i < n) →
  ∃ v, set_flags n inds = Ok v ∧ length v = n ∧ ∀ i, v !! i = Some true ↔ i ∈ inds.
Proof.
  intros H. unfold set_flags.
  assert (forallb (λ i, (i <? n)%nat) inds = true) as ->.
  { apply forallb_forall. intros i Hi%elem_of_list_In. by apply Nat.ltb_lt, H. }
  eexists. split; [done|].
  assert (∀ v, length v = n → 
    length (foldl (λ v i, <[i:=true]> v) v inds) = n ∧
    ∀ i, foldl (λ v i, <[i:=true]> v) v inds !! i = Some true ↔ i ∈ inds ∨ v !! i = Some true) as Hf.
  { induction inds as [|k inds IH]; intros v Hv; simpl.
    - split; [done|]. intros i. set_solver.
    - destruct (IH ltac:(set_solver) (<[k:=true]> v)) as [Hl Hi]; [by rewrite insert_length|].
      split; [done|]. intros i. rewrite Hi, elem_of_cons.
      destruct (decide (i = k)) as [->|].
      + rewrite list_lookup_insert; [naive_solver|]. rewrite Hv. apply H. left.
      + rewrite list_lookup_insert_ne by done. naive_solver. }
  destruct (Hf (replicate n false)) as [Hl Hi]; [apply replicate_length|].
  split; [done|]. intros i. rewrite Hi. split; [|by left].
  intros [?|[? _]%lookup_replicate_1]; done.
Qed.

Lemma set_object_intent_effect c intent o :
  wf c → distinct c → o ∈ objs c → (∀ a, a ∈ intent → a ∈ atts c) →
  ∃ c', set_object_intent c intent o = (c', Ok tt) ∧ good c' ∧
    objs c' = objs c ∧ atts c' = atts c ∧
    ∀ g m, incident c' g m ↔ (g ≠ o ∧ incident c g m) ∨ (g = o ∧ m ∈ intent).
Proof.
  intros Hwf [Hdo Hda] Ho Hint. unfold set_object_intent.
  destruct (mapM_aind c Hwf intent Hint) as [inds Hinds]. rewrite Hinds. simpl.
  assert (∀ i, i ∈ inds → i < length (atts c)) as Hlt.
  { intros i Hi. apply (mapM_elem _ _ _ _ Hinds) in Hi as (x & _ & Hx). apply aind_lt in Hx; [|done].
    by eapply lookup_lt_Some. }
  destruct (set_flags_spec (length (atts c)) inds Hlt) as (row & -> & Hrl & Hrow). simpl.
  destruct (oind_Ok c Hwf o Ho) as [i Hi]. rewrite Hi. simpl.
  pose proof (oind_lt c Hwf o i Hi) as Hio.
  assert (i < length (np c)) as Hil by (rewrite (wf_rows c Hwf); by eapply lookup_lt_Some).
  rewrite (proj2 (Nat.ltb_lt _ _) Hil).
  edestruct (reinit_effect (with_np_objs c (<[i:=row]> (np c)) (npz c) (objs c)) (<[i:=row]> (np c)) (npz c) (objs c) (atts c)) as (c' & Hc' & Hg & Ho' & Ha' & Hn');
    [| | | | |exists c'; split; [done|]; split; [done|]; split; [done|]; split; [done|]].
  - rewrite insert_length. apply wf_rows, Hwf.
  - intros r [k Hk]%elem_of_list_lookup. apply list_lookup_insert_Some in Hk as [(-> & <- & _)|[_ Hk]]; [done|].
    by eapply wf_cols.
  - done.
  - done.
  - intros Hnil. apply (f_equal length) in Hnil. rewrite insert_length in Hnil. simpl in Hnil. lia.
  - intros g m. rewrite !incident_zip, Ho', Ha', Hn'.
    setoid_rewrite elem_of_zip.
    assert ((∃ j, atts c !! j = Some m ∧ row !! j = Some true) ↔ m ∈ intent) as Hm.
    { setoid_rewrite Hrow. split.
      - intros (j & Hj & Hin). apply (mapM_elem _ _ _ _ Hinds) in Hin as (x & Hx & Hxj).
        apply aind_lt in Hxj; [|done]. congruence.
      - intros Hm. destruct (aind_Ok c Hwf m (Hint _ Hm)) as [j Hj].
        exists j. split; [by apply aind_lt|]. apply (mapM_elem _ _ _ _ Hinds). eauto. }
    split.
    + intros (r & (k & Hk & Hr) & Hj). apply list_lookup_insert_Some in Hr as [(<- & <- & _)|[Hne Hr]].
      * right. split; [congruence|]. by apply Hm.
      * left. split; [|naive_solver]. intros ->. apply Hne. eapply (NoDup_lookup (objs c)); done.
    + intros [[Hne (r & (k & Hk & Hr) & Hj)]|[-> Hmi]].
      * exists r. split; [|done]. exists k. split; [done|].
        rewrite list_lookup_insert_ne; [done|]. intros ->. congruence.
      * exists row. split; [|by apply Hm]. exists i. split; [done|]. by apply list_lookup_insert.
Qed.

Lemma set_attribute_extent_effect c extent a :
  wf c → distinct c → objs c ≠ [] → a ∈ atts c → (∀ g, g ∈ extent → g ∈ objs c) →
  ∃ c', set_attribute_extent c extent a = (c', Ok tt) ∧ good c' ∧
    objs c' = objs c ∧ atts c' = atts c ∧
    ∀ g m, incident c' g m ↔ (m ≠ a ∧ incident c g m) ∨ (m = a ∧ g ∈ extent).
Proof.
  intros Hwf [Hdo Hda] Hne Ha Hext. unfold set_attribute_extent.
  destruct (mapM_oind c Hwf extent Hext) as [inds Hinds]. rewrite Hinds. simpl.
  assert (∀ i, i ∈ inds → i < length (objs c)) as Hlt.
  { intros i Hi. apply (mapM_elem _ _ _ _ Hinds) in Hi as (x & _ & Hx). apply oind_lt in Hx; [|done].
    by eapply lookup_lt_Some. }
  destruct (set_flags_spec (length (objs c)) inds Hlt) as (col & -> & Hcl & Hcol). simpl.
  destruct (aind_Ok c Hwf a Ha) as [j Hj]. rewrite Hj. simpl.
  pose proof (aind_lt c Hwf a j Hj) as Hja.
  assert (j < length (atts c)) as Hjl by by eapply lookup_lt_Some.
  assert (np_set_col c j col = Ok (zip_with (λ r b, <[j:=b]> r) (np c) col)) as ->.
  { unfold np_set_col. destruct (np c) as [|r0 rs] eqn:E.
    - exfalso. apply Hne. pose proof (wf_rows c Hwf) as Hl. rewrite E in Hl. by destruct (objs c).
    - rewrite <-E.
      assert (forallb (λ r, (j <? length r)%nat) (np c) = true) as ->.
      { apply forallb_forall. intros r Hr%elem_of_list_In. apply Nat.ltb_lt.
        by rewrite (rows_length c r). }
      by rewrite Hcl, (wf_rows c Hwf), Nat.eqb_refl. }
  set (t := zip_with _ _ _).
  assert (∀ i r', t !! i = Some r' ↔ ∃ r b, r' = <[j:=b]> r ∧ np c !! i = Some r ∧ col !! i = Some b) as Ht.
  { intros i r'. unfold t. rewrite lookup_zip_with_Some. done. }
  assert (length t = length (objs c)) as Htl.
  { unfold t. rewrite zip_with_length, (wf_rows c Hwf). lia. }
  edestruct (reinit_effect (with_np_objs c t (npz c) (objs c)) t None (objs c) (atts c)) as (c' & Hc' & Hg & Ho' & Ha' & Hn');
    [done| |done|done|done|exists c'; split; [done|]; split; [done|]; split; [done|]; split; [done|]].
  - intros r' [k Hk]%elem_of_list_lookup. apply Ht in Hk as (r & b & -> & Hr & _).
    rewrite insert_length. by eapply wf_cols.
  - intros g m. unfold incident. rewrite Ho', Ha', Hn'.
    assert (∀ i, objs c !! i = Some g → col !! i = Some true ↔ g ∈ extent) as Hgx.
    { intros i Hi. rewrite Hcol. split.
      - intros Hin. apply (mapM_elem _ _ _ _ Hinds) in Hin as (x & Hx & Hxj).
        apply oind_lt in Hxj; [|done]. congruence.
      - intros Hgx. apply (mapM_elem _ _ _ _ Hinds). exists g. split; [done|].
        destruct (oind_Ok c Hwf g (Hext _ Hgx)) as [i' Hi']. rewrite Hi'. f_equal.
        apply oind_lt in Hi'; [|done]. eapply (NoDup_lookup (objs c)); done. }
    split.
    + intros (i & k & r' & Hi & Hk & Hr' & Hb). apply Ht in Hr' as (r & b & -> & Hr & Hcb).
      apply list_lookup_insert_Some in Hb as [(<- & -> & _)|[Hjk Hb]].
      * right. split; [congruence|]. by apply (Hgx i).
      * left. split; [|by exists i, k, r]. intros ->. apply Hjk. eapply (NoDup_lookup (atts c)); done.
    + intros [[Hma (i & k & r & Hi & Hk & Hr & Hb)]|[-> Hge]].
      * destruct (lookup_lt_is_Some_2 col i) as [b Hcb].
        { rewrite Hcl. by eapply lookup_lt_Some. }
        exists i, k, (<[j:=b]> r). split; [done|]. split; [done|]. split; [apply Ht; eauto|].
        rewrite list_lookup_insert_ne; [done|]. intros ->. congruence.
      * destruct (proj1 (elem_of_list_lookup _ _) (Hext _ Hge)) as [i Hi].
        destruct (row_exists c Hwf i) as (r & Hr & Hrl); [by eapply lookup_lt_Some|].
        exists i, j, (<[j:=true]> r). split; [done|]. split; [done|].
        split; [apply Ht; exists r, true; rewrite (Hgx i Hi); done|].
        apply list_lookup_insert. by rewrite Hrl.
Qed.

Lemma keep_incident c c' oi ai :
  wf c → distinct c →
  objs c' = keep_from 0 oi (objs c) → atts c' = keep_from 0 ai (atts c) →
  np c' = keep_from 0 oi (map (keep_from 0 ai) (np c)) →
  ∀ g m, incident c' g m ↔ incident c g m ∧ g ∈ objs c' ∧ m ∈ atts c'.
Proof.
  intros Hwf [Hdo Hda] Ho Ha Hn g m. rewrite !incident_zip, Ho, Ha, Hn, zip_keep_from.
  setoid_rewrite elem_of_keep_from. setoid_rewrite lookup_zip_with_Some.
  split.
  - intros (r' & (i & (g' & r & [= <- <-] & Hi & Hr) & Hio) & Hm).
    rewrite list_lookup_fmap in Hr. destruct (np c !! i) as [r|] eqn:Er; [|done]. simpl in Hr. injection Hr as <-.
    rewrite zip_keep_from in Hm. apply elem_of_keep_from in Hm as (j & Hj & Hja).
    apply lookup_zip_with_Some in Hj as (m' & b & [= <- <-] & Hjm & Hjb).
    split; [|split; eauto]. exists r. rewrite !elem_of_zip. split; eauto.
  - intros ((r & (i & Hi & Hr)%elem_of_zip & (j & Hj & Hb)%elem_of_zip) & (i' & Hi' & Hio) & (j' & Hj' & Hja)).
    assert (i = i') as <- by (eapply (NoDup_lookup (objs c)); done).
    assert (j = j') as <- by (eapply (NoDup_lookup (atts c)); done).
    exists (keep_from 0 ai r). split.
    + exists i. split; [|done]. exists g, (keep_from 0 ai r). rewrite list_lookup_fmap, Hr. done.
    + rewrite zip_keep_from. apply elem_of_keep_from. exists j. split; [|done].
      apply lookup_zip_with_Some. by exists m, true.
Qed.
Lemma map_keep_nil (t : list (list bool)) : map (keep_from 0 []) t = t.
Proof.
  induction t as [|r t IH]; simpl; [done|]. rewrite IH. f_equal.
  apply keep_from_all. by intros ? ?%elem_of_nil.
Qed.

Lemma delete_object_effect c o :
  wf c → distinct c → o ∈ objs c →
  ∃ c', delete_object c o = (c', Ok tt) ∧ good c' ∧
    objs c' = filter (λ x, x ≠ o) (objs c) ∧ atts c' = atts c ∧
    ∀ g m, incident c' g m ↔ g ≠ o ∧ incident c g m.
Proof.
  intros Hwf Hd Ho. pose proof Hd as [Hdo Hda].
  destruct (delete_object_ok c o Hwf Ho) as (i & c' & Hi & Hio & Hc' & Hmk).
  rewrite !delete_keep_from in Hmk.
  apply mk_context_good in Hmk as (Hg & Ho' & Ha' & Hn'); [|by apply NoDup_keep_from|done|done].
  assert (keep_from 0 [i] (objs c) = filter (λ x, x ≠ o) (objs c)) as Hk.
  { rewrite (keep_from_filter _ _ [o]).
    - apply list_filter_iff. intros x. by rewrite elem_of_list_singleton.
    - intros k x Hx. rewrite !elem_of_list_singleton. split; [intros ->; congruence|].
      intros ->. eapply (NoDup_lookup (objs c)); done. }
  exists c'. split; [done|]. split; [done|]. split; [congruence|]. split; [done|].
  intros g m. rewrite (keep_incident c c' [i] []).
  - rewrite Ho', Hk, elem_of_list_filter, Ha'. rewrite <-elem_of_fI.
    split; [naive_solver|]. intros [Hne H]. split; [done|].
    apply abs_fwf in H as [H1%elem_of_list_to_set H2%elem_of_list_to_set]. done.
  - done.
  - done.
  - done.
  - rewrite keep_from_all; [done|by intros ? ?%elem_of_nil].
  - by rewrite map_keep_nil.
Qed.

Lemma delete_cols_effect c c' inds ns :
  wf c → distinct c → mapM (aind c) ns = Ok inds →
  mk_context (map (keep_from 0 inds) (np c)) None (objs c) (keep_from 0 inds (atts c)) = Ok c' →
  good c' ∧ objs c' = objs c ∧ atts c' = filter (λ x, x ∉ ns) (atts c) ∧
  ∀ g m, incident c' g m ↔ m ∉ ns ∧ incident c g m.
Proof.
  intros Hwf Hd Hinds Hmk. pose proof Hd as [Hdo Hda].
  apply mk_context_good in Hmk as (Hg & Ho' & Ha' & Hn'); [|done|by apply NoDup_keep_from|done].
  assert (keep_from 0 inds (atts c) = filter (λ x, x ∉ ns) (atts c)) as Hk.
  { apply keep_from_filter. intros i x Hx. rewrite (mapM_elem _ _ _ _ Hinds). split.
    - intros (y & Hy & Hi). apply aind_lt in Hi; [|done]. congruence.
    - intros Hin. exists x. split; [done|].
      destruct (aind_Ok c Hwf x) as [i' Hi']; [by eapply elem_of_list_lookup_2|].
      rewrite Hi'. f_equal. apply aind_lt in Hi'; [|done]. eapply (NoDup_lookup (atts c)); done. }
  split; [done|]. split; [done|]. split; [congruence|].
  intros g m. rewrite (keep_incident c c' [] inds); [|done|done| |done|].
  - rewrite Ha', Hk, elem_of_list_filter, Ho'. rewrite <-elem_of_fI.
    split; [naive_solver|]. intros [Hne H]. split; [done|].
    apply abs_fwf in H as [H1%elem_of_list_to_set H2%elem_of_list_to_set]. done.
  - rewrite keep_from_all; [done|by intros ? ?%elem_of_nil].
  - rewrite keep_from_all; [done|by intros ? ?%elem_of_nil].
Qed.
Lemma np_delete_cols_Ok c inds : np c ≠ [] → wf c → (∀ i, i ∈ inds → i < length (atts c)) →
  np_delete_cols c inds = Ok (map (del_cols inds) (np c), None).
Proof.
  intros Hne Hwf H. unfold np_delete_cols. destruct (np c) as [|r0 rs] eqn:E; [done|].
  rewrite <-E.
  assert (forallb (λ r, forallb (λ i, (i <? length r)%nat) inds) (np c) = true) as ->; [|done].
  apply forallb_forall. intros r Hr%elem_of_list_In. apply forallb_forall. intros i Hi%elem_of_list_In.
  apply Nat.ltb_lt. rewrite (rows_length c r); auto.
Qed.
Lemma np_nonempty c : wf c → objs c ≠ [] ↔ np c ≠ [].
Proof. intros Hwf. pose proof (wf_rows c Hwf). destruct (objs c), (np c); naive_solver. Qed.

Lemma delete_attributes_effect c ns :
  wf c → distinct c → objs c ≠ [] → NoDup ns → (∀ a, a ∈ ns → a ∈ atts c) →
  ∃ c', delete_attributes c ns = (c', Ok tt) ∧ good c' ∧
    objs c' = objs c ∧ atts c' = filter (λ x, x ∉ ns) (atts c) ∧
    ∀ g m, incident c' g m ↔ m ∉ ns ∧ incident c g m.
Proof.
  intros Hwf Hd Hne Hns Hin.
  destruct (delete_attributes c ns) as [c1 r] eqn:E.
  pose proof E as Hok. apply delete_attributes_ok in Hok as [(e & -> & ->)|(inds & -> & Hinds & Hmk)]; [| |done|done].
  - exfalso. unfold delete_attributes in E.
    destruct (mapM_aind c Hwf ns Hin) as [inds Hinds]. rewrite Hinds in E. simpl in E.
    assert (∀ i, i ∈ inds → i < length (atts c)) as Hlt.
    { intros i Hi. apply (mapM_elem _ _ _ _ Hinds) in Hi as (x & _ & Hx). apply aind_lt in Hx; [|done].
      by eapply lookup_lt_Some. }
    rewrite np_delete_cols_Ok in E; [|by apply np_nonempty|done|done]. simpl in E.
    assert (NoDup inds) as Hnd.
    { apply NoDup_alt. intros p q i Hp Hq.
      destruct (mapM_lookup_r _ _ _ _ _ Hinds Hp) as (x & Hx & Hxi).
      destruct (mapM_lookup_r _ _ _ _ _ Hinds Hq) as (y & Hy & Hyi).
      apply aind_lt in Hxi, Hyi; [|done..]. rewrite Hxi in Hyi. simplify_eq.
      by eapply NoDup_lookup. }
    rewrite del_all_desc in E.
    2:{ by apply isort_desc. }
    2:{ intros i Hi. apply elem_of_isort in Hi. auto. }
    edestruct (reinit_Ok) as (c' & Hc' & _); [| |erewrite Hc' in E; done].
    + rewrite map_length. apply wf_rows, Hwf.
    + intros r' (r0 & -> & Hr0)%elem_of_list_fmap. rewrite del_cols_keep.
      rewrite (keep_from_elems (isort _ inds) inds) by (intros; apply elem_of_isort).
      apply keep_from_length_eq. by apply rows_length.
  - exists c1. split; [done|]. by eapply delete_cols_effect.
Qed.
Lemma delete_attribute_effect c a :
  wf c → distinct c → objs c ≠ [] → a ∈ atts c →
  ∃ c', delete_attribute c a = (c', Ok tt) ∧ good c' ∧
    objs c' = objs c ∧ atts c' = filter (λ x, x ≠ a) (atts c) ∧
    ∀ g m, incident c' g m ↔ m ≠ a ∧ incident c g m.
Proof.
  intros Hwf Hd Hne Ha. destruct (aind_Ok c Hwf a Ha) as [j Hj].
  pose proof (aind_lt c Hwf a j Hj) as Hja.
  assert (delete_attribute c a = reinit (with_np_atts c (map (del_cols [j]) (np c)) None (delete j (atts c)))
     (map (del_cols [j]) (np c)) None (objs c) (delete j (atts c))) as Heq.
  { unfold delete_attribute. rewrite Hj. simpl. rewrite np_delete_cols_Ok; [done|by apply np_nonempty|done|].
    intros i ->%elem_of_list_singleton. by eapply lookup_lt_Some. }
  destruct (delete_attribute c a) as [c1 r] eqn:E.
  pose proof E as Hok. apply delete_attribute_ok in Hok as [(e & -> & ->)|(j' & -> & Hj' & Hmk)]; [| |done].
  - exfalso. edestruct (reinit_Ok) as (c' & Hc' & _); [| |erewrite Hc' in Heq; done].
    + rewrite map_length. apply wf_rows, Hwf.
    + intros r' (r0 & -> & Hr0)%elem_of_list_fmap. rewrite del_cols_keep, delete_keep_from.
      apply keep_from_length_eq. by apply rows_length.
  - exists c1. split; [done|]. rewrite delete_keep_from in Hmk.
    eapply (delete_cols_effect c c1 [j'] [a]) in Hmk as (? & ? & Ha' & Hinc); [|done|done|].
    + split; [done|]. split; [done|]. split.
      * rewrite Ha'. apply list_filter_iff. intros x. rewrite elem_of_list_singleton. done.
      * intros g m. rewrite Hinc, elem_of_list_singleton. done.
    + simpl. rewrite Hj'. done.
Qed.

Lemma insert_rename (l : list name) i old new :
  NoDup l → l !! i = Some old → <[i:=new]> l = map (λ x, if decide (x = old) then new else x) l.
Proof.
  intros Hnd Hi. apply list_eq. intros k. rewrite list_lookup_fmap.
  destruct (decide (k = i)) as [->|].
  - rewrite list_lookup_insert by by eapply lookup_lt_Some. rewrite Hi. simpl. by rewrite decide_True.
  - rewrite list_lookup_insert_ne by done. destruct (l !! k) as [x|] eqn:E; simpl; [|done].
    rewrite decide_False; [done|]. intros ->. eapply (NoDup_lookup l) in Hi; [|done|exact E]. done.
Qed.
Lemma NoDup_rename (l : list name) old new :
  NoDup l → new ∉ l ∨ new = old → NoDup (map (λ x, if decide (x = old) then new else x) l).
Proof.
  intros Hnd Hnew. apply (NoDup_fmap_2_strong _ l); [|done].
  intros x y Hx Hy. destruct (decide (x = old)), (decide (y = old)); naive_solver.
Qed.
Lemma rename_object_effect c old new :
  wf c → distinct c → shape_ok c → old ∈ objs c → new ∉ objs c ∨ new = old →
  ∃ c', rename_object c old new = (c', Ok tt) ∧ good c' ∧
    objs c' = map (λ x, if decide (x = old) then new else x) (objs c) ∧ atts c' = atts c ∧
    ∀ g m, incident c' g m ↔ (g = new ∧ incident c old m) ∨ (g ≠ new ∧ g ≠ old ∧ incident c g m).
Proof.
  intros Hwf [Hdo Hda] Hs Ho Hnew. unfold rename_object.
  destruct (oind_Ok c Hwf old Ho) as [i Hi]. rewrite Hi.
  pose proof (oind_lt c Hwf old i Hi) as Hio.
  assert (i < length (objs c)) as Hil by by eapply lookup_lt_Some.
  rewrite (proj2 (Nat.ltb_lt _ _) Hil). rewrite (insert_rename _ _ old) by done.
  edestruct (reinit_effect (with_np_objs c (np c) (npz c) (map (λ x, if decide (x = old) then new else x) (objs c))) (np c) (npz c) (map (λ x, if decide (x = old) then new else x) (objs c)) (atts c))
    as (c' & Hc' & Hg & Ho' & Ha' & Hn');
    [| | | | |exists c'; split; [done|]; split; [done|]; split; [done|]; split; [done|]].
  - rewrite map_length. apply wf_rows, Hwf.
  - intros r Hr. by apply rows_length.
  - by apply NoDup_rename.
  - done.
  - done.
  - intros g m. unfold incident. rewrite Ho', Ha', Hn'. setoid_rewrite list_lookup_fmap.
    split.
    + intros (k & j & r & Hk & Hj & Hr & Hb). destruct (objs c !! k) as [x|] eqn:Ex; [|done].
      simpl in Hk. injection Hk as Hk. destruct (decide (x = old)) as [->|].
      * left. split; [done|]. by exists k, j, r.
      * subst x. destruct (decide (g = new)) as [->|].
        -- exfalso. destruct Hnew as [Hnew|Hnew]; [|congruence]. apply Hnew. by eapply elem_of_list_lookup_2.
        -- right. split; [done|]. split; [done|]. by exists k, j, r.
    + intros [[-> (k & j & r & Hk & Hj & Hr & Hb)]|(H1 & H2 & (k & j & r & Hk & Hj & Hr & Hb))].
      * exists k, j, r. rewrite Hk. simpl. by rewrite decide_True.
      * exists k, j, r. rewrite Hk. simpl. by rewrite decide_False.
Qed.
Lemma rename_attribute_effect c old new :
  wf c → distinct c → shape_ok c → old ∈ atts c → new ∉ atts c ∨ new = old →
  ∃ c', rename_attribute c old new = (c', Ok tt) ∧ good c' ∧
    objs c' = objs c ∧ atts c' = map (λ x, if decide (x = old) then new else x) (atts c) ∧
    ∀ g m, incident c' g m ↔ (m = new ∧ incident c g old) ∨ (m ≠ new ∧ m ≠ old ∧ incident c g m).
Proof.
  intros Hwf [Hdo Hda] Hs Ho Hnew. unfold rename_attribute.
  destruct (aind_Ok c Hwf old Ho) as [i Hi]. rewrite Hi.
  pose proof (aind_lt c Hwf old i Hi) as Hio.
  assert (i < length (atts c)) as Hil by by eapply lookup_lt_Some.
  rewrite (proj2 (Nat.ltb_lt _ _) Hil). rewrite (insert_rename _ _ old) by done.
  edestruct (reinit_effect (with_np_atts c (np c) (npz c) (map (λ x, if decide (x = old) then new else x) (atts c))) (np c) (npz c) (objs c) (map (λ x, if decide (x = old) then new else x) (atts c)))
    as (c' & Hc' & Hg & Ho' & Ha' & Hn');
    [| | | | |exists c'; split; [done|]; split; [done|]; split; [done|]; split; [done|]].
  - apply wf_rows, Hwf.
  - intros r Hr. rewrite map_length. by apply rows_length.
  - done.
  - by apply NoDup_rename.
  - intros Hn. rewrite map_length. by apply Hs.
  - intros g m. unfold incident. rewrite Ho', Ha', Hn'. setoid_rewrite list_lookup_fmap.
    split.
    + intros (k & j & r & Hk & Hj & Hr & Hb). destruct (atts c !! j) as [x|] eqn:Ex; [|done].
      simpl in Hj. injection Hj as Hj. destruct (decide (x = old)) as [->|].
      * left. split; [done|]. by exists k, j, r.
      * subst x. destruct (decide (m = new)) as [->|].
        -- exfalso. destruct Hnew as [Hnew|Hnew]; [|congruence]. apply Hnew. by eapply elem_of_list_lookup_2.
        -- right. split; [done|]. split; [done|]. by exists k, j, r.
    + intros [[-> (k & j & r & Hk & Hj & Hr & Hb)]|(H1 & H2 & (k & j & r & Hk & Hj & Hr & Hb))].
      * exists k, j, r. rewrite Hj. simpl. by rewrite decide_True.
      * exists k, j, r. rewrite Hj. simpl. by rewrite decide_False.
Qed.
