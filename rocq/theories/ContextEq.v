(** * Equality of contexts *)
From Verif Require Import Py Spec ContextModel ContextSpec ContextOps PyFacts SpecFacts ContextFacts ContextInit ContextMisc ContextReduce.
From Coq Require Import Ascii.

(** Same objects, same attributes, same incidence, in any order. *)
Definition same_relation (c d : context) : Prop :=
  (∀ g, g ∈ objs c ↔ g ∈ objs d) ∧ (∀ m, m ∈ atts c ↔ m ∈ atts d) ∧
  ∀ g m, incident c g m ↔ incident d g m.

(** Character [ch] does not occur in [s]. *)
Fixpoint sfree (ch : Ascii.ascii) (s : string) : Prop :=
  match s with EmptyString => True | String x s' => x ≠ ch ∧ sfree ch s' end.
Definition ch_tab := Ascii.ascii_of_nat 9.
Definition ch_nl := Ascii.ascii_of_nat 10.
Definition ch_comma : Ascii.ascii := ","%char.

(** The printed form of [c] and [d] is unambiguous. *)
Definition printable (c d : context) : Prop :=
  (∀ a b, a ∈ objs c → b ∈ objs d → pystr a = pystr b → a = b) ∧
  (∀ a b, a ∈ atts c → b ∈ atts d → pystr a = pystr b → a = b) ∧
  (∀ a, a ∈ objs c ++ objs d → sfree ch_tab (pystr a)) ∧
  (∀ a, a ∈ atts c ++ atts d → pystr a ≠ "" ∧ sfree ch_nl (pystr a) ∧ sfree ch_comma (pystr a)).

Lemma split_first ch s1 s2 r1 r2 :
  sfree ch s1 → sfree ch s2 →
  (s1 ++ String ch r1)%string = (s2 ++ String ch r2)%string → s1 = s2 ∧ r1 = r2.
Proof.
  revert s2. induction s1 as [|x s1 IH]; intros [|y s2] H1 H2 H; simpl in *.
  - by injection H.
  - injection H as <- _. by destruct H2.
  - injection H as -> _. by destruct H1.
  - injection H as <- H. destruct H1, H2. destruct (IH s2) as [-> ->]; done.
Qed.
Lemma sfree_app ch s1 s2 : sfree ch (s1 ++ s2)%string ↔ sfree ch s1 ∧ sfree ch s2.
Proof. induction s1; simpl; [tauto|]. rewrite IHs1. tauto. Qed.
Lemma not_sfree ch s1 s2 : ¬ sfree ch (s1 ++ String ch s2)%string.
Proof. rewrite sfree_app. simpl. tauto. Qed.

Lemma join_comma_inj l1 l2 :
  (∀ s, s ∈ l1 → s ≠ "" ∧ sfree ch_comma s) → (∀ s, s ∈ l2 → s ≠ "" ∧ sfree ch_comma s) →
  join ", " l1 = join ", " l2 → l1 = l2.
Proof.
  revert l2. induction l1 as [|s1 l1 IH]; intros [|s2 l2] H1 H2 H.
  - done.
  - exfalso. destruct (H2 s2) as [Hne _]; [left|]. destruct s2; [done|]. by destruct l2.
  - exfalso. destruct (H1 s1) as [Hne _]; [left|]. destruct s1; [done|]. by destruct l1.
  - destruct (H1 s1) as [_ Hf1]; [left|]. destruct (H2 s2) as [_ Hf2]; [left|].
    destruct l1 as [|t1 l1], l2 as [|t2 l2].
    + simpl in H. by subst.
    + cbn [join] in H. rewrite H in Hf1. by apply not_sfree in Hf1.
    + cbn [join] in H. rewrite <-H in Hf2. by apply not_sfree in Hf2.
    + change (join ", " (s1 :: t1 :: l1)) with (s1 ++ String ch_comma (" " ++ join ", " (t1 :: l1)))%string in H.
      change (join ", " (s2 :: t2 :: l2)) with (s2 ++ String ch_comma (" " ++ join ", " (t2 :: l2)))%string in H.
      apply split_first in H as [-> H]; [|done..]. f_equal. apply IH.
      * intros s Hs. apply H1. by right.
      * intros s Hs. apply H2. by right.
      * by injection H.
Qed.
Lemma join_comma_free ch l :
  (ch ≠ ch_comma) → (ch ≠ " "%char) → (∀ s, s ∈ l → sfree ch s) → sfree ch (join ", " l).
Proof.
  intros Hc Hs. induction l as [|s l IH]; intros H; [done|].
  destruct l as [|t l]; [apply H; left|].
  change (join ", " (s :: t :: l)) with (s ++ String ch_comma (String " " (join ", " (t :: l))))%string.
  apply sfree_app. split; [apply H; left|]. cbn [sfree]. split; [done|]. split; [done|].
  apply IH. intros s' Hs'. apply H. by right.
Qed.

Lemma repr_row_free ch r : ch ≠ "X"%char → ch ≠ "."%char → sfree ch (repr_row r).
Proof.
  intros H1 H2. induction r as [|b r IH]; [done|]. unfold repr_row in *. cbn [map].
  destruct r as [|b' r]; [destruct b; simpl; naive_solver|].
  change (join "" (map cross_char (b :: b' :: r))) with (cross_char b ++ join "" (map cross_char (b' :: r)))%string.
  apply sfree_app. split; [destruct b; simpl; naive_solver|done].
Qed.
Lemma join_cons s l : join "" (s :: l) = (s ++ join "" l)%string.
Proof. destruct l; [|done]. simpl. induction s as [|a s IH]; [done|]. change (String a s = String a (s ++ "")%string). congruence. Qed.
Lemma repr_row_inj r1 r2 : repr_row r1 = repr_row r2 → r1 = r2.
Proof.
  revert r2. unfold repr_row. induction r1 as [|b r1 IH]; intros [|b' r2] H; [done|..].
  - cbn [map] in H. rewrite join_cons in H. by destruct b'.
  - cbn [map] in H. rewrite join_cons in H. by destruct b.
  - cbn [map] in H. rewrite !join_cons in H. destruct b, b'; simpl in H; injection H as H; f_equal; auto.
Qed.

(** The printed form, row by row. *)
Definition repr_line (p : name * list bool) : string :=
  (pystr p.1 ++ tab ++ repr_row p.2 ++ newline)%string.
Lemma repr_spec c : wf c →
  repr c = Ok (join ", " (map pystr (atts c)) ++ newline ++ join "" (map repr_line (zip (objs c) (np c))))%string.
Proof.
  intros Hwf. unfold repr.
  assert (∀ l k, (∀ i r, l !! i = Some r → np c !! (k + i) = Some r) → ∀ os, length os = length l →
    mapM (fun p : nat * name => r ← np_row c p.1; Ok (pystr p.2 ++ tab ++ repr_row r ++ newline)%string)
              (imap (fun i o => (k + i, o)) os) = Ok (map repr_line (zip os l))) as H.
  { induction l as [|r l IH]; intros k Hk [|o os] Hl; try done. simpl.
    rewrite Nat.add_0_r. rewrite (np_row_Some c k r) by (rewrite <-(Hk 0 r eq_refl); f_equal; lia). simpl.
    specialize (IH (S k)). rewrite (imap_ext _ (λ i o, (S k + i, o))) by (intros; simpl; f_equal; lia).
    rewrite IH; [done| |by injection Hl]. intros i r' Hi. rewrite <-(Hk (S i) r' Hi). f_equal. lia. }
  rewrite (H (np c) 0); [done|done|]. symmetry. by apply wf_rows.
Qed.
Lemma repr_lines_inj (l1 l2 : list (name * list bool)) :
  (∀ p, p ∈ l1 → sfree ch_tab (pystr p.1)) → (∀ p, p ∈ l2 → sfree ch_tab (pystr p.1)) →
  join "" (map repr_line l1) = join "" (map repr_line l2) →
  map (λ p : name * list bool, (pystr p.1, p.2)) l1 = map (λ p : name * list bool, (pystr p.1, p.2)) l2.
Proof.
  revert l2. induction l1 as [|[g1 r1] l1 IH]; intros [|[g2 r2] l2] H1 H2 H; [done|..].
  - cbn [map] in H. rewrite join_cons in H. unfold repr_line in H. simpl in H. by destruct (pystr g2).
  - cbn [map] in H. rewrite join_cons in H. unfold repr_line in H. simpl in H. by destruct (pystr g1).
  - cbn [map] in H. rewrite !join_cons in H. unfold repr_line at 1 3 in H. cbn [fst snd] in H.
    assert (∀ g r t, ((pystr g ++ tab ++ repr_row r ++ newline) ++ t)%string = (pystr g ++ String ch_tab (repr_row r ++ String ch_nl t))%string) as E.
    { assert (∀ a b d, ((a ++ b) ++ d)%string = (a ++ b ++ d)%string) as As.
      { clear. induction a as [|x a IH]; intros b d; [done|]. change (String x ((a ++ b) ++ d) = String x (a ++ b ++ d))%string. by rewrite IH. }
      intros g r t. rewrite !As. done. }
    rewrite !E in H. apply split_first in H as [Hg H]; [|apply (H1 (g1, r1)); left|apply (H2 (g2, r2)); left].
    apply split_first in H as [Hr%repr_row_inj H]; [|by apply repr_row_free..].
    cbn [map]. cbn [fst snd]. rewrite Hg, Hr. f_equal. apply IH.
    + intros p Hp. apply H1. by right.
    + intros p Hp. apply H2. by right.
    + done.
Qed.
Lemma map_pystr_inj l1 l2 :
  (∀ a b, a ∈ l1 → b ∈ l2 → pystr a = pystr b → a = b) → map pystr l1 = map pystr l2 → l1 = l2.
Proof.
  revert l2. induction l1 as [|x l1 IH]; intros [|y l2] H E; try done. injection E as E1 E2. f_equal.
  - apply H; [left|left|done].
  - apply IH; [|done]. intros; apply H; [by right|by right|done].
Qed.
Lemma repr_inj c d : wf c → wf d → printable c d → repr c = repr d →
  objs c = objs d ∧ atts c = atts d ∧ np c = np d.
Proof.
  intros Hc Hd (Po & Pa & Pt & Pn) H. rewrite !repr_spec in H by done. injection H as H.
  assert (∀ c' s, s ∈ map pystr (atts c') → (∀ a, a ∈ atts c' → a ∈ atts c ++ atts d) → s ≠ "" ∧ sfree ch_nl s ∧ sfree ch_comma s) as Hs.
  { intros c' s (a & -> & Ha)%elem_of_list_fmap Hin. auto. }
  change (newline ++ ?s)%string with (String ch_nl s) in H.
  apply split_first in H as [Ha H].
  - apply join_comma_inj in Ha.
    + apply map_pystr_inj in Ha; [|done].
      apply repr_lines_inj in H.
      * assert (∀ (c : context), wf c → map (λ p : name * list bool, (pystr p.1, p.2)) (zip (objs c) (np c)) = zip (map pystr (objs c)) (np c)) as E.
        { intros c' Hc'. pose proof (wf_rows c' Hc') as Hl. clear -Hl. revert Hl.
          generalize (np c') as l. induction (objs c') as [|o os IH]; intros [|r l] Hl; try done.
          simpl. f_equal. apply IH. simpl in Hl. lia. }
        rewrite !E in H by done. clear E.
        assert (map pystr (objs c) = map pystr (objs d) ∧ np c = np d) as [E1 E2].
        { pose proof (wf_rows c Hc) as L1. pose proof (wf_rows d Hd) as L2. split.
          - apply (f_equal (map fst)) in H. change (@map ?A ?B) with (@fmap list _ A B) in H. rewrite !fst_zip in H; [done|rewrite fmap_length; lia..].
          - apply (f_equal (map snd)) in H. change (@map ?A ?B) with (@fmap list _ A B) in H. rewrite !snd_zip in H; [done|rewrite fmap_length; lia..]. }
        split; [|done]. by apply map_pystr_inj.
      * intros [g r] (i & x & y & [= -> ->] & Hx & _)%elem_of_lookup_zip_with. apply Pt, elem_of_app. left. by eapply elem_of_list_lookup_2.
      * intros [g r] (i & x & y & [= -> ->] & Hx & _)%elem_of_lookup_zip_with. apply Pt, elem_of_app. right. by eapply elem_of_list_lookup_2.
    + intros s Hs'. apply (Hs c) in Hs' as (? & ? & ?); [done|]. intros; apply elem_of_app; by left.
    + intros s Hs'. apply (Hs d) in Hs' as (? & ? & ?); [done|]. intros; apply elem_of_app; by right.
  - apply join_comma_free; [done..|]. intros s Hs'. apply (Hs c) in Hs' as (? & ? & ?); [done|]. intros; apply elem_of_app; by left.
  - apply join_comma_free; [done..|]. intros s Hs'. apply (Hs d) in Hs' as (? & ? & ?); [done|]. intros; apply elem_of_app; by right.
Qed.

Lemma incident_lists c d g m : objs c = objs d → atts c = atts d → np c = np d → incident c g m ↔ incident d g m.
Proof. intros E1 E2 E3. unfold incident. by rewrite E1, E2, E3. Qed.

(** The table comparison of [__eq__]. *)
Lemma eq_table c d : wf c → distinct c → wf d → distinct d →
  (∀ g, g ∈ objs c ↔ g ∈ objs d) → (∀ m, m ∈ atts c ↔ m ∈ atts d) →
  ∃ oi ai t, mapM (fun o => py_index o (objs d)) (objs c) = Ok oi ∧
    mapM (fun a => py_index a (atts d)) (atts c) = Ok ai ∧
    mapM (fun i => mapM (fun j => cell d i j) ai) oi = Ok t ∧
    (t = cross c ↔ ∀ g m, incident c g m ↔ incident d g m).
Proof.
  intros Hc [Hco Hca] Hd [Hdo Hda] Ho Ha.
  destruct (mapM_is_ok (fun o => py_index o (objs d)) (objs c)) as [oi Hoi].
  { intros o Ho'%Ho. apply py_index_Some in Ho' as [i Hi]. eauto. }
  destruct (mapM_is_ok (fun o => py_index o (atts d)) (atts c)) as [ai Hai].
  { intros o Ho'%Ha. apply py_index_Some in Ho' as [i Hi]. eauto. }
  assert (∀ k o, objs c !! k = Some o → ∃ i, oi !! k = Some i ∧ objs d !! i = Some o) as Hok.
  { intros k o Hk. destruct (mapM_lookup _ _ _ _ _ Hoi Hk) as (i & Hi & H). exists i. split; [done|]. by apply py_index_Ok in H. }
  assert (∀ k o, atts c !! k = Some o → ∃ i, ai !! k = Some i ∧ atts d !! i = Some o) as Hak.
  { intros k o Hk. destruct (mapM_lookup _ _ _ _ _ Hai Hk) as (i & Hi & H). exists i. split; [done|]. by apply py_index_Ok in H. }
  pose proof (mapM_length _ _ _ Hoi) as Lo. pose proof (mapM_length _ _ _ Hai) as La.
  assert (∀ i, i ∈ oi → i < length (objs d)) as Hoil.
  { intros i Hi. apply (mapM_elem _ _ _ _ Hoi) in Hi as (o & _ & H%py_index_Ok). by eapply lookup_lt_Some. }
  assert (∀ i, i ∈ ai → i < length (atts d)) as Hail.
  { intros i Hi. apply (mapM_elem _ _ _ _ Hai) in Hi as (o & _ & H%py_index_Ok). by eapply lookup_lt_Some. }
  assert (∀ i, i ∈ oi → ∃ r, mapM (fun j => cell d i j) ai = Ok r) as Hrow.
  { intros i Hi. apply mapM_is_ok. intros j Hj. destruct (cellb_exists d Hd i j) as [b Hb]; [auto|auto|].
    exists b. by apply cell_cellb. }
  destruct (mapM_is_ok (fun i => mapM (fun j => cell d i j) ai) oi) as [t Ht]; [done|].
  exists oi, ai, t. split; [done|]. split; [done|]. split; [done|].
  assert (∀ k l g m, objs c !! k = Some g → atts c !! l = Some m →
    ∃ r b, t !! k = Some r ∧ r !! l = Some b ∧ (b = true ↔ incident d g m)) as Hcell.
  { intros k l g m Hk Hl. destruct (Hok k g Hk) as (i & Hi & Hdi). destruct (Hak l m Hl) as (j & Hj & Hdj).
    destruct (mapM_lookup _ _ _ _ _ Ht Hi) as (r & Hr & Hrm).
    destruct (mapM_lookup _ _ _ _ _ Hrm Hj) as (b & Hb & Hbm). exists r, b. split; [done|]. split; [done|].
    rewrite <-elem_of_fI, (incident_cell d i j g m) by done.
    destruct (cellb_exists d Hd i j) as [b' Hb']; [by eapply lookup_lt_Some|by eapply lookup_lt_Some|].
    rewrite (cell_cellb d i j b' Hb') in Hbm. injection Hbm as ->. rewrite Hb'. naive_solver. }
  rewrite (wf_cross c Hc). split.
  - intros -> g m. split.
    + intros (k & l & r & Hk & Hl & Hr & Hb). destruct (Hcell k l g m Hk Hl) as (r' & b & Hr' & Hb' & Hbm).
      apply Hbm. congruence.
    + intros Hdi. assert (g ∈ objs c ∧ m ∈ atts c) as [[k Hk]%elem_of_list_lookup [l Hl]%elem_of_list_lookup].
      { apply elem_of_fI, abs_fwf in Hdi as [Hg Hm]. rewrite Ho, Ha.
        split; [by apply elem_of_fG|by apply elem_of_fM]. }
      destruct (Hcell k l g m Hk Hl) as (r' & b & Hr' & Hb' & Hbm). apply Hbm in Hdi as ->. by exists k, l, r'.
  - intros Hinc. apply list_eq. intros k.
    destruct (objs c !! k) as [g|] eqn:Hk.
    + destruct (Hok k g Hk) as (i & Hi & _). destruct (mapM_lookup _ _ _ _ _ Ht Hi) as (r & Hr & Hrm).
      destruct (row_exists c Hc k) as (r' & Hr' & Hrl); [by eapply lookup_lt_Some|].
      rewrite Hr, Hr'. f_equal. apply list_eq. intros l. destruct (atts c !! l) as [m|] eqn:Hl.
      * destruct (Hcell k l g m Hk Hl) as (r2 & b & Hr2 & Hb & Hbm). assert (r2 = r) as -> by congruence.
        destruct (lookup_lt_is_Some_2 r' l) as [b' Hb']; [rewrite Hrl; by eapply lookup_lt_Some|].
        rewrite Hb, Hb'. f_equal. apply eq_true_iff_eq. rewrite Hbm, <-Hinc, <-elem_of_fI, (incident_cell c k l g m) by done.
        unfold cellb. rewrite Hr'. simpl. rewrite Hb'. naive_solver.
      * apply lookup_ge_None in Hl. rewrite !lookup_ge_None_2; [done|lia|]. rewrite (mapM_length _ _ _ Hrm). lia.
    + apply lookup_ge_None in Hk. rewrite !lookup_ge_None_2; [done| |].
      * rewrite (wf_rows c Hc). lia.
      * rewrite (mapM_length _ _ _ Ht). lia.
Qed.

Lemma context_eq_complete c d : good c → good d → same_relation c d → context_eq c d = Ok true.
Proof.
  intros [Hc Hcd _] [Hd Hdd _] (Ho & Ha & Hi). unfold context_eq. rewrite !repr_spec by done. cbn [mbind res_bind].
  destruct (String.eqb _ _); [done|].
  assert (length (objs c) = length (objs d)) as L1.
  { apply Permutation_length, NoDup_Permutation; [apply Hcd|apply Hdd|done]. }
  assert (length (atts c) = length (atts d)) as L2.
  { apply Permutation_length, NoDup_Permutation; [apply Hcd|apply Hdd|done]. }
  rewrite L1, L2, !Nat.eqb_refl. cbn [negb orb].
  rewrite !bool_decide_eq_true_2; [|set_solver..]. cbn [negb orb].
  destruct (eq_table c d) as (oi & ai & t & E1 & E2 & E3 & Et); [done..|].
  rewrite E1. cbn [mbind res_bind]. rewrite E2. cbn [mbind res_bind]. rewrite E3. cbn [mbind res_bind].
  by rewrite bool_decide_eq_true_2 by by apply Et.
Qed.
Lemma context_eq_sound c d : good c → good d → printable c d →
  context_eq c d = Ok true → same_relation c d.
Proof.
  intros [Hc Hcd _] [Hd Hdd _] Hp H. unfold context_eq in H. 
  destruct (repr c) as [rc|] eqn:Rc; [|done]. destruct (repr d) as [rd|] eqn:Rd; [|done]. cbn [mbind res_bind] in H.
  destruct (String.eqb_spec rc rd) as [->|].
  - destruct (repr_inj c d) as (E1 & E2 & E3); [done..|congruence|].
    split; [by rewrite E1|]. split; [by rewrite E2|]. intros g m. by apply incident_lists.
  - destruct (_ || _); [done|].
    destruct (_ || _) eqn:E; [done|]. apply orb_false_iff in E as [E1%negb_false_iff%bool_decide_eq_true E2%negb_false_iff%bool_decide_eq_true].
    assert (∀ g, g ∈ objs c ↔ g ∈ objs d) as Ho.
    { intros g. rewrite <-!(elem_of_list_to_set (C := gset name)). by rewrite E1. }
    assert (∀ g, g ∈ atts c ↔ g ∈ atts d) as Ha.
    { intros g. rewrite <-!(elem_of_list_to_set (C := gset name)). by rewrite E2. }
    destruct (eq_table c d) as (oi & ai & t & E3 & E4 & E5 & Et); [done..|].
    rewrite E3 in H. cbn [mbind res_bind] in H. rewrite E4 in H. cbn [mbind res_bind] in H. rewrite E5 in H. cbn [mbind res_bind] in H.
    injection H as H%bool_decide_eq_true. split; [done|]. split; [done|]. by apply Et.
Qed.
Lemma context_eq_total c d : good c → good d → ∃ b, context_eq c d = Ok b.
Proof.
  intros [Hc Hcd _] [Hd Hdd _]. unfold context_eq. rewrite !repr_spec by done. cbn [mbind res_bind].
  destruct (String.eqb _ _); [eauto|]. destruct (_ || _); [eauto|].
  destruct (_ || _) eqn:E; [eauto|]. apply orb_false_iff in E as [E1%negb_false_iff%bool_decide_eq_true E2%negb_false_iff%bool_decide_eq_true].
  destruct (eq_table c d) as (oi & ai & t & E3 & E4 & E5 & Et); [done..| | |].
  - intros g. rewrite <-!(elem_of_list_to_set (C := gset name)). by rewrite E1.
  - intros g. rewrite <-!(elem_of_list_to_set (C := gset name)). by rewrite E2.
  - rewrite E3. cbn [mbind res_bind]. rewrite E4. cbn [mbind res_bind]. rewrite E5. cbn [mbind res_bind]. eauto.
Qed.
