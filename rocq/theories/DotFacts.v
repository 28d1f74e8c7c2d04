(** * dot export *)
From Coq Require Import Ascii.
From Verif Require Import Py PyFacts Spec SpecFacts ContextModel ContextSpec ContextOps ContextFacts ContextInit ContextFinal
  StrModel StrSpec StrFacts FileModel CxtFileModel FileSpec FileFacts CxtFileFacts LatticeSpec LatticeModel NorrisFacts LatticeFacts
  DotModel DotSpec.
Local Open Scope string_scope.

Lemma own_names_filter sel ord cs x : own_names sel ord cs x =
  List.filter (fun n => negb (existsb (fun y => bool_decide (sel y ⊂ sel x) && bool_decide (n ∈ sel y)) cs)) (ord (sel x)).
Proof.
  unfold own_names. generalize (ord (sel x)) as l. intros l.
  assert (∀ acc, foldl (fun acc n => if existsb (fun y => bool_decide (sel y ⊂ sel x) && bool_decide (n ∈ sel y)) cs
                      then acc else acc ++ [n])%list acc l = (acc ++ List.filter (fun n => negb (existsb (fun y => bool_decide (sel y ⊂ sel x) && bool_decide (n ∈ sel y)) cs)) l)%list) as H.
  { induction l as [|n l IH]; intros acc; [by rewrite app_nil_r|]. cbn [foldl List.filter]. rewrite IH.
    destruct (existsb _ cs); cbn [negb]; [done|]. by rewrite <-app_assoc. }
  apply (H []).
Qed.
Lemma own_names_spec sel ord cs x : (∀ X, ord X ≡ₚ elements X) →
  NoDup (own_names sel ord cs x) ∧
  ∀ n, n ∈ own_names sel ord cs x ↔ n ∈ sel x ∧ ¬ ∃ y, y ∈ cs ∧ sel y ⊂ sel x ∧ n ∈ sel y.
Proof.
  intros Ho. rewrite own_names_filter. split.
  - apply NoDup_ListNoDup, List.NoDup_filter, NoDup_ListNoDup. rewrite Ho. apply NoDup_elements.
  - intros n. rewrite elem_of_list_In, filter_In, <-elem_of_list_In, Ho, elem_of_elements, negb_true_iff.
    rewrite <-not_true_iff_false, existsb_exists. setoid_rewrite <-elem_of_list_In.
    setoid_rewrite andb_true_iff. setoid_rewrite bool_decide_eq_true. done.
Qed.
Lemma find_own_ok sel ord cs : (∀ x, x ∈ cs → chash x = true) → ∃ d, find_own sel ord cs = Ok d ∧
  (∀ x, is_Some (dget x d) ↔ x ∈ cs) ∧ ∀ x, x ∈ cs → dget x d = Some (own_names sel ord cs x).
Proof.
  intros H. unfold find_own.
  assert (forallb chash cs = true) as ->. { apply forallb_forall. intros x Hx%elem_of_list_In. by apply H. }
  eexists. split; [done|].
  assert (∀ x, is_Some (dget x (dict_of (map (λ x, (x, own_names sel ord cs x)) cs))) ↔ x ∈ cs) as Hk.
  { intros x. rewrite dget_is_Some, elem_of_keys_dict_of, map_map. cbn [fst]. by rewrite map_id. }
  split; [done|]. intros x Hx. apply Hk in Hx as [v Hv]. rewrite Hv. apply dget_dict_of_elem in Hv.
  apply elem_of_list_fmap in Hv as (y & [= -> ->] & _). done.
Qed.

Section lattice.
  Context (c : context) (Hg : good c) (Ho : comparable (objs c) = true) (Ha : comparable (atts c) = true).
  Context (cs : list fconcept) (Hcs : ∀ A B, (A, B) ∈ cs ↔ is_concept (abs c) A B).
  Context (ord : gset name → list name) (Hord : ∀ X, ord X ≡ₚ elements X).
  Let K := abs c.
  Lemma all_hash x : x ∈ cs → chash x = true.
  Proof. destruct x as [A B]. intros Hx%Hcs. by apply (concept_hash c Ho Ha). Qed.
  Lemma concept_has_ocl g A B : is_concept K A B → g ∈ A → ocl K {[g]} ⊆ A.
  Proof.
    intros (H1 & H2 & H3 & H4) Hx. rewrite <-H4, <-H3. apply ocl_mono. set_solver.
  Qed.
  Lemma concept_has_acl m A B : is_concept K A B → m ∈ B → acl K {[m]} ⊆ B.
  Proof.
    intros (H1 & H2 & H3 & H4) Hx. rewrite <-H3, <-H4. apply acl_mono. set_solver.
  Qed.
  Lemma own_objects_spec x : x ∈ cs → NoDup (own_names fst ord cs x) ∧
    ∀ g, g ∈ own_names fst ord cs x ↔ object_concept K g x.
  Proof.
    intros Hx. destruct (own_names_spec fst ord cs x Hord) as [H1 H2]. split; [done|]. intros g. rewrite H2. clear H1 H2.
    destruct x as [A B]. apply Hcs in Hx as HC. destruct (HC) as (HA & HB & HU & HD). cbn [fst snd].
    unfold object_concept. cbn [fst snd]. split.
    - intros [Hgx Hno]. assert (g ∈ fG K) as HgG by by apply HA. split; [done|].
      assert (A = ocl K {[g]}) as E.
      { destruct (decide (A ⊆ ocl K {[g]})) as [Hs|Hs].
        - apply set_eq. intros y. split; [apply Hs|]. by apply (concept_has_ocl g A B).
        - exfalso. apply Hno. exists (ocl K {[g]}, up K {[g]}). split; [|split].
          + apply Hcs. apply concept_of_objects. set_solver.
          + cbn. split; [by apply (concept_has_ocl g A B)|done].
          + cbn. apply ocl_ext; set_solver. }
      split; [done|]. rewrite <-HU, E. apply up_down_up. set_solver.
    - intros (HgG & E & _). split.
      + rewrite E. apply ocl_ext; set_solver.
      + intros ([A1 B1] & Hy%Hcs & Hs & Hin). cbn [fst] in *. apply (concept_has_ocl g A1 B1) in Hin; [|done].
        destruct Hs as [_ Hs]. apply Hs. by rewrite E.
  Qed.
  Lemma own_attributes_spec x : x ∈ cs → NoDup (own_names snd ord cs x) ∧
    ∀ m, m ∈ own_names snd ord cs x ↔ attribute_concept K m x.
  Proof.
    intros Hx. destruct (own_names_spec snd ord cs x Hord) as [H1 H2]. split; [done|]. intros m. rewrite H2. clear H1 H2.
    destruct x as [A B]. apply Hcs in Hx as HC. destruct (HC) as (HA & HB & HU & HD). cbn [fst snd].
    unfold attribute_concept. cbn [fst snd]. split.
    - intros [Hgx Hno]. assert (m ∈ fM K) as HgG by by apply HB. split; [done|].
      assert (B = acl K {[m]}) as E.
      { destruct (decide (B ⊆ acl K {[m]})) as [Hs|Hs].
        - apply set_eq. intros y. split; [apply Hs|]. by apply (concept_has_acl m A B).
        - exfalso. apply Hno. exists (down K {[m]}, acl K {[m]}). split; [|split].
          + apply Hcs. apply concept_of_attributes. set_solver.
          + cbn. split; [by apply (concept_has_acl m A B)|done].
          + cbn. apply acl_ext; set_solver. }
      split; [|done]. rewrite <-HD, E. apply down_up_down. set_solver.
    - intros (HgG & _ & E). split.
      + rewrite E. apply acl_ext; set_solver.
      + intros ([A1 B1] & Hy%Hcs & Hs & Hin). cbn [snd] in *. apply (concept_has_acl m A1 B1) in Hin; [|done].
        destruct Hs as [_ Hs]. apply Hs. by rewrite E.
  Qed.
  Lemma find_own_lattice :
    (∃ d, find_own_objects ord cs = Ok d ∧ ∀ x, (is_Some (dget x d) ↔ x ∈ cs) ∧
       ∀ l, dget x d = Some l → NoDup l ∧ ∀ g, g ∈ l ↔ object_concept K g x) ∧
    (∃ d, find_own_attributes ord cs = Ok d ∧ ∀ x, (is_Some (dget x d) ↔ x ∈ cs) ∧
       ∀ l, dget x d = Some l → NoDup l ∧ ∀ m, m ∈ l ↔ attribute_concept K m x).
  Proof.
    split.
    - destruct (find_own_ok fst ord cs all_hash) as (d & Hd & H1 & H2). exists d. split; [done|]. intros x.
      split; [apply H1|]. intros l Hl. assert (x ∈ cs) as Hx by (apply H1; by eexists).
      rewrite H2 in Hl by done. injection Hl as <-. by apply own_objects_spec.
    - destruct (find_own_ok snd ord cs all_hash) as (d & Hd & H1 & H2). exists d. split; [done|]. intros x.
      split; [apply H1|]. intros l Hl. assert (x ∈ cs) as Hx by (apply H1; by eexists).
      rewrite H2 in Hl by done. injection Hl as <-. by apply own_attributes_spec.
  Qed.
End lattice.

(** ** Text *)
Lemma join_label l : join (backslash_n ++ " ") l = label_text l.
Proof.
  destruct l as [|x l]; [done|]. revert x. induction l as [|y l IH]; intros x.
  - cbn [join label_text map concat_strings]. by rewrite app_nil_r_s.
  - change (join (backslash_n ++ " ") (x :: y :: l)) with (x ++ (backslash_n ++ " ") ++ join (backslash_n ++ " ") (y :: l)).
    rewrite IH. cbn [label_text map concat_strings]. by rewrite app_assoc_s.
Qed.
Lemma join_names_str l : join_names (map NStr l) = Ok (label_text l).
Proof.
  unfold join_names. assert (mapM (λ x, match x with NStr s => Ok s | NInt _ => Err TypeError end) (map NStr l) = Ok l) as ->.
  { induction l as [|x l IH]; [done|]. cbn [map]. by rewrite mapM_cons, IH. }
  cbn [mbind res_bind]. by rewrite join_label.
Qed.
Lemma sconcat_spec l : sconcat l = concat_strings l.
Proof. induction l as [|x l IH]; [done|]. by rewrite sconcat_cons, IH. Qed.
Lemma dget_dset_ne {V} (x y : fconcept) (v : V) d : x ≠ y → dget y (dset x v d) = dget y d.
Proof. intros H. rewrite dget_dset. by rewrite decide_False by done. Qed.
Lemma dot_label_ok which style d i x l : chash x = true → dget x d = Some (map NStr l) →
  ∃ d', dot_label which (style ++ "]") d i x = Ok (label_line which style i (abbreviate l), d') ∧
    ∀ y, y ≠ x → dget y d' = dget y d.
Proof.
  intros Hx Hd. unfold dot_label. rewrite (cget_ok _ _ _ Hx Hd). cbn [mbind res_bind].
  destruct l as [|a l]; [by exists d|]. set (k := a :: l).
  change (map NStr (a :: l)) with (map NStr k).
  assert (∃ b k', abbreviate k = b :: k') as (b & k' & E).
  { unfold abbreviate. destruct (5 <=? length k)%nat; by eexists _, _. }
  exists (dset x (map NStr (abbreviate k)) d). split.
  - replace (if (5 <=? length (map NStr k))%nat then [NStr (pretty (length (map NStr k)))] else map NStr k)
      with (map NStr (abbreviate k)).
    2:{ unfold abbreviate. rewrite map_length. by destruct (5 <=? length k)%nat. }
    rewrite join_names_str. subst k. cbn [map mbind res_bind]. f_equal. f_equal. unfold label_line. rewrite E.
    unfold quote. rewrite !app_assoc_s. done.
  - intros y Hy. by rewrite dget_dset_ne.
Qed.
Lemma dot_nodes_ok (fo fa : fconcept → list string) cs : ∀ dob dat i, NoDup cs →
  (∀ x, x ∈ cs → chash x = true ∧ dget x dob = Some (map NStr (fo x)) ∧ dget x dat = Some (map NStr (fa x))) →
  dot_nodes dob dat i cs = Ok (concat_strings (imap (λ k x, node_text (i + k) (fo x) (fa x)) cs)).
Proof.
  induction cs as [|x cs IH]; intros dob dat i Hnd H; [done|]. cbn [dot_nodes].
  apply NoDup_cons in Hnd as [Hx Hnd]. destruct (H x) as (H1 & H2 & H3); [by left|].
  destruct (dot_label_ok "headlabel" "labeldistance=1,labelangle=270,color=transparent" dob i x (fo x) H1 H2) as (d1 & E1 & F1).
  destruct (dot_label_ok "taillabel" "labeldistance=2,labelangle=90,color=transparent" dat i x (fa x) H1 H3) as (d2 & E2 & F2).
  change head_style with ("labeldistance=1,labelangle=270,color=transparent" ++ "]"). rewrite E1. cbn [mbind res_bind].
  change tail_style with ("labeldistance=2,labelangle=90,color=transparent" ++ "]"). rewrite E2. cbn [mbind res_bind fst snd].
  rewrite IH; [|done|].
  - cbn [mbind res_bind imap concat_strings]. f_equal.
    rewrite (imap_ext ((λ k x, node_text (i + k) (fo x) (fa x)) ∘ S) (λ k x, node_text (S i + k) (fo x) (fa x))).
    2:{ intros k y _. cbn. by rewrite Nat.add_succ_r. }
    unfold node_text at 2. unfold node_line. rewrite Nat.add_0_r, !app_assoc_s. done.
  - intros y Hy. assert (y ≠ x) by (intros ->; done). rewrite F1, F2 by done. apply H. by right.
Qed.

(** ** Edges *)
Lemma sconcat_concat (l : list (list string)) : sconcat (map sconcat l) = sconcat (concat l).
Proof. induction l as [|x l IH]; [done|]. cbn [map concat]. by rewrite sconcat_cons, sconcat_app, IH. Qed.
Lemma imap_pair_map {A B} (f : nat → A → B) l : map (λ p, f p.1 p.2) (imap pair l) = imap f l.
Proof. change (@map (nat * A) B) with (@fmap list _ (nat * A) B). rewrite <-imap_fmap || idtac. apply list_eq. intros i.
  rewrite list_lookup_fmap, !list_lookup_imap. by destruct (l !! i).
Qed.
Lemma dot_edges_ok (ordc : gset fconcept → list fconcept) cs : (∀ X, ordc X ≡ₚ elements X) → NoDup cs →
  (∀ x, x ∈ cs → chash x = true) →
  ∃ es : list (nat * nat), dot_edges ordc cs = Ok (concat_strings (map edge_line es)) ∧ NoDup es ∧
    ∀ k i, (k, i) ∈ es ↔ ∃ x y, cs !! i = Some x ∧ cs !! k = Some y ∧ covers cs y x.
Proof.
  intros Ho Hnd Hh. destruct (covering_ok cs Hh) as (d & Hd & Hk & Hs).
  unfold dot_edges. rewrite Hd. cbn [mbind res_bind].
  set (pos := λ y : fconcept, match py_index y cs with Ok k => k | Err _ => 0%nat end).
  set (pa := λ x : fconcept, default ∅ (dget x d)).
  assert (∀ x y, x ∈ cs → y ∈ pa x ↔ covers cs y x) as Hpa.
  { intros x y Hx. apply Hk in Hx as [v Hv]. unfold pa. rewrite Hv. cbn. by apply Hs. }
  assert (∀ y i, cs !! i = Some y → pos y = i ∧ py_index y cs = Ok i) as Hpos.
  { intros y i Hi. assert (py_index y cs = Ok i) as E by (by apply py_index_NoDup). unfold pos. by rewrite E. }
  set (row := λ (i : nat) (x : fconcept), map (λ y, (pos y, i)) (ordc (pa x))).
  exists (concat (imap row cs)). split; [|split].
  - rewrite (mapM_Ok_map _ (λ p, sconcat (map edge_line (row p.1 p.2)))).
    + cbn [mbind res_bind]. f_equal. rewrite <-sconcat_spec.
      rewrite (imap_pair_map (λ i x, sconcat (map edge_line (row i x)))).
      rewrite <-(imap_pair_map row), concat_map, map_map, <-sconcat_concat, map_map.
      by rewrite (imap_pair_map (λ i x, sconcat (map edge_line (row i x)))).
    + intros [i x] Hin. apply elem_of_list_lookup in Hin as (j & Hj). rewrite list_lookup_imap in Hj.
      destruct (cs !! j) as [x'|] eqn:Ej; [|done]. cbn in Hj. injection Hj as <- <-. cbn [fst snd].
      assert (x' ∈ cs) as Hx by by eapply elem_of_list_lookup_2.
      destruct (proj2 (Hk x') Hx) as [v Hv]. rewrite (cget_ok _ _ _ (Hh x' Hx) Hv). cbn [mbind res_bind].
      rewrite (mapM_Ok_map _ (λ y, edge_line (pos y, j))).
      * cbn [mbind res_bind]. unfold row, pa. rewrite Hv. cbn [default]. by rewrite map_map.
      * intros y Hy. rewrite Ho, elem_of_elements in Hy. apply (Hs x' v Hv) in Hy as [Hy _].
        apply elem_of_list_lookup in Hy as (q & Hq). destruct (Hpos y q Hq) as [E1 E2]. rewrite E2. cbn [mbind res_bind].
        by rewrite E1.
  - assert (∀ (l : list fconcept) n, (∀ x, x ∈ l → x ∈ cs) → NoDup (concat (imap (λ i x, row (n + i)%nat x) l)) ∧
      ∀ k i, (k, i) ∈ concat (imap (λ i x, row (n + i)%nat x) l) → (n ≤ i)%nat) as HH.
    { induction l as [|x l IH]; intros n Hl; [split; [constructor|by intros ?? ?%elem_of_nil]|].
      cbn [imap concat]. destruct (IH (S n)) as [I1 I2]; [intros; apply Hl; by right|].
      rewrite (imap_ext ((λ i x, row (n + i)%nat x) ∘ S) (λ i x, row (S n + i)%nat x)).
      2:{ intros k y _. cbn. by rewrite Nat.add_succ_r. }
      split.
      - apply NoDup_app. split; [|split; [|done]].
        + apply NoDup_fmap_2_strong; [|rewrite Ho; apply NoDup_elements].
          intros y z Hy Hz [= E]. rewrite Ho, elem_of_elements in Hy, Hz.
          apply Hpa in Hy as [Hy _], Hz as [Hz _]; [|by apply Hl; left..].
          apply elem_of_list_lookup in Hy as (p & Hp), Hz as (q & Hq).
          destruct (Hpos y p Hp) as [E1 _], (Hpos z q Hq) as [E2 _]. congruence.
        + intros [k i] Hin Hin2. apply I2 in Hin2. apply elem_of_list_fmap in Hin as (y & [= _ ->] & _). lia.
      - intros k i. rewrite elem_of_app. intros [Hin|Hin].
        + apply elem_of_list_fmap in Hin as (y & [= _ ->] & _). lia.
        + apply I2 in Hin. lia. }
    apply (HH cs 0%nat). done.
  - intros k i. rewrite elem_of_list_In, in_concat. setoid_rewrite <-elem_of_list_In. split.
    + intros (l & Hl & Hin). apply elem_of_list_lookup in Hl as (j & Hj). rewrite list_lookup_imap in Hj.
      destruct (cs !! j) as [x|] eqn:Ej; [|done]. cbn in Hj. injection Hj as <-.
      apply elem_of_list_fmap in Hin as (y & [= -> ->] & Hy). rewrite Ho, elem_of_elements in Hy.
      apply Hpa in Hy; [|by eapply elem_of_list_lookup_2]. exists x, y. split; [done|].
      pose proof Hy as [Hin _]. apply elem_of_list_lookup in Hin as (q & Hq).
      destruct (Hpos y q Hq) as [E1 _]. by rewrite E1.
    + intros (x & y & Hx & Hy & Hc). exists (row i x). split.
      * apply elem_of_list_lookup. exists i. by rewrite list_lookup_imap, Hx.
      * apply elem_of_list_fmap. exists y. split; [by destruct (Hpos y k Hy) as [-> _]|].
        rewrite Ho, elem_of_elements. apply Hpa; [by eapply elem_of_list_lookup_2|done].
Qed.

(** ** The whole file *)
Lemma map_NStr_pystr l : (∀ x, x ∈ l → is_str x = true) → map NStr (map pystr l) = l.
Proof.
  intros H. rewrite map_map. induction l as [|x l IH]; [done|]. cbn [map]. rewrite IH by (intros; apply H; by right).
  f_equal. specialize (H x). destruct x; [done|]. by discriminate H; left.
Qed.
Lemma imap_seq {A B} (f : nat → A → B) (g : nat → B) l : (∀ i x, l !! i = Some x → f i x = g i) → imap f l = map g (seq 0 (length l)).
Proof.
  intros H. apply list_eq. intros i. rewrite list_lookup_imap, list_lookup_fmap.
  destruct (l !! i) as [x|] eqn:E.
  - rewrite lookup_seq_lt by by eapply lookup_lt_Some. cbn. f_equal. by apply H.
  - rewrite lookup_seq_ge by by apply lookup_ge_None. done.
Qed.
Lemma strings_comparable l : (∀ x, x ∈ l → is_str x = true) → comparable l = true.
Proof. intros H. unfold comparable. apply orb_true_iff. left. apply forallb_forall. intros x Hx%elem_of_list_In. by apply H. Qed.

(** An integer name that would be printed. *)
Definition unprintable (l : list name) : Prop := (∃ n, NInt n ∈ l) ∧ (length l < 5)%nat.
Section final.
  Context (c : context) (Hg : good c) (Ho : comparable (objs c) = true) (Ha : comparable (atts c) = true).
  Context (cs : list fconcept) (Hnd : NoDup cs) (Hcs : ∀ A B, (A, B) ∈ cs ↔ is_concept (abs c) A B).
  Context (ord : gset name → list name) (Hord : ∀ X, ord X ≡ₚ elements X).
  Context (ordc : gset fconcept → list fconcept) (Hordc : ∀ X, ordc X ≡ₚ elements X).
  Let K := abs c.
  Let nth (i : nat) : fconcept := default (∅, ∅) (cs !! i).
  Lemma edges_final : ∃ es : list (nat * nat), dot_edges ordc cs = Ok (concat_strings (map edge_line es)) ∧ NoDup es ∧
    ∀ k i, (k, i) ∈ es ↔ ∃ x y, cs !! i = Some x ∧ cs !! k = Some y ∧ is_upper_cover K y x.
  Proof.
    destruct (dot_edges_ok ordc cs Hordc Hnd (all_hash c Ho Ha cs Hcs)) as (es & H1 & H2 & H3).
    exists es. split; [done|]. split; [done|]. intros k i. rewrite H3. split.
    - intros (x & y & Hx & Hy & Hc). exists x, y. split; [done|]. split; [done|].
      apply (covers_upper c cs y x); [done|by eapply elem_of_list_lookup_2|done].
    - intros (x & y & Hx & Hy & Hc). exists x, y. split; [done|]. split; [done|].
      apply (covers_upper c cs y x); [done|by eapply elem_of_list_lookup_2|done].
  Qed.
  Lemma own_objs_sub x g : x ∈ cs → g ∈ own_names fst ord cs x → g ∈ objs c.
  Proof. intros Hx Hin. apply (own_objects_spec c Hg Ho Ha cs Hcs ord Hord x Hx) in Hin as [H _]. by apply elem_of_list_to_set in H. Qed.
  Lemma own_atts_sub x m : x ∈ cs → m ∈ own_names snd ord cs x → m ∈ atts c.
  Proof. intros Hx Hin. apply (own_attributes_spec c Hg Ho Ha cs Hcs ord Hord x Hx) in Hin as [H _]. by apply elem_of_list_to_set in H. Qed.
  Lemma labels_final (Hstr : ∀ x, x ∈ (objs c ++ atts c)%list → is_str x = true) : ∀ i x, cs !! i = Some x →
    (NoDup (map pystr (own_names fst ord cs x)) ∧ ∀ g, g ∈ map pystr (own_names fst ord cs x) ↔ object_concept K (NStr g) x) ∧
    (NoDup (map pystr (own_names snd ord cs x)) ∧ ∀ m, m ∈ map pystr (own_names snd ord cs x) ↔ attribute_concept K (NStr m) x).
  Proof.
    intros i x Hi. assert (x ∈ cs) as Hx by by eapply elem_of_list_lookup_2.
    destruct (own_objects_spec c Hg Ho Ha cs Hcs ord Hord x Hx) as [N1 M1]. destruct (own_attributes_spec c Hg Ho Ha cs Hcs ord Hord x Hx) as [N2 M2].
    assert (∀ y, y ∈ own_names fst ord cs x → is_str y = true) as S1.
    { intros y Hy. apply Hstr, elem_of_app. left. by eapply own_objs_sub. }
    assert (∀ y, y ∈ own_names snd ord cs x → is_str y = true) as S2.
    { intros y Hy. apply Hstr, elem_of_app. right. by eapply own_atts_sub. }
    split; split.
    - apply NoDup_fmap_2_strong; [|done]. intros y z Hy%S1 Hz%S1. destruct y, z; try done. cbn. by intros ->.
    - intros g. unfold K. rewrite <-M1. split.
      + intros Hin. apply elem_of_list_fmap in Hin as (y & -> & Hy). pose proof (S1 y Hy). by destruct y.
      + intros Hin. apply elem_of_list_fmap. by exists (NStr g).
    - apply NoDup_fmap_2_strong; [|done]. intros y z Hy%S2 Hz%S2. destruct y, z; try done. cbn. by intros ->.
    - intros g. unfold K. rewrite <-M2. split.
      + intros Hin. apply elem_of_list_fmap in Hin as (y & -> & Hy). pose proof (S2 y Hy). by destruct y.
      + intros Hin. apply elem_of_list_fmap. by exists (NStr g).
  Qed.
  Lemma write_dot_final path (Hstr : ∀ x, x ∈ (objs c ++ atts c)%list → is_str x = true) : path ≠ "" →
    ∃ (fo fa : nat → list string) (es : list (nat * nat)),
      write_dot ord ordc cs path = Ok (dot_header ++ concat_strings (map (λ i, node_text i (fo i) (fa i)) (seq 0 (length cs))) ++
        concat_strings (map edge_line es) ++ "}") ∧
      (∀ i x, cs !! i = Some x → (NoDup (fo i) ∧ ∀ g, g ∈ fo i ↔ object_concept K (NStr g) x) ∧
                                 (NoDup (fa i) ∧ ∀ m, m ∈ fa i ↔ attribute_concept K (NStr m) x)) ∧
      NoDup es ∧ ∀ k i, (k, i) ∈ es ↔ ∃ x y, cs !! i = Some x ∧ cs !! k = Some y ∧ is_upper_cover K y x.
  Proof.
    intros Hp. destruct edges_final as (es & He & Hes).
    exists (λ i, map pystr (own_names fst ord cs (nth i))), (λ i, map pystr (own_names snd ord cs (nth i))), es.
    split; [|split; [|done]].
    - unfold write_dot. rewrite decide_False by done.
      destruct (find_own_ok fst ord cs (all_hash c Ho Ha cs Hcs)) as (d1 & Hd1 & _ & G1).
      destruct (find_own_ok snd ord cs (all_hash c Ho Ha cs Hcs)) as (d2 & Hd2 & _ & G2).
      unfold find_own_objects, find_own_attributes. rewrite Hd1. cbn [mbind res_bind]. rewrite Hd2. cbn [mbind res_bind].
      rewrite (dot_nodes_ok (λ x, map pystr (own_names fst ord cs x)) (λ x, map pystr (own_names snd ord cs x))); [|done|].
      + cbn [mbind res_bind]. rewrite He. cbn [mbind res_bind]. f_equal. f_equal. f_equal. f_equal.
        apply imap_seq. intros i x Hi. subst nth. cbn beta. rewrite Hi. done.
      + intros x Hx. split; [by apply (all_hash c Ho Ha cs Hcs)|].
        rewrite !map_NStr_pystr; [by rewrite G1, G2|..].
        * intros y Hy. apply Hstr, elem_of_app. right. by eapply own_atts_sub.
        * intros y Hy. apply Hstr, elem_of_app. left. by eapply own_objs_sub.
    - intros i x Hi. subst nth. cbn beta. rewrite Hi. cbn [default]. by apply (labels_final Hstr i).
  Qed.
  Lemma udot_label_ok dist (full : bool) which angle d i x l : chash x = true → dget x d = Some l →
    (full = true → ∀ y, y ∈ l → is_str y = true) →
    let shown := if full then first_six (map pystr l) else count_only (map pystr l) in
    ∃ d', udot_label dist full which angle d i x =
        Ok (label_line which ("labeldistance=" ++ dist (length shown) ++ ",labelangle=" ++ angle ++ ",color=transparent") i shown, d') ∧
      ∀ y, y ≠ x → dget y d' = dget y d.
  Proof.
    intros Hx Hd Hs shown. unfold udot_label. rewrite (cget_ok _ _ _ Hx Hd). cbn [mbind res_bind].
    destruct l as [|a l]; [exists d; by destruct full|]. set (k := a :: l) in *.
    set (own2 := map NStr shown).
    assert ((let own1 := if full then k else [NStr (pretty (length k))] in
             if (6 <? length own1)%nat then (take 6 own1 ++ [NStr "..."])%list else own1) = own2) as E.
    { subst own2 shown. destruct full.
      - unfold first_six. rewrite map_length. destruct (6 <? length k)%nat.
        + rewrite map_app, <-firstn_map.
          rewrite <-(map_NStr_pystr k) at 1 by (by apply Hs). 
          done.
        + symmetry. apply map_NStr_pystr. by apply Hs.
      - cbn. by rewrite map_length. }
    cbn zeta in E. exists (dset x own2 d). split; [|intros y Hy; by rewrite dget_dset_ne].
    subst k. cbn zeta. rewrite E. subst own2. rewrite join_names_str. cbn [mbind res_bind]. rewrite map_length.
    f_equal. f_equal.
    assert (∃ b r, shown = b :: r) as (b & r & Es).
    { subst shown. destruct full; [|by eexists _, _]. unfold first_six. cbn [map]. destruct (6 <? length (pystr a :: map pystr l))%nat; eexists _, _; cbn [take app]; reflexivity. }
    unfold label_line. rewrite Es. unfold quote. rewrite !app_assoc_s. done.
  Qed.
  Lemma udot_labels_ok dist (full : bool) (fo fa : fconcept → list name) l : ∀ dob dat i, NoDup l →
    (∀ x, x ∈ l → chash x = true ∧ dget x dob = Some (fo x) ∧ dget x dat = Some (fa x) ∧
       (full = true → ∀ y, y ∈ (fo x ++ fa x)%list → is_str y = true)) →
    udot_labels dist full dob dat i l = Ok (concat_strings (imap (λ k x,
      ulabel dist "headlabel" "270" (i + k) (shown_names full (map pystr (fo x))) ++ ulabel dist "taillabel" "90" (i + k) (shown_names full (map pystr (fa x)))) l)).
  Proof.
    clear. induction l as [|x l IH]; intros dob dat i Hnd H; [done|]. cbn [udot_labels].
    apply NoDup_cons in Hnd as [Hx Hnd]. destruct (H x) as (H1 & H2 & H3 & H4); [by left|].
    destruct (udot_label_ok dist full "headlabel" "270" dob i x (fo x) H1 H2) as (d1 & E1 & F1).
    { intros Hf y Hy. apply (H4 Hf), elem_of_app. by left. }
    destruct (udot_label_ok dist full "taillabel" "90" dat i x (fa x) H1 H3) as (d2 & E2 & F2).
    { intros Hf y Hy. apply (H4 Hf), elem_of_app. by right. }
    rewrite E1. cbn [mbind res_bind]. rewrite E2. cbn [mbind res_bind fst snd].
    rewrite IH; [|done|].
    - cbn [mbind res_bind imap concat_strings]. f_equal.
      rewrite (imap_ext ((λ k x, ulabel dist "headlabel" "270" (i + k) (shown_names full (map pystr (fo x))) ++ ulabel dist "taillabel" "90" (i + k) (shown_names full (map pystr (fa x)))) ∘ S)
        (λ k x, ulabel dist "headlabel" "270" (S i + k) (shown_names full (map pystr (fo x))) ++ ulabel dist "taillabel" "90" (S i + k) (shown_names full (map pystr (fa x))))).
      2:{ intros k y _. cbn. by rewrite Nat.add_succ_r. }
      rewrite Nat.add_0_r, app_assoc_s. done.
    - intros y Hy. assert (y ≠ x) by (intros ->; done). rewrite F1, F2 by done. apply H. by right.
  Qed.
  Lemma uwrite_dot_final dist path (full : bool) : path ≠ "" →
    (full = true → ∀ x, x ∈ (objs c ++ atts c)%list → is_str x = true) →
    ∃ (fo fa : nat → list name) (es : list (nat * nat)),
      uwrite_dot dist ord ordc cs path full = Ok (udot_header ++ concat_strings (map node_line (seq 0 (length cs))) ++
        concat_strings (map edge_line es) ++
        concat_strings (map (λ i, ulabel dist "headlabel" "270" i (shown_names full (map pystr (fo i))) ++
                                  ulabel dist "taillabel" "90" i (shown_names full (map pystr (fa i)))) (seq 0 (length cs))) ++ "}") ∧
      (∀ i x, cs !! i = Some x → (NoDup (fo i) ∧ ∀ g, g ∈ fo i ↔ object_concept K g x) ∧
                                 (NoDup (fa i) ∧ ∀ m, m ∈ fa i ↔ attribute_concept K m x)) ∧
      NoDup es ∧ ∀ k i, (k, i) ∈ es ↔ ∃ x y, cs !! i = Some x ∧ cs !! k = Some y ∧ is_upper_cover K y x.
  Proof.
    intros Hp Hstr. destruct edges_final as (es & He & Hes).
    exists (λ i, own_names fst ord cs (nth i)), (λ i, own_names snd ord cs (nth i)), es.
    split; [|split; [|done]].
    - unfold uwrite_dot. rewrite decide_False by done.
      destruct (find_own_ok fst ord cs (all_hash c Ho Ha cs Hcs)) as (d1 & Hd1 & _ & G1).
      destruct (find_own_ok snd ord cs (all_hash c Ho Ha cs Hcs)) as (d2 & Hd2 & _ & G2).
      unfold find_own_objects, find_own_attributes. rewrite Hd1. cbn [mbind res_bind]. rewrite Hd2. cbn [mbind res_bind].
      rewrite He. cbn [mbind res_bind].
      rewrite (udot_labels_ok dist full (own_names fst ord cs) (own_names snd ord cs)); [|done|].
      + cbn [mbind res_bind]. f_equal. f_equal. rewrite sconcat_spec. f_equal. f_equal. f_equal. f_equal.
        apply imap_seq. intros i x Hi. subst nth. cbn beta. rewrite Hi. done.
      + intros x Hx. split; [by apply (all_hash c Ho Ha cs Hcs)|]. split; [by apply G1|]. split; [by apply G2|].
        intros Hf y [Hy|Hy]%elem_of_app; apply (Hstr Hf), elem_of_app.
        * left. by eapply own_objs_sub.
        * right. by eapply own_atts_sub.
    - intros i x Hi. subst nth. cbn beta. rewrite Hi. cbn [default].
      assert (x ∈ cs) as Hx by by eapply elem_of_list_lookup_2. unfold K. split.
      + by apply (own_objects_spec c Hg Ho Ha cs Hcs ord Hord x Hx).
      + by apply (own_attributes_spec c Hg Ho Ha cs Hcs ord Hord x Hx).
  Qed.
  Lemma join_names_int l : (∃ n, NInt n ∈ l) → join_names l = Err TypeError.
  Proof.
    clear. intros (n & Hn). unfold join_names.
    assert (mapM (λ x, match x with NStr s => Ok s | NInt _ => Err TypeError end) l = Err TypeError) as ->; [|done].
    induction l as [|y l IH]; [by apply elem_of_nil in Hn|]. rewrite mapM_cons. destruct y as [s|m]; [|done].
    apply elem_of_cons in Hn as [?|Hn]; [done|]. cbn [mbind res_bind]. by rewrite (IH Hn).
  Qed.
  Lemma join_names_cases l : join_names l = Err TypeError ∨ ∃ t, join_names l = Ok t.
  Proof.
    clear. unfold join_names.
    assert (mapM (λ x, match x with NStr s => Ok s | NInt _ => Err TypeError end) l = Err TypeError ∨
      ∃ t, mapM (λ x, match x with NStr s => Ok s | NInt _ => Err TypeError end) l = Ok t) as [->|[t ->]]; [|by left|right; by eexists].
    induction l as [|y l IH]; [right; by eexists|]. rewrite mapM_cons. destruct y as [s|m]; [|by left].
    destruct IH as [->|[t ->]]; [by left|right; by eexists].
  Qed.
  Lemma dot_label_int which style d i x l : chash x = true → dget x d = Some l → unprintable l →
    dot_label which style d i x = Err TypeError.
  Proof.
    clear. intros Hx Hd [Hn Hl]. unfold dot_label. rewrite (cget_ok _ _ _ Hx Hd). cbn [mbind res_bind].
    destruct l as [|a l]; [by destruct Hn as [? []%elem_of_nil]|]. cbn zeta.
    assert ((5 <=? length (a :: l))%nat = false) as -> by (apply Nat.leb_gt; done).
    rewrite join_names_int by done. done.
  Qed.
  Lemma dot_label_cases which style d i x l : chash x = true → dget x d = Some l →
    dot_label which style d i x = Err TypeError ∨ ∃ t d', dot_label which style d i x = Ok (t, d') ∧ ∀ y, y ≠ x → dget y d' = dget y d.
  Proof.
    clear. intros Hx Hd. unfold dot_label. rewrite (cget_ok _ _ _ Hx Hd). cbn [mbind res_bind].
    destruct l as [|a l]; [right; by eexists _, _|]. cbn zeta.
    match goal with |- context [join_names ?k] => destruct (join_names_cases k) as [->|[t ->]] end; [by left|].
    right. eexists _, _. split; [done|]. intros y Hy. by rewrite dget_dset_ne.
  Qed.
  Lemma dot_nodes_int (fo fa : fconcept → list name) l : ∀ dob dat i, NoDup l →
    (∀ x, x ∈ l → chash x = true ∧ dget x dob = Some (fo x) ∧ dget x dat = Some (fa x)) →
    (∃ x, x ∈ l ∧ (unprintable (fo x) ∨ unprintable (fa x))) → dot_nodes dob dat i l = Err TypeError.
  Proof.
    clear. induction l as [|x l IH]; intros dob dat i Hnd H (z & Hz & Hbad); [by apply elem_of_nil in Hz|]. cbn [dot_nodes].
    apply NoDup_cons in Hnd as [Hx Hnd]. destruct (H x) as (H1 & H2 & H3); [by left|].
    destruct (dot_label_cases "headlabel" head_style dob i x _ H1 H2) as [->|(t1 & d1 & E1 & F1)]; [done|].
    rewrite E1. cbn [mbind res_bind].
    destruct (dot_label_cases "taillabel" tail_style dat i x _ H1 H3) as [->|(t2 & d2 & E2 & F2)]; [done|].
    rewrite E2. cbn [mbind res_bind fst snd].
    apply elem_of_cons in Hz as [->|Hz].
    - exfalso. destruct Hbad as [Hb|Hb].
      + rewrite (dot_label_int _ _ _ _ _ _ H1 H2 Hb) in E1. done.
      + rewrite (dot_label_int _ _ _ _ _ _ H1 H3 Hb) in E2. done.
    - rewrite IH; [done|done| |by exists z].
      intros y Hy. assert (y ≠ x) by (intros ->; done). rewrite F1, F2 by done. apply H. by right.
  Qed.
  Lemma write_dot_int path x l : path ≠ "" → x ∈ cs → NoDup l → (length l < 5)%nat → (∃ n, NInt n ∈ l) →
    (∀ g, g ∈ l ↔ object_concept K g x) ∨ (∀ m, m ∈ l ↔ attribute_concept K m x) →
    write_dot ord ordc cs path = Err TypeError.
  Proof.
    intros Hp Hx Hl H5 Hn Hown. unfold write_dot. rewrite decide_False by done.
    destruct (find_own_ok fst ord cs (all_hash c Ho Ha cs Hcs)) as (d1 & Hd1 & _ & G1).
    destruct (find_own_ok snd ord cs (all_hash c Ho Ha cs Hcs)) as (d2 & Hd2 & _ & G2).
    unfold find_own_objects, find_own_attributes. rewrite Hd1. cbn [mbind res_bind]. rewrite Hd2. cbn [mbind res_bind].
    rewrite (dot_nodes_int (own_names fst ord cs) (own_names snd ord cs)); [done|done|..].
    - intros y Hy. split; [by apply (all_hash c Ho Ha cs Hcs)|]. split; [by apply G1|by apply G2].
    - exists x. split; [done|]. destruct (own_objects_spec c Hg Ho Ha cs Hcs ord Hord x Hx) as [N1 M1].
      destruct (own_attributes_spec c Hg Ho Ha cs Hcs ord Hord x Hx) as [N2 M2].
      destruct Hown as [Hown|Hown]; [left|right].
      + assert (own_names fst ord cs x ≡ₚ l) as P. { apply NoDup_Permutation; [done..|]. intros g. by rewrite M1, Hown. }
        unfold unprintable. by setoid_rewrite P.
      + assert (own_names snd ord cs x ≡ₚ l) as P. { apply NoDup_Permutation; [done..|]. intros g. by rewrite M2, Hown. }
        unfold unprintable. by setoid_rewrite P.
  Qed.
End final.

(** ** xml *)
Lemma write_xml_fails ord cs : (∀ X, ord X ≡ₚ elements X) → ∃ e, write_xml ord cs = Err e ∧ (e = TypeError ∨ e = AttributeError) ∧
  ((∀ x, x ∈ cs → ∀ n, n ∈ x.1 ∪ x.2 → is_str n = true) → e = TypeError).
Proof.
  intros Hord. unfold write_xml.
  assert (∀ l, (∃ e, mapM text_node l = Err e ∧ (e = TypeError ∨ e = AttributeError) ∧ ((∀ n, n ∈ l → is_str n = true) → e = TypeError))
    ∨ ∃ k, mapM text_node l = Ok k) as Hm2.
  { intros l. destruct l as [|y l]; [right; by exists []|]. rewrite mapM_cons. left.
    destruct y as [s|n].
    - exists TypeError. split; [done|]. split; [by left|done].
    - exists AttributeError. split; [done|]. split; [by right|]. intros H. by discriminate (H (NInt n) (ltac:(by left))). }
  assert (∀ (sel : fconcept → gset name) n, n ∈ ord (⋃ map sel cs) → ∃ x, x ∈ cs ∧ n ∈ sel x) as Hin.
  { intros sel n. rewrite Hord, elem_of_elements, elem_of_union_list. intros (X & HX & Hn).
    apply elem_of_list_fmap in HX as (x & -> & Hx). by exists x. }
  destruct (Hm2 (ord (⋃ map fst cs))) as [(e & -> & H1 & H2)|[k ->]]; cbn [mbind res_bind].
  { exists e. split; [done|]. split; [done|]. intros H. apply H2. intros n (x & Hx & Hn)%Hin. apply (H x Hx). set_solver. }
  destruct (Hm2 (ord (⋃ map snd cs))) as [(e & -> & H1 & H2)|[k' ->]]; cbn [mbind res_bind].
  { exists e. split; [done|]. split; [done|]. intros H. apply H2. intros n (x & Hx & Hn)%Hin. apply (H x Hx). set_solver. }
  exists TypeError. split; [done|]. split; [by left|done].
Qed.
Lemma read_xml_fails s : read_xml s = Err TypeError ∧ uread_xml s = Err TypeError.
Proof. done. Qed.

(** ** Final forms *)
Lemma own_unique K :
  (∀ g, g ∈ fG K → ∃ x, object_concept K g x ∧ is_concept K x.1 x.2 ∧ ∀ y, object_concept K g y → y = x) ∧
  (∀ m, m ∈ fM K → ∃ x, attribute_concept K m x ∧ is_concept K x.1 x.2 ∧ ∀ y, attribute_concept K m y → y = x).
Proof.
  split; intros g Hg.
  - exists (ocl K {[g]}, up K {[g]}). split; [done|]. split; [apply concept_of_objects; set_solver|].
    intros [A B] (_ & E1 & E2). cbn [fst snd] in *. by rewrite E1, E2.
  - exists (down K {[g]}, acl K {[g]}). split; [done|]. split; [apply concept_of_attributes; set_solver|].
    intros [A B] (_ & E1 & E2). cbn [fst snd] in *. by rewrite E1, E2.
Qed.
Lemma write_dot_strings c : good c → ∀ cs, NoDup cs → (∀ A B, (A, B) ∈ cs ↔ is_concept (abs c) A B) →
  ∀ ord, (∀ X, ord X ≡ₚ elements X) → ∀ ordc, (∀ X, ordc X ≡ₚ elements X) → ∀ path,
  (∀ x, x ∈ (objs c ++ atts c)%list → is_str x = true) → path ≠ "" →
  ∃ (fo fa : nat → list string) (es : list (nat * nat)),
    write_dot ord ordc cs path = Ok (dot_header ++ concat_strings (map (λ i, node_text i (fo i) (fa i)) (seq 0 (length cs))) ++
      concat_strings (map edge_line es) ++ "}") ∧
    (∀ i x, cs !! i = Some x → (NoDup (fo i) ∧ ∀ g, g ∈ fo i ↔ object_concept (abs c) (NStr g) x) ∧
                               (NoDup (fa i) ∧ ∀ m, m ∈ fa i ↔ attribute_concept (abs c) (NStr m) x)) ∧
    NoDup es ∧ ∀ k i, (k, i) ∈ es ↔ ∃ x y, cs !! i = Some x ∧ cs !! k = Some y ∧ is_upper_cover (abs c) y x.
Proof.
  intros Hg cs Hnd Hcs ord Ho1 ordc Ho2 path Hs Hp.
  assert (comparable (objs c) = true) as Ho. { apply strings_comparable. intros x Hx. apply Hs, elem_of_app. by left. }
  assert (comparable (atts c) = true) as Ha. { apply strings_comparable. intros x Hx. apply Hs, elem_of_app. by right. }
  exact (write_dot_final c Hg Ho Ha cs Hnd Hcs ord Ho1 ordc Ho2 path Hs Hp).
Qed.
Lemma dot_fails c : good c → comparable (objs c) = true → comparable (atts c) = true → ∀ cs,
  NoDup cs → (∀ A B, (A, B) ∈ cs ↔ is_concept (abs c) A B) → ∀ ord, (∀ X, ord X ≡ₚ elements X) → ∀ ordc path,
  (∀ dist full, path = "" → write_dot ord ordc cs path = Err AssertionError ∧
                            uwrite_dot dist ord ordc cs path full = Err AssertionError) ∧
  (path ≠ "" → ∀ x l, x ∈ cs → NoDup l → (length l < 5)%nat → (∃ n, NInt n ∈ l) →
     (∀ g, g ∈ l ↔ object_concept (abs c) g x) ∨ (∀ m, m ∈ l ↔ attribute_concept (abs c) m x) →
     write_dot ord ordc cs path = Err TypeError).
Proof.
  intros Hg Ho Ha cs Hnd Hcs ord Hord ordc path. split.
  - intros dist full ->. done.
  - intros Hp x l Hx Hl H5 Hn Hown. by apply (write_dot_int c Hg Ho Ha cs Hnd Hcs ord Hord ordc path x l).
Qed.
