(** * Facts joining concepts, implications, transposition and reduction *)
From Verif Require Import Py Spec PyFacts SpecFacts ContextModel ContextSpec ContextOps ContextFacts ContextInit
  ContextMisc ContextReduce ContextFinal ClosureModel ClosureFacts DgSpec DgModel DgFacts DgMain DgCons DgCxt DgFinal
  LatticeSpec LatticeModel NorrisFacts LatticeFacts.

Lemma concept_intent K B : (∃ A, is_concept K A B) ↔ B ⊆ fM K ∧ acl K B = B.
Proof.
  split.
  - intros (A & H1 & H2 & H3 & H4). split; [done|]. unfold acl. by rewrite H4.
  - intros [H1 H2]. exists (down K B). split_and!; [|done|exact H2|done].
    intros g Hg. apply elem_of_filter in Hg. tauto.
Qed.

Lemma concept_extent K A : (∃ B, is_concept K A B) ↔ A ⊆ fG K ∧ ocl K A = A.
Proof.
  split.
  - intros (B & H1 & H2 & H3 & H4). split; [done|]. unfold ocl. by rewrite H3.
  - intros [H1 H2]. exists (up K A). split_and!; [done| |done|exact H2].
    intros g Hg. apply elem_of_filter in Hg. tauto.
Qed.

Lemma is_concept_ftrans K A B : is_concept (ftrans K) B A ↔ is_concept K A B.
Proof. unfold is_concept. rewrite up_ftrans, down_ftrans. simpl. tauto. Qed.

(** A list of concepts is determined by either component. *)
Lemma concepts_snd_NoDup K (cs : list fconcept) : NoDup cs → (∀ A B, (A, B) ∈ cs ↔ is_concept K A B) → NoDup (map snd cs).
Proof.
  intros Hn Hc. apply NoDup_fmap_2_strong; [|done].
  intros [A B] [A' B'] H1 H2 E. simpl in E. apply Hc in H1 as (_ & _ & _ & H1). apply Hc in H2 as (_ & _ & _ & H2).
  congruence.
Qed.

Lemma concepts_fst_NoDup K (cs : list fconcept) : NoDup cs → (∀ A B, (A, B) ∈ cs ↔ is_concept K A B) → NoDup (map fst cs).
Proof.
  intros Hn Hc. apply NoDup_fmap_2_strong; [|done].
  intros [A B] [A' B'] H1 H2 E. simpl in E. apply Hc in H1 as (_ & _ & H1 & _). apply Hc in H2 as (_ & _ & H2 & _).
  congruence.
Qed.

Lemma elem_of_map_snd (cs : list fconcept) B : B ∈ map snd cs ↔ ∃ A, (A, B) ∈ cs.
Proof.
  rewrite elem_of_list_fmap. split; [intros ([A B'] & -> & H); eauto|intros [A H]; exists (A, B); done].
Qed.

Lemma elem_of_map_fst (cs : list fconcept) A : A ∈ map fst cs ↔ ∃ B, (A, B) ∈ cs.
Proof.
  rewrite elem_of_list_fmap. split; [intros ([A' B] & -> & H); eauto|intros [B H]; exists (A, B); done].
Qed.

(** ** Intents are the models of a sound and complete set of implications *)
Lemma acl_models K L X : (∀ i, i ∈ L → i.1 ⊆ fM K ∧ i.2 ⊆ fM K ∧ holds K i) →
  (∀ i, i.1 ⊆ fM K → i.2 ⊆ fM K → holds K i → entails L i) → X ⊆ fM K →
  acl K X = X ↔ model_of L X.
Proof.
  intros Hs Hc HX. split.
  - intros E i Hi HP. destruct (Hs i Hi) as (H1 & H2 & H3). rewrite <-E. intros m Hm.
    apply elem_of_filter. split; [|by apply H2]. intros g Hg. apply elem_of_filter in Hg as [Hg1 Hg2].
    apply (H3 g Hg2); [|done]. intros m' Hm'. apply Hg1. by apply HP.
  - intros HX'. apply set_eq. intros m. split.
    + intros Hm. assert (entails L (X, {[m]})) as He.
      { apply Hc; simpl; [done| |].
        - intros m' ->%elem_of_singleton. apply elem_of_filter in Hm. tauto.
        - intros g Hg HgX m' Hm'. simpl in *. apply elem_of_singleton in Hm' as ->.
          apply elem_of_filter in Hm as [Hm _]. apply Hm. apply elem_of_filter. split; [|done]. exact HgX. }
      specialize (He X HX'). assert ((X, {[m]}).2 ⊆ X) as H by (apply He; simpl; done). apply H. simpl. set_solver.
    + intros Hm. apply elem_of_filter. split; [|by apply HX]. intros g Hg. apply elem_of_filter in Hg as [Hg _]. by apply Hg.
Qed.

(** ** Contexts with the same attributes and closures *)
Lemma same_acl_intents K K' B : fM K = fM K' → (∀ X, X ⊆ fM K → acl K X = acl K' X) →
  (∃ A, is_concept K A B) ↔ ∃ A, is_concept K' A B.
Proof.
  intros HM H. rewrite !concept_intent, <-HM. split; intros [H1 H2]; (split; [done|]); [rewrite <-H|rewrite H]; done.
Qed.

Lemma norris_of c cs : good c → norris c = Ok cs → NoDup cs ∧ ∀ A B, (A, B) ∈ cs ↔ is_concept (abs c) A B.
Proof.
  intros Hg H. destruct (norris_spec c Hg) as (cs' & H1 & H2 & _ & H3). rewrite H1 in H. injection H as <-. done.
Qed.

Lemma intents_final c ords cs R : good c → comparable (atts c) = true → good_ords ords →
  norris c = Ok cs → compute_dg_basis c ords (Some []) (λ _, true) = Ok R →
  NoDup (map snd cs) ∧ ∀ B, B ∈ map snd cs ↔ B ⊆ fM (abs c) ∧ ∀ i, i ∈ R → i.1 ⊆ B → i.2 ⊆ B.
Proof.
  intros Hg Hc Ho Hn HR. destruct (norris_of c cs Hg Hn) as [Hnd Hcs].
  split; [by eapply concepts_snd_NoDup|]. intros B.
  assert (∀ i, i ∈ [] → i.1 ⊆ fM (abs c) ∧ i.2 ⊆ fM (abs c)) as H0 by by intros ? ?%elem_of_nil.
  rewrite (dg_both c Hg Hc [] H0 (or_intror eq_refl) ords Ho) in HR by done.
  destruct (dg_sound_complete c Hg Hc [] H0 (or_intror eq_refl) R HR) as (H1 & H2 & _).
  rewrite app_nil_r in H2. rewrite elem_of_map_snd.
  assert ((∃ A, (A, B) ∈ cs) ↔ ∃ A, is_concept (abs c) A B) as -> by (split; intros [A H]; exists A; by apply Hcs).
  rewrite concept_intent. split; intros [HB H]; (split; [done|]).
  - by apply (proj1 (acl_models (abs c) R B H1 H2 HB)).
  - by apply (proj2 (acl_models (abs c) R B H1 H2 HB)).
Qed.

Lemma acl_is_closure K L X : (∀ i, i ∈ L → i.1 ⊆ fM K ∧ i.2 ⊆ fM K ∧ holds K i) →
  (∀ i, i.1 ⊆ fM K → i.2 ⊆ fM K → holds K i → entails L i) → X ⊆ fM K → is_closure L X (acl K X).
Proof.
  intros Hs Hc HX. pose proof (acl_closure_op K) as Hop.
  assert (acl K X ⊆ fM K) as HM by (intros m [_ ?]%elem_of_filter; done).
  split; [by apply Hop|]. split.
  - apply (proj1 (acl_models K L _ Hs Hc HM)). by apply Hop.
  - intros Y HXY HY.
    (* Y need not be inside M; its part inside M is a model too *)
    assert (model_of L (Y ∩ fM K)) as HY'.
    { intros i Hi HP. destruct (Hs i Hi) as (H1 & H2 & _). specialize (HY i Hi). unfold respects in HY. set_solver. }
    apply (proj2 (acl_models K L (Y ∩ fM K) Hs Hc ltac:(set_solver))) in HY'.
    assert (acl K X ⊆ acl K (Y ∩ fM K)) by (apply Hop; set_solver). set_solver.
Qed.

Lemma closure_final c ords ord R B : good c → comparable (atts c) = true → good_ords ords →
  (∀ k X, ord k X ≡ₚ elements X) →
  compute_dg_basis c ords (Some []) (λ _, true) = Ok R → (∀ m, m ∈ B → m ∈ atts c) →
  ∃ X, aclosure c B = Ok X ∧ simple_closure (list_to_set B) R = Ok X ∧ lin_closure ord (list_to_set B) R = Ok X.
Proof.
  intros Hg Hc Ho Hord HR HB.
  assert (∀ i, i ∈ [] → i.1 ⊆ fM (abs c) ∧ i.2 ⊆ fM (abs c)) as H0 by by intros ? ?%elem_of_nil.
  rewrite (dg_both c Hg Hc [] H0 (or_intror eq_refl) ords Ho) in HR by done.
  destruct (dg_sound_complete c Hg Hc [] H0 (or_intror eq_refl) R HR) as (H1 & H2 & H3). rewrite app_nil_r in H2.
  exists (acl (abs c) (list_to_set B)). split; [by apply aclosure_spec|].
  assert (∀ i, i ∈ R → is_ok (imp_repr i) = true) as Hh.
  { intros i Hi. destruct (H1 i Hi) as (Hi1 & Hi2 & _). by apply (hashable_sub c Hc). }
  assert (is_closure R (list_to_set B) (acl (abs c) (list_to_set B))) as Hcl.
  { apply acl_is_closure; [done..|]. intros m Hm%elem_of_list_to_set. apply elem_of_fM. auto. }
  destruct (lin_closure_final ord (list_to_set B) R Hord) as (C & E1 & E2 & E3 & E4 & E5).
  - intros p q i j Hp Hq Hpq. destruct (imp_eqb i j) eqn:E; [|done]. exfalso.
    apply imp_eqb_spec in E as [E _]. destruct (dg_exact c Hg Hc [] H0 (or_intror eq_refl)) as (R' & HR' & _ & _ & Hs).
    rewrite HR in HR'. injection HR' as <-.
    assert (NoDup (map fst R)) as Hnd.
    { clear -Hs. induction Hs as [|P l HS IH HP]; [constructor|]. constructor; [|done].
      intros H. rewrite Forall_forall in HP. by eapply lectic_irrefl, HP. }
    apply Hpq. apply (NoDup_lookup (map fst R) p q i.1 Hnd); apply list_lookup_fmap_Some; [exists i|exists j]; done.
  - exact Hh.
  - assert (C = acl (abs c) (list_to_set B)) as <-; [|done].
    apply (is_closure_unique R (list_to_set B)); [|exact Hcl]. split; [done|]. split; [exact E4|]. intros Y HY1 HY2. by apply E5.
Qed.

(** ** The basis depends only on the attributes and the closure operator *)
Lemma post_ext ms (cl cl' : gset name → gset name) L0 R :
  (∀ X, X ⊆ list_to_set ms → cl X = cl' X) → post ms cl L0 R → post ms cl' L0 R.
Proof.
  intros H [[H1 H2] H3]. split; [split; [|done]|].
  - intros i Hi. destruct (H1 i Hi) as (E1 & E2 & E3 & E4). rewrite <-H by done. done.
  - intros P HP HL. rewrite (H3 P HP HL). unfold pseudo_at. rewrite H by done.
    assert (∀ Q, Q ∈ map fst R → cl Q = cl' Q) as HQ.
    { intros Q (i & -> & Hi)%elem_of_list_fmap. apply H, H1, Hi. }
    split; intros [E1 E2]; (split; [done|]); intros Q Hq Hlt; [rewrite <-HQ|rewrite HQ]; auto.
Qed.

Lemma same_acl_basis c c' ords : good c → good c' → atts c = atts c' → comparable (atts c) = true → good_ords ords →
  (∀ X, X ⊆ fM (abs c) → acl (abs c) X = acl (abs c') X) →
  compute_dg_basis c' ords (Some []) (λ _, true) = compute_dg_basis c ords (Some []) (λ _, true).
Proof.
  intros Hg Hg' Ha Hc Ho H.
  assert (∀ K : fctx, ∀ i : fimp, i ∈ [] → i.1 ⊆ fM K ∧ i.2 ⊆ fM K) as H0 by by intros ? ? ?%elem_of_nil.
  assert (comparable (atts c') = true) as Hc' by by rewrite <-Ha.
  destruct (dg_lin_post c Hg Hc [] (H0 _) (or_intror eq_refl) ords Ho) as (R & -> & HR); [done|].
  destruct (dg_lin_post c' Hg' Hc' [] (H0 _) (or_intror eq_refl) ords Ho) as (R' & -> & HR'); [done|].
  f_equal. symmetry. eapply post_unique; [|exact HR']. rewrite <-Ha. by eapply post_ext.
Qed.

(** ** Fewer objects, same closures *)
Lemma fewer_objects c c' : good c → good c' → atts c' = atts c →
  (∀ g m, incident c' g m ↔ g ∈ objs c' ∧ incident c g m) → (∀ g, g ∈ objs c' → g ∈ objs c) →
  (∀ B X, aclosure c B = Ok X → aclosure c' B = Ok X) →
  (∀ cs cs', norris c = Ok cs → norris c' = Ok cs' →
     map snd cs' ≡ₚ map snd cs ∧ ∀ A B, (A, B) ∈ cs → (filter (λ g, g ∈ objs c') A, B) ∈ cs') ∧
  (∀ ords, comparable (atts c) = true → good_ords ords →
     compute_dg_basis c' ords (Some []) (λ _, true) = compute_dg_basis c ords (Some []) (λ _, true)).
Proof.
  intros Hg Hg' Ha Hinc Hsub Hcl.
  assert (fM (abs c) = fM (abs c')) as HM by (simpl; by rewrite Ha).
  assert (∀ X, X ⊆ fM (abs c) → acl (abs c) X = acl (abs c') X) as Hacl.
  { intros X HX. assert (∀ m, m ∈ elements X → m ∈ atts c) as HX'.
    { intros m Hm%elem_of_elements. apply elem_of_fM. auto. }
    specialize (Hcl (elements X) _ (aclosure_spec c Hg (elements X) HX')).
    rewrite aclosure_spec in Hcl by (done || by rewrite Ha). rewrite list_to_set_elements_L in Hcl. by injection Hcl. }
  split; [|intros ords Hc Ho; by apply same_acl_basis].
  intros cs cs' H1 H2. destruct (norris_of c cs Hg H1) as [Hn Hcs]. destruct (norris_of c' cs' Hg' H2) as [Hn' Hcs'].
  split.
  - apply NoDup_Permutation; [by eapply concepts_snd_NoDup..|]. intros B. rewrite !elem_of_map_snd.
    pose proof (same_acl_intents (abs c) (abs c') B HM Hacl) as E.
    split; intros [A HA].
    + apply Hcs' in HA. destruct (proj2 E (ex_intro _ A HA)) as [A' HA']. exists A'. by apply Hcs.
    + apply Hcs in HA. destruct (proj1 E (ex_intro _ A HA)) as [A' HA']. exists A'. by apply Hcs'.
  - intros A B HA. apply Hcs in HA. apply Hcs'.
    destruct (proj1 (same_acl_intents (abs c) (abs c') B HM Hacl) (ex_intro _ A HA)) as [A' HA'].
    assert (filter (λ g, g ∈ objs c') A = A') as ->; [|done].
    destruct HA as (_ & _ & _ & <-). destruct HA' as (_ & _ & _ & <-). apply set_eq. intros g.
    rewrite elem_of_filter, !elem_of_down, !elem_of_fG. split.
    + intros (H & H3 & H4). split; [done|]. intros m Hm. apply elem_of_fI, Hinc. split; [done|]. by apply elem_of_fI, H4.
    + intros (H & H4). split; [done|]. split; [auto|]. intros m Hm. by apply elem_of_fI, Hinc, elem_of_fI, H4.
Qed.

Lemma fewer_attributes c c' : good c → good c' → objs c' = objs c →
  (∀ g m, incident c' g m ↔ m ∈ atts c' ∧ incident c g m) → (∀ m, m ∈ atts c' → m ∈ atts c) →
  (∀ A X, oclosure c A = Ok X → oclosure c' A = Ok X) →
  (∀ cs cs', norris c = Ok cs → norris c' = Ok cs' →
     map fst cs' ≡ₚ map fst cs ∧ ∀ A B, (A, B) ∈ cs → (A, filter (λ m, m ∈ atts c') B) ∈ cs') ∧
  (∀ ords t t', comparable (objs c) = true → good_ords ords → transpose c = Ok t → transpose c' = Ok t' →
     compute_dg_basis t' ords (Some []) (λ _, true) = compute_dg_basis t ords (Some []) (λ _, true)).
Proof.
  intros Hg Hg' Ha Hinc Hsub Hcl.
  assert (fG (abs c) = fG (abs c')) as HM by (simpl; by rewrite Ha).
  assert (∀ X, X ⊆ fG (abs c) → ocl (abs c) X = ocl (abs c') X) as Hocl.
  { intros X HX. assert (∀ m, m ∈ elements X → m ∈ objs c) as HX'.
    { intros m Hm%elem_of_elements. apply elem_of_fG. auto. }
    specialize (Hcl (elements X) _ (oclosure_spec c Hg (elements X) HX')).
    rewrite oclosure_spec in Hcl by (done || by rewrite Ha). rewrite list_to_set_elements_L in Hcl. by injection Hcl. }
  assert (∀ A, (∃ B, is_concept (abs c) A B) ↔ ∃ B, is_concept (abs c') A B) as E.
  { intros A. rewrite !concept_extent, <-HM. split; intros [H1 H2]; (split; [done|]); [rewrite <-Hocl|rewrite Hocl]; done. }
  split.
  - intros cs cs' H1 H2. destruct (norris_of c cs Hg H1) as [Hn Hcs]. destruct (norris_of c' cs' Hg' H2) as [Hn' Hcs'].
    split.
    + apply NoDup_Permutation; [by eapply concepts_fst_NoDup..|]. intros A. rewrite !elem_of_map_fst.
      split; intros [B HB].
      * apply Hcs' in HB. destruct (proj2 (E A) (ex_intro _ B HB)) as [B' HB']. exists B'. by apply Hcs.
      * apply Hcs in HB. destruct (proj1 (E A) (ex_intro _ B HB)) as [B' HB']. exists B'. by apply Hcs'.
    + intros A B HA. apply Hcs in HA. apply Hcs'.
      destruct (proj1 (E A) (ex_intro _ B HA)) as [B' HB'].
      assert (filter (λ m, m ∈ atts c') B = B') as ->; [|done].
      destruct HA as (_ & _ & <- & _). destruct HB' as (_ & _ & <- & _). apply set_eq. intros m.
      rewrite elem_of_filter, !elem_of_up, !elem_of_fM. split.
      * intros (H & H3 & H4). split; [done|]. intros g Hgx. apply elem_of_fI, Hinc. split; [done|]. by apply elem_of_fI, H4.
      * intros (H & H4). split; [done|]. split; [auto|]. intros g Hgx. by apply elem_of_fI, Hinc, elem_of_fI, H4.
  - intros ords t t' Hc Ho Ht Ht'.
    destruct (transpose_spec c (good_wf _ Hg) (good_distinct _ Hg)) as (t0 & E0 & G0 & O0 & A0 & _).
    rewrite Ht in E0. injection E0 as <-.
    destruct (transpose_spec c' (good_wf _ Hg') (good_distinct _ Hg')) as (t0 & E0 & G0' & O0' & A0' & _).
    rewrite Ht' in E0. injection E0 as <-.
    apply same_acl_basis; [done|done|congruence|congruence|done|].
    intros X HX. rewrite (transpose_abs c t), (transpose_abs c' t') by (done || apply Hg || apply Hg').
    rewrite <-!ocl_ftrans. apply Hocl. intros g Hgx. apply HX, elem_of_fM in Hgx. apply elem_of_fG. congruence.
Qed.

(** ** Transposition *)
Lemma upper_cover_ftrans K (x y : fconcept) : is_concept K x.1 x.2 → is_concept K y.1 y.2 →
  is_upper_cover (ftrans K) (y.2, y.1) (x.2, x.1) ↔ is_upper_cover K x y.
Proof.
  assert (∀ a b : fconcept, is_concept K a.1 a.2 → is_concept K b.1 b.2 → a.2 ⊂ b.2 ↔ b.1 ⊂ a.1) as Hop.
  { intros a b (_ & _ & Ha1 & Ha2) (_ & _ & Hb1 & Hb2). split; intros [H1 H2]; split.
    - rewrite <-Ha2, <-Hb2. by apply down_anti.
    - intros H3. apply H2. rewrite <-Ha1, <-Hb1. by apply up_anti.
    - rewrite <-Ha1, <-Hb1. by apply up_anti.
    - intros H3. apply H2. rewrite <-Ha2, <-Hb2. by apply down_anti. }
  intros Hx Hy. unfold is_upper_cover. simpl. rewrite is_concept_ftrans. rewrite (Hop x y Hx Hy).
  split; intros (H1 & H2 & H3); (split; [done|]); (split; [done|]); intros ([Z1 Z2] & Hz & Hz1 & Hz2); apply H3; simpl in *.
  - exists (Z2, Z1). simpl. rewrite is_concept_ftrans. split; [done|].
    split; [apply (Hop x (Z1, Z2))|apply (Hop (Z1, Z2) y)]; done.
  - rewrite is_concept_ftrans in Hz. exists (Z2, Z1). simpl. split; [done|].
    split; [apply (Hop (Z2, Z1) y)|apply (Hop x (Z2, Z1))]; done.
Qed.

Lemma crosses_ftrans K (A B : gset name) :
  size (filter (λ p : name * name, p.1 ∈ B ∨ p.2 ∈ A) (fI (ftrans K))) = size (filter (λ p : name * name, p.1 ∈ A ∨ p.2 ∈ B) (fI K)).
Proof.
  assert (filter (λ p : name * name, p.1 ∈ B ∨ p.2 ∈ A) (fI (ftrans K)) =
    set_map (λ p : name * name, (p.2, p.1)) (filter (λ p : name * name, p.1 ∈ A ∨ p.2 ∈ B) (fI K)) :> gset (name * name)) as ->.
  { apply set_eq. intros [m g]. rewrite elem_of_filter, elem_of_map. cbn [fst snd]. split.
    - intros [H1 H2]. rewrite ftrans_fI in H2. exists (g, m). split; [done|]. apply elem_of_filter. cbn [fst snd]. tauto.
    - intros ([g' m'] & [= -> ->] & H). apply elem_of_filter in H as [H1 H2]. cbn [fst snd] in H1.
      split; [tauto|]. by rewrite ftrans_fI. }
  assert (Inj (=) (=) (λ p : name * name, (p.2, p.1))) as Hinj.
  { intros [a b] [a' b'] [= -> ->]. done. }
  set (X := filter (λ p : name * name, p.1 ∈ A ∨ p.2 ∈ B) (fI K)).
  unfold size, set_size. simpl. rewrite <-(fmap_length (λ p : name * name, (p.2, p.1)) (elements X)).
  apply Permutation_length, NoDup_Permutation; [apply NoDup_elements|apply NoDup_fmap_2; [done|apply NoDup_elements]|].
  intros p. rewrite elem_of_elements, elem_of_map, elem_of_list_fmap.
  split; intros (q & E & H); exists q; (split; [done|]); by apply elem_of_elements.
Qed.

Lemma is_card_unique (P : gset name → Prop) n n' : is_card P n → is_card P n' → n = n'.
Proof.
  intros (l & H1 & H2 & <-) (l' & H1' & H2' & <-).
  assert (l ≡ₚ l') as ->; [|done]. apply NoDup_Permutation; [done..|]. intros S. by rewrite H2, H2'.
Qed.
