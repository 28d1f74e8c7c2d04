(** * Facts on equal contexts, renaming, and adding an object or an attribute *)
From Verif Require Import Py Spec PyFacts SpecFacts ContextModel ContextSpec ContextOps ContextFacts ContextInit
  ContextMisc ContextReduce ContextFinal ContextEq ClosureModel ClosureFacts DgSpec DgModel DgFacts DgMain DgCons DgCxt DgFinal
  LatticeSpec LatticeModel NorrisFacts LatticeFacts CrossFacts.

Lemma no_background (M : gset name) (i : fimp) : i ∈ [] → i.1 ⊆ M ∧ i.2 ⊆ M.
Proof. by intros ?%elem_of_nil. Qed.

Lemma basis_post c ords : good c → comparable (atts c) = true → good_ords ords →
  ∃ R, compute_dg_basis c ords (Some []) (λ _, true) = Ok R ∧ post (atts c) (acl (abs c)) [] R.
Proof. intros Hg Hc Ho. apply (dg_lin_post c Hg Hc [] (no_background _) (or_intror eq_refl) ords Ho). done. Qed.

Lemma comparable_ext l l' : (∀ x, x ∈ l' → x ∈ l) → comparable l = true → comparable l' = true.
Proof.
  unfold comparable. rewrite !orb_true_iff, !forallb_forall. setoid_rewrite <-elem_of_list_In. naive_solver.
Qed.

Lemma aclosure_ok_sub c B X : good c → aclosure c B = Ok X → ∀ m, m ∈ B → m ∈ atts c.
Proof.
  intros Hg HX m Hm. destruct (decide (m ∈ atts c)) as [|Hn]; [done|].
  rewrite aclosure_KeyError in HX; [done|apply Hg|eauto].
Qed.

(** ** Equal contexts *)
Lemma same_relation_abs c d : same_relation c d → abs c = abs d.
Proof.
  intros (H1 & H2 & H3).
  assert (fG (abs c) = fG (abs d)) as EG by (apply set_eq; intros g; rewrite !elem_of_fG; apply H1).
  assert (fM (abs c) = fM (abs d)) as EM by (apply set_eq; intros g; rewrite !elem_of_fM; apply H2).
  assert (fI (abs c) = fI (abs d)) as EI by (apply set_eq; intros [g m]; rewrite !elem_of_fI; apply H3).
  revert EG EM EI. destruct (abs c), (abs d). simpl. by intros -> -> ->.
Qed.

Lemma same_relation_perm c d : good c → good d → same_relation c d → objs d ≡ₚ objs c ∧ atts d ≡ₚ atts c.
Proof.
  intros [_ [Hc1 Hc2] _] [_ [Hd1 Hd2] _] (H1 & H2 & _).
  split; apply NoDup_Permutation; try done; intros x; symmetry; auto.
Qed.

Lemma same_concepts c d cs cs' : good c → good d → abs c = abs d → norris c = Ok cs → norris d = Ok cs' → cs' ≡ₚ cs.
Proof.
  intros Hg Hg' E H1 H2. destruct (norris_of c cs Hg H1) as [Hn Hcs]. destruct (norris_of d cs' Hg' H2) as [Hn' Hcs'].
  apply NoDup_Permutation; [done..|]. intros [A B]. by rewrite Hcs, Hcs', E.
Qed.

Lemma post_NoDup ms cl L0 R : post ms cl L0 R → NoDup R.
Proof.
  intros [[_ HS] _]. apply (NoDup_fmap_1 fst). change (fst <$> R) with (map fst R).
  induction HS as [|P l HS IH HP]; [constructor|]. constructor; [|done].
  intros H. rewrite Forall_forall in HP. by eapply lectic_irrefl, HP.
Qed.

Lemma same_basis c d ords ords' R R' : good c → good d → abs c = abs d → comparable (atts c) = true →
  good_ords ords → good_ords ords' →
  compute_dg_basis c ords (Some []) (λ _, true) = Ok R → compute_dg_basis d ords' (Some []) (λ _, true) = Ok R' →
  R' ≡ₚ R ∧ (atts d = atts c → R' = R).
Proof.
  intros Hg Hg' E Hc Ho Ho' H1 H2.
  assert (comparable (atts d) = true) as Hc'.
  { eapply comparable_ext; [|exact Hc]. intros x. by rewrite <-!elem_of_fM, E. }
  destruct (basis_post c ords Hg Hc Ho) as (R0 & E0 & HR). rewrite H1 in E0. injection E0 as <-.
  destruct (basis_post d ords' Hg' Hc' Ho') as (R0 & E0 & HR'). rewrite H2 in E0. injection E0 as <-.
  rewrite <-E in HR'. split; [|intros Ha; rewrite Ha in HR'; exact (post_unique _ _ _ _ _ HR' HR)].
  apply NoDup_Permutation; [by eapply post_NoDup..|].
  assert (∀ P, P ∈ map fst R ↔ P ∈ map fst R') as HP.
  { intros P. pose proof (post_family _ _ _ _ HR) as F. pose proof (post_family _ _ _ _ HR') as F'.
    change (list_to_set (atts c)) with (fM (abs c)) in F. change (list_to_set (atts d)) with (fM (abs d)) in F'.
    rewrite <-E in F'. exact (pseudo_family_unique _ _ _ _ _ P F F'). }
  intros [P C]. split; intros H.
  - assert (P ∈ map fst R') as HP' by (by apply (elem_of_list_fmap_1 fst) in H).
    apply HP in HP'. apply elem_of_list_fmap in HP' as ([P' C'] & -> & H'). simpl in *.
    destruct (post_elem _ _ _ _ HR _ H') as (_ & E1 & _). destruct (post_elem _ _ _ _ HR' _ H) as (_ & E2 & _).
    simpl in *. by subst.
  - assert (P ∈ map fst R) as HP' by (by apply (elem_of_list_fmap_1 fst) in H).
    apply HP in HP'. apply elem_of_list_fmap in HP' as ([P' C'] & -> & H'). simpl in *.
    destruct (post_elem _ _ _ _ HR' _ H') as (_ & E1 & _). destruct (post_elem _ _ _ _ HR _ H) as (_ & E2 & _).
    simpl in *. by subst.
Qed.

(** ** Renaming attributes *)
Section rename.
  Context (K K' : fctx) (f : name → name).
  Context (Hinj : ∀ x y, x ∈ fM K → y ∈ fM K → f x = f y → x = y).
  Context (HG : fG K' = fG K) (HM : ∀ m, m ∈ fM K' ↔ ∃ x, m = f x ∧ x ∈ fM K).
  Context (HI : ∀ g x, x ∈ fM K → (g, f x) ∈ fI K' ↔ (g, x) ∈ fI K).
  Local Notation F B := (set_map f B : gset name).

  Lemma in_image B x : B ⊆ fM K → x ∈ fM K → f x ∈ F B ↔ x ∈ B.
  Proof.
    intros HB Hx. rewrite elem_of_map. split; [|eauto]. intros (y & E & Hy). by rewrite (Hinj x y Hx (HB y Hy) E).
  Qed.
  Lemma image_sub B : B ⊆ fM K → F B ⊆ fM K'.
  Proof. intros HB m (x & -> & Hx)%elem_of_map. apply HM. eauto. Qed.
  Lemma image_mono B C : B ⊆ fM K → C ⊆ fM K → F B ⊆ F C ↔ B ⊆ C.
  Proof.
    intros HB HC. split; [|set_solver]. intros H x Hx. apply (in_image C x HC (HB x Hx)). apply H. by apply elem_of_map_2.
  Qed.
  Lemma image_eq B C : B ⊆ fM K → C ⊆ fM K → F B = F C → B = C.
  Proof. intros HB HC E. apply (anti_symm (⊆)); apply image_mono; try done; by rewrite E. Qed.
  Lemma image_inv B' : B' ⊆ fM K' → ∃ B, B ⊆ fM K ∧ B' = F B.
  Proof.
    intros HB'. exists (filter (λ x, f x ∈ B') (fM K)). split; [set_solver|]. apply set_eq. intros m. rewrite elem_of_map. split.
    - intros Hm. destruct (proj1 (HM m) (HB' m Hm)) as (x & -> & Hx). exists x. by rewrite elem_of_filter.
    - intros (x & -> & Hx). by apply elem_of_filter in Hx as [? _].
  Qed.
  Lemma rename_down B : B ⊆ fM K → down K' (F B) = down K B.
  Proof.
    intros HB. apply set_eq. intros g. rewrite !elem_of_down, HG. split; intros [H1 H2]; (split; [done|]).
    - intros x Hx. apply HI; [auto|]. apply H2. by apply elem_of_map_2.
    - intros m (x & -> & Hx)%elem_of_map. apply HI; auto.
  Qed.
  Lemma rename_up A : up K' A = F (up K A).
  Proof.
    apply set_eq. intros m. rewrite elem_of_up, HM, elem_of_map. split.
    - intros ((x & -> & Hx) & H). exists x. split; [done|]. apply elem_of_up. split; [done|]. intros g Hg. apply HI; auto.
    - intros (x & -> & [Hx H]%elem_of_up). split; [eauto|]. intros g Hg. apply HI; auto.
  Qed.
  Lemma rename_acl B : B ⊆ fM K → acl K' (F B) = F (acl K B).
  Proof. intros HB. unfold acl. by rewrite rename_down, rename_up. Qed.
  Lemma rename_concept A B : is_concept K' A B ↔ ∃ B0, B = F B0 ∧ is_concept K A B0.
  Proof.
    split.
    - intros (H1 & H2 & H3 & H4). destruct (image_inv B H2) as (B0 & HB & ->). exists B0. split; [done|].
      rewrite rename_down in H4 by done. rewrite rename_up in H3.
      split_and!; [by rewrite <-HG|done| |done]. apply image_eq; [|done..]. intros m [? _]%elem_of_up; done.
    - intros (B0 & -> & H1 & H2 & H3 & H4). split_and!; [by rewrite HG|by apply image_sub| |by rewrite rename_down].
      by rewrite rename_up, H3.
  Qed.

  Context (ms : list name) (Hms : (list_to_set ms : gset name) = fM K) (Hms' : (list_to_set (map f ms) : gset name) = fM K').
  Lemma rename_lectic P Q : P ⊆ fM K → Q ⊆ fM K → lectic (map f ms) (F P) (F Q) ↔ lectic ms P Q.
  Proof.
    intros HP HQ.
    assert (∀ k x, ms !! k = Some x → x ∈ fM K) as Hin.
    { intros k x Hk. rewrite <-Hms. apply elem_of_list_to_set. by eapply elem_of_list_lookup_2. }
    split.
    - intros (j & m & Hj & H1 & H2 & H3). apply list_lookup_fmap_Some in Hj as (x & Hx & ->).
      exists j, x. pose proof (Hin _ _ Hx). split_and!; [done|by apply (in_image Q x HQ)| |].
      + intros H'. apply H2. by apply in_image.
      + intros k y Hk Hy. specialize (H3 k (f y) Hk). rewrite !in_image in H3 by eauto. apply H3.
        change (map f ms) with (f <$> ms). by rewrite list_lookup_fmap, Hy.
    - intros (j & x & Hx & H1 & H2 & H3). pose proof (Hin _ _ Hx). exists j, (f x).
      change (map f ms) with (f <$> ms). rewrite list_lookup_fmap, Hx.
      split_and!; [done|by apply in_image|by rewrite in_image|].
      intros k y' Hk Hy. rewrite list_lookup_fmap_Some in Hy. destruct Hy as (y & Hy & ->).
      rewrite !in_image by eauto. by apply (H3 k).
  Qed.
  Lemma rename_post R : post ms (acl K) [] R → post (map f ms) (acl K') [] (map (λ i : fimp, (F i.1, F i.2)) R).
  Proof.
    intros [[H1 H2] H3]. rewrite Hms in *. 
    assert (∀ Q, Q ∈ map fst R → Q ⊆ fM K) as Hsub.
    { intros Q (i & -> & Hi)%elem_of_list_fmap. by apply (H1 i). }
    assert (map fst (map (λ i : fimp, (F i.1, F i.2)) R) = map (λ P, F P) (map fst R)) as Emap by (by rewrite !map_map).
    split; [split|].
    - intros i' (i & -> & Hi)%elem_of_list_fmap. destruct (H1 i Hi) as (E1 & E2 & E3 & _). simpl. rewrite Hms'.
      rewrite rename_acl by done. split_and!; [by apply image_sub|by rewrite E2| |by intros ? ?%elem_of_nil].
      intros E. apply E3. apply image_eq; [done| |done]. intros m [? _]%elem_of_up; done.
    - rewrite Emap. clear H3 Emap H1. induction H2 as [|P l HS IH HP]; [constructor|]. simpl. constructor.
      + apply IH. intros Q HQ. apply Hsub. by right.
      + apply Forall_forall. intros Q' (Q & -> & HQ)%elem_of_list_fmap. apply rename_lectic; [apply Hsub; by left|apply Hsub; by right|].
        rewrite Forall_forall in HP. by apply HP.
    - rewrite Hms'. intros P' HP' _. destruct (image_inv P' HP') as (P & HP & ->).
      assert (acl K P ⊆ fM K) as HcP by (intros m [? _]%elem_of_up; done).
      rewrite Emap. transitivity (P ∈ map fst R).
      { rewrite elem_of_list_fmap. split; [|eauto]. intros (Q & E & HQ). by rewrite (image_eq P Q HP (Hsub Q HQ) E). }
      rewrite (H3 P HP) by (by intros ? ?%elem_of_nil). unfold pseudo_at. rewrite Emap, rename_acl by done.
      split; intros [E1 E2]; split.
      + intros E. by apply E1, image_eq.
      + intros Q' (Q & -> & HQ)%elem_of_list_fmap Hlt. pose proof (Hsub Q HQ) as HQM. rewrite rename_acl by done.
        apply image_mono; [intros m [? _]%elem_of_up; done|done|]. apply E2; [done|].
        destruct Hlt as [L1 L2]. rewrite image_mono in L1 by done. rewrite image_mono in L2 by done. done.
      + congruence.
      + intros Q HQ Hlt. pose proof (Hsub Q HQ) as HQM.
        assert (acl K Q ⊆ fM K) as HcQ by (intros m [? _]%elem_of_up; done).
        apply image_mono; [done..|]. rewrite <-rename_acl by done. apply E2; [apply elem_of_list_fmap; eauto|].
        split; rewrite image_mono by done; apply Hlt.
  Qed.
End rename.

Lemma ren_inj (old new : name) (l : list name) : new ∉ l →
  ∀ x y, x ∈ l → y ∈ l → (if decide (x = old) then new else x) = (if decide (y = old) then new else y) → x = y.
Proof. intros Hn x y Hx Hy. destruct (decide (x = old)), (decide (y = old)); intros E; subst; try done. Qed.

Lemma list_to_set_map (f : name → name) (l : list name) m : m ∈ (list_to_set (map f l) : gset name) ↔ ∃ x, m = f x ∧ x ∈ (list_to_set l : gset name).
Proof. rewrite elem_of_list_to_set. setoid_rewrite elem_of_list_to_set. apply elem_of_list_fmap. Qed.

(** ** Adding an object *)
Section add_object.
  Context (K K' : fctx) (o : name) (J : gset name).
  Context (Hwf : fwf K) (Ho : o ∉ fG K) (HJ : J ⊆ fM K).
  Context (HG : ∀ g, g ∈ fG K' ↔ g ∈ fG K ∨ g = o) (HM : fM K' = fM K).
  Context (HI : ∀ g m, (g, m) ∈ fI K' ↔ (g, m) ∈ fI K ∨ g = o ∧ m ∈ J).

  Lemma old_row g m : g ∈ fG K → (g, m) ∈ fI K' ↔ (g, m) ∈ fI K.
  Proof. intros Hg. rewrite HI. split; [intros [?|[-> _]]; done|auto]. Qed.
  Lemma new_row m : (o, m) ∈ fI K' ↔ m ∈ J.
  Proof. rewrite HI. split; [intros [H|[_ ?]]; [by apply Hwf in H as [? _]|done]|auto]. Qed.
  Lemma added_down_in B : B ⊆ J → down K' B = down K B ∪ {[o]}.
  Proof.
    intros HB. apply set_eq. intros g. rewrite elem_of_union, elem_of_singleton, !elem_of_down, HG. split.
    - intros [[Hg| ->] H]; [left|by right]. split; [done|]. intros m Hm. apply old_row; auto.
    - intros [[Hg H]| ->]; (split; [auto|]); intros m Hm; [apply old_row; auto|apply new_row; auto].
  Qed.
  Lemma added_down_out B : ¬ B ⊆ J → down K' B = down K B.
  Proof.
    intros HB. apply set_eq. intros g. rewrite !elem_of_down, HG. split.
    - intros [[Hg| ->] H]; [|destruct HB; intros m Hm; apply new_row; auto]. split; [done|]. intros m Hm. apply old_row; auto.
    - intros [Hg H]; (split; [auto|]); intros m Hm; apply old_row; auto.
  Qed.
  Lemma added_up A : A ⊆ fG K → up K' A = up K A.
  Proof.
    intros HA. apply set_eq. intros m. rewrite !elem_of_up, HM. split; intros [Hm H]; (split; [done|]); intros g Hg; apply old_row; auto.
  Qed.
  Lemma added_up_o A : A ⊆ fG K → up K' (A ∪ {[o]}) = up K A ∩ J.
  Proof.
    intros HA. apply set_eq. intros m. rewrite elem_of_intersection, !elem_of_up, HM. split.
    - intros [Hm H]. split; [|apply new_row; apply H; set_solver]. split; [done|]. intros g Hg. apply old_row; [auto|]. apply H. set_solver.
    - intros [[Hm H] Hj]. split; [done|]. intros g [Hg| ->%elem_of_singleton]%elem_of_union; [apply old_row; auto|by apply new_row].
  Qed.
  Lemma down_sub B : down K B ⊆ fG K.
  Proof. intros g [? _]%elem_of_down. done. Qed.
  Lemma added_acl B : acl K' B = if decide (B ⊆ J) then acl K B ∩ J else acl K B.
  Proof.
    unfold acl. case_decide as HB.
    - rewrite added_down_in by done. apply added_up_o, down_sub.
    - rewrite added_down_out by done. apply added_up, down_sub.
  Qed.

  (** The intents are the old ones and their intersections with the new row. *)
  Lemma added_intents B : (∃ A, is_concept K' A B) ↔
    (∃ A, is_concept K A B) ∨ ∃ A B0, is_concept K A B0 ∧ B = B0 ∩ J.
  Proof.
    rewrite !concept_intent, HM, added_acl. pose proof (acl_closure_op K) as Hop. split.
    - intros [HB E]. case_decide as HBJ; [|by left]. right. exists (down K (acl K B)), (acl K B). split; [|done].
      split_and!; [apply down_sub|by apply Hop| |done]. change (acl K (acl K B) = acl K B). by apply Hop.
    - intros [[HB E]|(A & B0 & HC & ->)].
      + split; [done|]. case_decide; [|done]. rewrite E. set_solver.
      + destruct (proj1 (concept_intent K B0) (ex_intro _ A HC)) as [HB0 E0]. split; [set_solver|].
        rewrite decide_True by set_solver. apply (anti_symm (⊆)); [|intros m Hm; apply elem_of_intersection; split; [|set_solver]].
        * apply intersection_greatest; [|set_solver]. transitivity (acl K B0); [|by rewrite E0].
          transitivity (acl K (B0 ∩ J)); [set_solver|]. apply Hop; set_solver.
        * eapply Hop; [|exact Hm]. set_solver.
  Qed.

  (** An implication holds if it held and the new row respects it. *)
  Lemma added_holds (i : fimp) : holds K' i ↔ holds K i ∧ respects J i.
  Proof.
    split.
    - intros H. split.
      + intros g Hg HP m Hm. apply old_row; [done|]. apply (H g); [apply HG; auto| |done]. intros m' Hm'. apply old_row; auto.
      + intros HP m Hm. apply new_row. apply (H o); [apply HG; auto| |done]. intros m' Hm'. apply new_row. auto.
    - intros [H1 H2] g [Hg| ->]%HG HP m Hm.
      + apply old_row; [done|]. apply (H1 g Hg); [|done]. intros m' Hm'. apply old_row; auto.
      + apply new_row. apply H2; [|done]. intros m' Hm'. apply new_row. auto.
  Qed.

  Lemma added_closed_acl : acl K J = J → ∀ B, B ⊆ fM K → acl K' B = acl K B.
  Proof.
    intros E B HB. rewrite added_acl. case_decide as HBJ; [|done]. pose proof (acl_closure_op K) as Hop.
    assert (acl K B ⊆ J) by (rewrite <-E; apply Hop; done). set_solver.
  Qed.
End add_object.

(** ** Adding an attribute *)
Section add_attribute.
  Context (K K' : fctx) (a : name) (X : gset name).
  Context (Hwf : fwf K) (Ha : a ∉ fM K) (HX : X ⊆ fG K).
  Context (HM : ∀ m, m ∈ fM K' ↔ m ∈ fM K ∨ m = a) (HG : fG K' = fG K).
  Context (HI : ∀ g m, (g, m) ∈ fI K' ↔ (g, m) ∈ fI K ∨ m = a ∧ g ∈ X).

  Lemma old_col g m : m ∈ fM K → (g, m) ∈ fI K' ↔ (g, m) ∈ fI K.
  Proof. intros Hm. rewrite HI. split; [intros [?|[-> _]]; done|auto]. Qed.
  Lemma new_col g : (g, a) ∈ fI K' ↔ g ∈ X.
  Proof. rewrite HI. split; [intros [H|[_ ?]]; [by apply Hwf in H as [_ ?]|done]|auto]. Qed.

  (** The extents are the old ones and their intersections with the new column. *)
  Lemma added_extents A : (∃ B, is_concept K' A B) ↔
    (∃ B, is_concept K A B) ∨ ∃ A0 B, is_concept K A0 B ∧ A = A0 ∩ X.
  Proof.
    assert (∀ K A, (∃ B, is_concept K A B) ↔ ∃ B, is_concept (ftrans K) B A) as Ht.
    { intros K0 A1. split; intros [B H]; exists B; by apply is_concept_ftrans. }
    assert (∀ A, (∃ A0 B, is_concept K A0 B ∧ A = A0 ∩ X) ↔ ∃ B A0, is_concept (ftrans K) B A0 ∧ A = A0 ∩ X) as Ht2.
    { intros A1. split; [intros (A0 & B & H & E); exists B, A0|intros (B & A0 & H & E); exists A0, B]; (split; [by apply is_concept_ftrans|done]). }
    rewrite !Ht, Ht2.
    assert (∀ K g m, (g, m) ∈ fI (ftrans K) ↔ (m, g) ∈ fI K) as HIt.
    { intros K0 g m. simpl. rewrite elem_of_map. split; [intros ([? ?] & [= -> ->] & H); done|intros H; by exists (m, g)]. }
    apply (added_intents (ftrans K) (ftrans K') a X).
    - intros g m [H1 H2]%HIt%Hwf. done.
    - done.
    - done.
    - done.
    - done.
    - intros g m. rewrite !HIt. apply HI.
  Qed.

  (** An implication between old attributes holds afterwards as before. *)
  Lemma added_attribute_holds (i : fimp) : i.1 ⊆ fM K → i.2 ⊆ fM K → holds K' i ↔ holds K i.
  Proof.
    intros H1 H2. unfold holds. rewrite HG. split; intros H g Hg HP m Hm.
    - apply old_col; [auto|]. apply (H g Hg); [|done]. intros m' Hm'. apply old_col; auto.
    - apply old_col; [auto|]. apply (H g Hg); [|done]. intros m' Hm'. apply old_col; auto.
  Qed.
  (** An old set has an additional attribute in its closure only if all its objects have it. *)
  Lemma added_attribute_acl B : B ⊆ fM K → ∀ m, m ∈ acl K' B ↔ m ∈ acl K B ∨ m = a ∧ down K B ⊆ X.
  Proof.
    intros HB m.
    assert (down K' B = down K B) as Ed.
    { apply set_eq. intros g. rewrite !elem_of_down, HG. split; intros [Hg H]; (split; [done|]); intros m' Hm'; apply old_col; auto. }
    unfold acl. rewrite Ed, !elem_of_up, HM. split.
    - intros [[Hm| ->] H]; [left|right]; (split; [done|]); intros g Hg; [apply old_col; auto|apply new_col; auto].
    - intros [[Hm H]|[-> H]]; (split; [auto|]); intros g Hg; [apply old_col; auto|apply new_col; auto].
  Qed.
End add_attribute.

(** ** The concepts determine the context *)
Lemma concepts_relation c d cs cs' : good c → good d → norris c = Ok cs → norris d = Ok cs' → cs' ≡ₚ cs → same_relation c d.
Proof.
  intros Hg Hg' H1 H2 HP. destruct (norris_of c cs Hg H1) as [_ Hcs]. destruct (norris_of d cs' Hg' H2) as [_ Hcs'].
  assert (∀ A B, is_concept (abs c) A B ↔ is_concept (abs d) A B) as H by (intros A B; by rewrite <-Hcs, <-Hcs', HP).
  assert (∀ K, is_concept K (down K (fM K)) (fM K)) as Hbot.
  { intros K. apply is_concept_ftrans. rewrite <-up_ftrans. apply (top_concept (ftrans K)). }
  assert (∀ K g, (∃ A B, is_concept K A B ∧ g ∈ A) ↔ g ∈ fG K) as EG.
  { intros K g. split; [intros (A & B & (HA & _) & ?); auto|intros Hx; eexists _, _; split; [apply top_concept|done]]. }
  assert (∀ K m, (∃ A B, is_concept K A B ∧ m ∈ B) ↔ m ∈ fM K) as EM.
  { intros K m. split; [intros (A & B & (_ & HB & _) & ?); auto|intros Hx; eexists _, _; split; [apply Hbot|done]]. }
  assert (∀ K g m, fwf K → (∃ A B, is_concept K A B ∧ g ∈ A ∧ m ∈ B) ↔ (g, m) ∈ fI K) as EI.
  { intros K g m Hwf. split.
    - intros (A & B & (_ & _ & <- & _) & HA & HB). apply elem_of_up in HB as [_ HB]. by apply HB.
    - intros Hgm. destruct (Hwf _ _ Hgm) as [Hx Hy]. exists (ocl K {[g]}), (up K {[g]}). split; [|split].
      + split_and!; [intros ? [? _]%elem_of_down; done|intros ? [? _]%elem_of_up; done| |done].
        change (up K (ocl K {[g]})) with (acl K (up K {[g]})). unfold acl, ocl. apply (anti_symm (⊆)).
        * intros x [Hx1 Hx2]%elem_of_up. apply elem_of_up. split; [done|]. intros g' ->%elem_of_singleton. apply Hx2.
          apply elem_of_down. split; [done|]. intros m' [_ Hm']%elem_of_up. apply Hm'. set_solver.
        * intros x Hx1. apply elem_of_up. split; [apply elem_of_up in Hx1; tauto|]. intros g' [_ Hg2]%elem_of_down. auto.
      + apply elem_of_down. split; [done|]. intros m' [_ Hm']%elem_of_up. apply Hm'. set_solver.
      + apply elem_of_up. split; [done|]. intros g' ->%elem_of_singleton. done. }
  split_and!.
  - intros g. rewrite <-!elem_of_fG, <-!EG. setoid_rewrite H. done.
  - intros g. rewrite <-!elem_of_fM, <-!EM. setoid_rewrite H. done.
  - intros g m. rewrite <-!elem_of_fI, <-!EI by apply abs_fwf. setoid_rewrite H. done.
Qed.

(** ** Deleting attributes *)
Section delete.
  Context (K K' : fctx) (D : gset name).
  Context (HG : fG K' = fG K) (HM : ∀ m, m ∈ fM K' ↔ m ∈ fM K ∧ m ∉ D).
  Context (HI : ∀ g m, (g, m) ∈ fI K' ↔ (g, m) ∈ fI K ∧ m ∉ D).

  Lemma kept_col g m : m ∈ fM K' → (g, m) ∈ fI K' ↔ (g, m) ∈ fI K.
  Proof. intros [_ Hm]%HM. rewrite HI. tauto. Qed.
  Lemma deleted_down B : B ⊆ fM K' → down K' B = down K B.
  Proof.
    intros HB. apply set_eq. intros g. rewrite !elem_of_down, HG.
    split; intros [Hg H]; (split; [done|]); intros m Hm; apply kept_col; auto.
  Qed.
  Lemma deleted_up A : up K' A = up K A ∖ D.
  Proof.
    apply set_eq. intros m. rewrite elem_of_difference, !elem_of_up, HM. split.
    - intros [[H1 H2] H]. split; [|done]. split; [done|]. intros g Hg. apply kept_col; [by apply HM|auto].
    - intros [[H1 H] H2]. split; [done|]. intros g Hg. apply kept_col; [by apply HM|auto].
  Qed.
  Lemma deleted_acl B : B ⊆ fM K' → acl K' B = acl K B ∖ D.
  Proof. intros HB. unfold acl. by rewrite deleted_down, deleted_up. Qed.
  Lemma deleted_intents B : (∃ A, is_concept K' A B) ↔ ∃ A B0, is_concept K A B0 ∧ B = B0 ∖ D.
  Proof.
    pose proof (acl_closure_op K) as Hop.
    assert (∀ X, X ⊆ fM K' → X ⊆ fM K) as Hsub by (intros X HX m Hm; by apply HM, HX).
    rewrite concept_intent. split.
    - intros [HB E]. rewrite deleted_acl in E by done. exists (down K B), (acl K B). split; [|done].
      split_and!; [intros g [? _]%elem_of_down; done|apply Hop; auto|done|].
      apply (anti_symm (⊆)).
      + intros g [Hg H]%elem_of_down. apply elem_of_down. split; [done|]. intros m Hm. apply H. eapply Hop; [|exact Hm]. auto.
      + intros g Hg. apply elem_of_down. split; [by apply elem_of_down in Hg as [? _]|]. intros m [_ Hm]%elem_of_up. auto.
    - intros (A & B0 & HC & ->). destruct (proj1 (concept_intent K B0) (ex_intro _ A HC)) as [HB0 E0].
      assert (B0 ∖ D ⊆ fM K') as HB by (intros m [H1 H2]%elem_of_difference; apply HM; auto).
      split; [done|]. rewrite deleted_acl by done. apply (anti_symm (⊆)).
      + assert (acl K (B0 ∖ D) ⊆ acl K B0) as H by (apply Hop; set_solver). rewrite E0 in H. set_solver.
      + assert (B0 ∖ D ⊆ acl K (B0 ∖ D)) by (apply Hop; auto). set_solver.
  Qed.
  (** Every extent left was an extent. *)
  Lemma deleted_extents A B : is_concept K' A B → is_concept K A (up K A) ∧ B = up K A ∖ D.
  Proof.
    intros (H1 & H2 & H3 & H4). rewrite deleted_up in H3. rewrite deleted_down in H4 by done. split; [|done].
    split_and!; [by rewrite <-HG|intros m [? _]%elem_of_up; done|done|]. apply (anti_symm (⊆)).
    - intros g [Hg H]%elem_of_down. rewrite <-H4. apply elem_of_down. split; [done|]. intros m Hm. apply H. set_solver.
    - intros g Hg. apply elem_of_down. split; [rewrite <-HG; auto|]. intros m [_ Hm]%elem_of_up. auto.
  Qed.
  Lemma deleted_holds (i : fimp) : i.1 ⊆ fM K' → i.2 ⊆ fM K' → holds K' i ↔ holds K i.
  Proof.
    intros H1 H2. unfold holds. rewrite HG. split; intros H g Hg HP m Hm.
    - apply kept_col; [auto|]. apply (H g Hg); [|done]. intros m' Hm'. apply kept_col; auto.
    - apply kept_col; [auto|]. apply (H g Hg); [|done]. intros m' Hm'. apply kept_col; auto.
  Qed.
End delete.
