(** * Basic theory of the specification *)
From Verif Require Import Py Spec.

Section facts.
  Context (K : fctx).
  Implicit Types A B X Y : gset name.

  Lemma elem_of_up A m : m ∈ up K A ↔ m ∈ fM K ∧ ∀ g, g ∈ A → (g, m) ∈ fI K.
  Proof. unfold up. rewrite elem_of_filter. unfold set_Forall. naive_solver. Qed.
  Lemma elem_of_down B g : g ∈ down K B ↔ g ∈ fG K ∧ ∀ m, m ∈ B → (g, m) ∈ fI K.
  Proof. unfold down. rewrite elem_of_filter. unfold set_Forall. naive_solver. Qed.

  Lemma up_sub A : up K A ⊆ fM K.
  Proof. intros m. rewrite elem_of_up. tauto. Qed.
  Lemma down_sub B : down K B ⊆ fG K.
  Proof. intros m. rewrite elem_of_down. tauto. Qed.
  Lemma galois A B : A ⊆ fG K → B ⊆ fM K → A ⊆ down K B ↔ B ⊆ up K A.
  Proof.
    intros HA HB. split; intros H x Hx.
    - apply elem_of_up. split; [auto|]. intros g Hg. apply H, elem_of_down in Hg as [_ Hg]. auto.
    - apply elem_of_down. split; [auto|]. intros m Hm. apply H, elem_of_up in Hm as [_ Hm]. auto.
  Qed.
  Lemma up_anti A A' : A ⊆ A' → up K A' ⊆ up K A.
  Proof. intros H m. rewrite !elem_of_up. intros [? ?]. split; auto. Qed.
  Lemma down_anti B B' : B ⊆ B' → down K B' ⊆ down K B.
  Proof. intros H m. rewrite !elem_of_down. intros [? ?]. split; auto. Qed.
  Lemma acl_ext B : B ⊆ fM K → B ⊆ acl K B.
  Proof. intros H. apply galois; [apply down_sub|done|done]. Qed.
  Lemma ocl_ext A : A ⊆ fG K → A ⊆ ocl K A.
  Proof. intros H. apply galois; [done|apply up_sub|done]. Qed.
  Lemma acl_mono B B' : B ⊆ B' → acl K B ⊆ acl K B'.
  Proof. intros. by apply up_anti, down_anti. Qed.
  Lemma ocl_mono A A' : A ⊆ A' → ocl K A ⊆ ocl K A'.
  Proof. intros. by apply down_anti, up_anti. Qed.
  Lemma down_up_down B : B ⊆ fM K → down K (up K (down K B)) = down K B.
  Proof.
    intros H. apply (anti_symm (⊆)).
    - apply down_anti. by apply acl_ext.
    - apply ocl_ext, down_sub.
  Qed.
  Lemma up_down_up A : A ⊆ fG K → up K (down K (up K A)) = up K A.
  Proof.
    intros H. apply (anti_symm (⊆)).
    - apply up_anti. by apply ocl_ext.
    - apply acl_ext, up_sub.
  Qed.
  Lemma acl_idem B : B ⊆ fM K → acl K (acl K B) = acl K B.
  Proof. intros. unfold acl. by rewrite down_up_down. Qed.
  Lemma ocl_idem A : A ⊆ fG K → ocl K (ocl K A) = ocl K A.
  Proof. intros. unfold ocl. by rewrite up_down_up. Qed.
  Lemma acl_sub B : acl K B ⊆ fM K.
  Proof. apply up_sub. Qed.
  Lemma ocl_sub A : ocl K A ⊆ fG K.
  Proof. apply down_sub. Qed.
  Lemma up_empty : up K ∅ = fM K.
  Proof. apply set_eq. intros m. rewrite elem_of_up. set_solver. Qed.
  Lemma down_empty : down K ∅ = fG K.
  Proof. apply set_eq. intros m. rewrite elem_of_down. set_solver. Qed.
  Lemma up_union A A' : up K (A ∪ A') = up K A ∩ up K A'.
  Proof. apply set_eq. intros m. rewrite elem_of_intersection, !elem_of_up. set_solver. Qed.
  Lemma down_union B B' : down K (B ∪ B') = down K B ∩ down K B'.
  Proof. apply set_eq. intros m. rewrite elem_of_intersection, !elem_of_down. set_solver. Qed.
  Lemma concept_of_objects A : A ⊆ fG K → is_concept K (ocl K A) (up K A).
  Proof.
    intros. split; [apply ocl_sub|]. split; [apply up_sub|]. split; [|done].
    by apply up_down_up.
  Qed.
  Lemma concept_of_attributes B : B ⊆ fM K → is_concept K (down K B) (acl K B).
  Proof.
    intros. split; [apply down_sub|]. split; [apply up_sub|]. split; [done|].
    by apply down_up_down.
  Qed.
  Lemma acl_holds P C : P ⊆ fM K → C ⊆ fM K → holds K (P, C) ↔ C ⊆ acl K P.
  Proof.
    intros HP HC. unfold holds; simpl. split.
    - intros H m Hm. apply elem_of_up. split; [auto|].
      intros g [Hg Hg']%elem_of_down. eapply H; eauto.
    - intros H g Hg HgP m Hm. apply H, elem_of_up in Hm as [_ Hm]. apply Hm.
      apply elem_of_down. done.
  Qed.
End facts.

Lemma ftrans_fI K g m : (m, g) ∈ fI (ftrans K) ↔ (g, m) ∈ fI K.
Proof.
  unfold ftrans; simpl. rewrite elem_of_map. split.
  - intros ([a b] & [= -> ->] & H). done.
  - intros H. by exists (g, m).
Qed.
Lemma up_ftrans K B : up (ftrans K) B = down K B.
Proof.
  apply set_eq. intros g. rewrite elem_of_up, elem_of_down. simpl.
  split; intros [? H]; (split; [done|]); intros m Hm; by apply ftrans_fI, H.
Qed.
Lemma down_ftrans K A : down (ftrans K) A = up K A.
Proof.
  apply set_eq. intros g. rewrite elem_of_up, elem_of_down. simpl.
  split; intros [? H]; (split; [done|]); intros m Hm; by apply ftrans_fI, H.
Qed.
Lemma ftrans_involutive K : ftrans (ftrans K) = K.
Proof.
  destruct K as [G M I]. unfold ftrans; simpl. f_equal.
  apply set_eq. intros [g m]. rewrite elem_of_map. split.
  - intros ([a b] & [= -> ->] & H). apply elem_of_map in H as ([c d] & [= -> ->] & H). done.
  - intros H. exists (m, g). split; [done|]. apply elem_of_map. by exists (g, m).
Qed.

(** Model/closure facts for implication lists. *)
Section imps.
  Implicit Types L : list fimp.
  Implicit Types X Y C : gset name.
  Lemma model_of_inter L X Y : model_of L X → model_of L Y → model_of L (X ∩ Y).
  Proof. intros HX HY j Hj H. specialize (HX j Hj). specialize (HY j Hj). unfold respects in *. set_solver. Qed.
  Lemma is_closure_unique L X C C' : is_closure L X C → is_closure L X C' → C = C'.
  Proof. intros (?&?&?) (?&?&?). apply (anti_symm (⊆)); auto. Qed.
  Lemma is_closure_mono L X Y C C' :
    is_closure L X C → is_closure L Y C' → X ⊆ Y → C ⊆ C'.
  Proof. intros (?&?&H) (?&?&?) ?. apply H; [set_solver|done]. Qed.
  Lemma is_closure_model L X : model_of L X → is_closure L X X.
  Proof. intros. split; [done|]. split; [done|]. auto. Qed.
  Lemma entails_closure L X C : is_closure L X C → entails L (X, C).
  Proof. intros (?&?&H) Y HY HX. simpl in *. by apply H. Qed.
End imps.
