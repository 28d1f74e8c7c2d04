(** * Counting concepts and implications *)
From Verif Require Import Py Spec PyFacts SpecFacts ContextModel ContextSpec ContextOps ContextFacts
  LatticeSpec LatticeModel NorrisFacts LatticeFacts FilterModel FilterFacts CrossFacts.
Local Open Scope nat_scope.

Lemma length_subs (l : list name) : length (subs_l l) = 2 ^ length l.
Proof.
  induction l as [|x l IH]; [done|]. cbn [subs_l length]. rewrite app_length, map_length, IH. simpl. lia.
Qed.
Lemma subsets_le (L : list (gset name)) (ns : list name) : NoDup L → (∀ S, S ∈ L → S ⊆ list_to_set ns) → length L ≤ 2 ^ length ns.
Proof.
  intros Hn H. rewrite <-length_subs. apply submseteq_length, NoDup_submseteq; [done|].
  intros S HS. by apply elem_of_subs_l, H.
Qed.
Lemma image_le {A B} (f : A → B) (l : list A) (k : list B) : NoDup l → (∀ x y, x ∈ l → y ∈ l → f x = f y → x = y) →
  (∀ x, x ∈ l → f x ∈ k) → length l ≤ length k.
Proof.
  intros Hn Hi H. rewrite <-(map_length f l). apply submseteq_length, NoDup_submseteq.
  - apply (NoDup_fmap_2_strong f); [|done]. intros x y Hx Hy. by apply Hi.
  - intros y (x & -> & Hx)%elem_of_list_fmap. by apply H.
Qed.
Lemma twice_le {A} (f : A → A) (l l' : list A) : NoDup l' → (∀ x, x ∈ l' → x ∈ l ∨ ∃ y, y ∈ l ∧ x = f y) → length l' ≤ 2 * length l.
Proof.
  intros Hn H. transitivity (length (l ++ map f l)).
  - apply submseteq_length, NoDup_submseteq; [done|]. intros x Hx. apply elem_of_app.
    destruct (H x Hx) as [?|(y & Hy & ->)]; [by left|right]. by apply elem_of_list_fmap_1.
  - rewrite app_length, map_length. lia.
Qed.

Lemma concepts_snd c cs : good c → norris c = Ok cs → NoDup (map snd cs).
Proof.
  intros Hg H. destruct (norris_of c cs Hg H) as [Hn Hcs].
  apply (NoDup_fmap_2_strong snd); [|done]. intros [A B] [A' B'] H1%Hcs H2%Hcs [= <-].
  destruct H1 as (_ & _ & _ & <-). by destruct H2 as (_ & _ & _ & <-).
Qed.
Lemma concepts_fst c cs : good c → norris c = Ok cs → NoDup (map fst cs).
Proof.
  intros Hg H. destruct (norris_of c cs Hg H) as [Hn Hcs].
  apply (NoDup_fmap_2_strong fst); [|done]. intros [A B] [A' B'] H1%Hcs H2%Hcs [= <-].
  destruct H1 as (_ & _ & <- & _). by destruct H2 as (_ & _ & <- & _).
Qed.

Lemma norris_bounds c cs : good c → norris c = Ok cs → length cs ≤ 2 ^ length (objs c) ∧ length cs ≤ 2 ^ length (atts c).
Proof.
  intros Hg H. destruct (norris_of c cs Hg H) as [Hn Hcs]. split.
  - rewrite <-(map_length fst cs). apply subsets_le; [by eapply concepts_fst|].
    intros S ([A B] & -> & HC%Hcs)%elem_of_list_fmap. by destruct HC as (HA & _).
  - rewrite <-(map_length snd cs). apply subsets_le; [by eapply concepts_snd|].
    intros S ([A B] & -> & HC%Hcs)%elem_of_list_fmap. by destruct HC as (_ & HB & _).
Qed.
