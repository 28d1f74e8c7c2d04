(** * Covers minimized to the canonical basis: the final statements (C96) *)
From Verif Require Import Py Spec PyFacts SpecFacts DgSpec ContextModel ContextSpec ContextOps ContextFacts ContextInit ContextFinal ClosureModel ClosureFacts
  DgModel DgFacts DgCxt CoverSpec CoverModel CoverFacts AiModel AiRound AiFinal CoverCanon Properties_Context Properties_Closure Properties_Dg Properties_Cover Properties_Ai.

(** ** C96 *)
(** Any list of implications, each of whose conclusions together with its premise is the
    closure of the premise, complete for the closed sets: what [minimize] leaves are
    the pseudo-closed sets with their closures, each once. *)
Theorem C96_minimize M cl cover h : comparable (elements M) = true → closure_op M cl → NoDup cover →
  (∀ r, r ∈ cover → (h r).1 ⊆ M ∧ cl (h r).1 = (h r).1 ∪ (h r).2) →
  (∀ X, X ⊆ M → model_of (map h cover) X → cl X = X) →
  ∃ cover' h', minimize cover h = Ok (cover', h') ∧ NoDup (map fst (map h' cover')) ∧
    pseudo_family M cl [] (λ P, P ∈ map fst (map h' cover')) ∧
    (∀ i, i ∈ map h' cover' → i.1 ⊆ M ∧ cl i.1 = i.1 ∪ i.2).
Proof. intros HM Hcl. exact (minimize_canon M HM cl Hcl cover h). Qed.
Print Assumptions C96_minimize.

Lemma comparable_elements l : comparable l = true → comparable (elements (list_to_set l : gset name)) = true.
Proof.
  rewrite !comparable_spec. setoid_rewrite elem_of_elements. setoid_rewrite elem_of_list_to_set. done.
Qed.
Lemma map_heap L : map (heap L) (seq 0 (length L)) = L.
Proof.
  apply list_eq. intros k. rewrite list_lookup_fmap. destruct (decide (k < length L)) as [Hk|Hk].
  - rewrite lookup_seq_lt by done. cbn. unfold heap. destruct (lookup_lt_is_Some_2 _ _ Hk) as [x Hx]. unfold fimp in *. by rewrite Hx.
  - rewrite lookup_seq_ge by lia. cbn. symmetry. apply lookup_ge_None. lia.
Qed.
(** A list of separate implications in memory, minimized. *)
Lemma canon_perm c L : good c → comparable (atts c) = true →
  (∀ i, i ∈ L → i.1 ⊆ fM (abs c) ∧ acl (abs c) i.1 = i.1 ∪ i.2) →
  (∀ X, X ⊆ fM (abs c) → model_of L X → acl (abs c) X = X) →
  ∃ R R', min_result (seq 0 (length L)) L = Ok R ∧ compute_dg_basis c elts (Some []) always = Ok R' ∧ map full R ≡ₚ R'.
Proof.
  intros Hg Hc Hx Hcomp. assert (fM (abs c) = list_to_set (atts c)) as EM by done.
  destruct (minimize_canon (fM (abs c)) ltac:(rewrite EM; by apply comparable_elements) (acl (abs c)) (acl_closure_op (abs c)) (seq 0 (length L)) (heap L))
    as (cover' & h' & E & Hnd & Hf & He).
  { apply NoDup_seq. }
  { intros r Hr. apply Hx. rewrite <-(map_heap L) at 2. apply elem_of_list_fmap. by exists r. }
  { rewrite map_heap. done. }
  destruct (C23_dg_basis c elts Hg Hc elts_perm) as (R' & h1 & _ & h2 & h3 & h4).
  exists (map h' cover'), R'. split; [unfold min_result; rewrite E; done|]. split; [done|].
  apply (exact_perm (abs c)).
  - by rewrite map_fst_full.
  - clear -h4. induction h4 as [|P l HS IH HP]; [constructor|]. constructor; [|done].
    intros H. rewrite Forall_forall in HP. by eapply lectic_irrefl, HP.
  - intros i' Hi. apply elem_of_list_fmap in Hi as (i & -> & Hi). destruct (He i Hi) as [_ E2]. cbn [full fst snd]. by rewrite E2.
  - done.
  - intros P. rewrite map_fst_full. exact (C23_pseudo_intents_unique _ _ _ _ Hf h3 P).
Qed.
(** The cover of a context, minimized, is the Duquenne-Guigues basis: the same premises
    and, together with them, the same conclusions. *)
Theorem C96_cover c ord : good c → comparable (atts c) = true → (∀ n k X, ord n k X ≡ₚ elements X) →
  ∃ L R R', compute_implication_cover c ord = Ok L ∧ min_result (seq 0 (length L)) L = Ok R ∧
    compute_dg_basis c elts (Some []) always = Ok R' ∧ map (λ i, (i.1, i.1 ∪ i.2)) R ≡ₚ R'.
Proof.
  intros Hg Hc Ho. destruct (C49_cover c ord Hg Ho) as (L & E & _ & Hx & Hcl & _).
  exists L. destruct (canon_perm c L Hg Hc) as (R & R' & H1 & H2 & H3).
  - intros i Hi. destruct (Hx i Hi) as [H1 H2]. split; [done|]. pose proof (acl_ext (abs c) i.1 H1) as H3. unfold conclusion in H2.
    apply set_eq. intros m. destruct (decide (m ∈ i.1)); [set_solver|]. assert (m ∈ i.2 ∖ i.1 ↔ m ∈ acl (abs c) i.1 ∖ i.1) by by rewrite H2. set_solver.
  - intros X HX Hm. apply (anti_symm (⊆)); [|by apply acl_ext]. by apply (Hcl X HX).
  - by exists R, R'.
Qed.
Print Assumptions C96_cover.
(** So is the basis of the attribute-incremental algorithm, minimized, however it sorts. *)
Theorem C96_incremental c srt : good c → comparable (atts c) = true → objs c ≠ [] → (∀ i l, srt i l ≡ₚ l) →
  ∃ L R R', compute_canonical_basis srt c = Ok L ∧ min_result (seq 0 (length L)) L = Ok R ∧
    compute_dg_basis c elts (Some []) always = Ok R' ∧ map (λ i, (i.1, i.1 ∪ i.2)) R ≡ₚ R'.
Proof.
  intros Hg Hc Hne Hs. destruct (canonical_ok c Hg Hc Hne srt Hs) as (L & E & Hx & _ & Hcomp & _).
  exists L. destruct (canon_perm c L Hg Hc) as (R & R' & H1 & H2 & H3).
  - intros i Hi. destruct (Hx i Hi) as (H1 & H2 & _). split; [done|]. rewrite H2. pose proof (acl_ext (abs c) i.1 H1). set_solver.
  - done.
  - by exists R, R'.
Qed.
Print Assumptions C96_incremental.
(** Nothing smaller says the same. *)
Theorem C96_minimum c ord L R S : good c → comparable (atts c) = true → (∀ n k X, ord n k X ≡ₚ elements X) →
  compute_implication_cover c ord = Ok L → min_result (seq 0 (length L)) L = Ok R →
  (∀ i, i ∈ S → i.1 ⊆ fM (abs c) ∧ i.2 ⊆ fM (abs c) ∧ holds (abs c) i) →
  (∀ i, i.1 ⊆ fM (abs c) → i.2 ⊆ fM (abs c) → holds (abs c) i → entails S i) → length R ≤ length S.
Proof.
  intros Hg Hc Ho HL HR HS1 HS2. destruct (C96_cover c ord Hg Hc Ho) as (L' & R0 & R' & H1 & H2 & H3 & H4).
  rewrite HL in H1. injection H1 as <-. rewrite HR in H2. injection H2 as <-.
  apply Permutation_length in H4. rewrite map_length in H4. unfold fimp in *. rewrite H4.
  exact (C25_minimum c elts R' S Hg Hc elts_perm H3 HS1 HS2).
Qed.
Print Assumptions C96_minimum.
(** The cover of [ex4] has five implications, one of them superfluous; four remain, one of
    them with a larger premise. *)
Example C96_case : good ex4 ∧ comparable (atts ex4) = true ∧
  ∃ L, compute_implication_cover ex4 (fun _ _ X => elements X) = Ok L ∧ length L = 5 ∧ ({[sa; sd]}, {[sa; sb; sc]}) ∈ L ∧
    min_result (seq 0 (length L)) L =
      Ok [({[sc]}, {[sa; sb; sc; sd]}); ({[sb]}, {[sa; sb]}); ({[sa]}, {[sa; sb]}); ({[sa; sb; sd]}, {[sa; sb; sc]})].
Proof.
  split; [exact ex4_good|]. split; [dec|]. eexists. split; [apply (get_ok_eq []); vm_compute; reflexivity|].
  split; [dec|]. split; dec.
Qed.
