(** * Attribute exploration with a truthful expert *)
From Verif Require Import Py Spec PyFacts SpecFacts DgSpec ContextModel ContextSpec ContextOps ContextFacts ContextInit ContextMut ContextMisc ContextEffects
  ContextFinal ClosureModel ClosureFacts DgModel DgFacts DgMain DgCons DgCxt DgFinal AiModel ExplModel ExplSpec ExplFacts ExplDb ExplFinal FilterFacts
  ExploreModel ExploreSpec.

(** ** Counting subsets with a property *)
Lemma filter_count_le {A} (P Q : A → bool) l : (∀ x, x ∈ l → P x = true → Q x = true) →
  length (List.filter P l) ≤ length (List.filter Q l).
Proof.
  induction l as [|x l IH]; intros H; [done|]. cbn. assert (∀ x, x ∈ l → P x = true → Q x = true) as H' by (intros; apply H; [by right|done]).
  specialize (IH H'). destruct (P x) eqn:EP; [rewrite (H x) by (done || by left); cbn; lia|]. destruct (Q x); cbn; lia.
Qed.
Lemma filter_count_lt {A} (P Q : A → bool) l x : (∀ x, x ∈ l → P x = true → Q x = true) → x ∈ l → P x = false → Q x = true →
  length (List.filter P l) < length (List.filter Q l).
Proof.
  intros H Hx HP HQ. apply elem_of_list_split in Hx as (l1 & l2 & ->). rewrite !List.filter_app, !app_length. cbn. rewrite HP, HQ. cbn.
  assert (length (List.filter P l1) ≤ length (List.filter Q l1)) by (apply filter_count_le; intros y Hy; apply H; apply elem_of_app; by left).
  assert (length (List.filter P l2) ≤ length (List.filter Q l2)) by (apply filter_count_le; intros y Hy; apply H; apply elem_of_app; right; by right).
  lia.
Qed.
Lemma filter_count_all {A} (P : A → bool) l : length (List.filter P l) ≤ length l.
Proof. induction l as [|x l IH]; [done|]. cbn. destruct (P x); cbn; lia. Qed.
Lemma subs_l_length l : length (subs_l l) = 2 ^ length l.
Proof. induction l as [|x l IH]; [done|]. cbn. rewrite app_length, map_length. lia. Qed.

Section explore.
  Context (ms : list name) (Hms : NoDup ms) (Hcmp : comparable ms = true).
  Local Notation M := (list_to_set ms : gset name).
  Context (cl : gset name → gset name) (Hcl : closure_op M cl).
  Context (L0 : list fimp) (HL0 : ∀ i, i ∈ L0 → i.1 ⊆ M ∧ i.2 ⊆ M) (HLs : ∀ i, i ∈ L0 → i.2 ⊆ cl i.1).

  Definition rows_closed (c : context) : Prop := ∀ g, g ∈ objs c → cl (up (abs c) {[g]}) = up (abs c) {[g]}.
  (** [Lc] are the implications confirmed so far. *)
  Record einv (c : context) (Lc : list fimp) : Prop := EInv {
    e_good : good c;
    e_atts : atts c = ms;
    e_rows : rows_closed c;
    e_basis : basis_like ms cl L0 Lc;
    e_pseudo : ∀ P, P ∈ map fst Lc → ∀ Q, Q ∈ map fst Lc → Q ⊂ P → cl Q ⊆ P;
    e_after : ∀ X, X ⊆ M → model_of (Lc ++ L0) X → X ≠ acl (abs c) X → ∀ Q, Q ∈ map fst Lc → lectic ms Q X;
    e_norep : no_repeats (L0 ++ Lc) }.
  Definition openness (c : context) (L : list fimp) : nat :=
    length (List.filter (λ X, forallb (λ i, is_respected i X) L) (subs_l ms)) +
    length (List.filter (λ X, bool_decide (acl (abs c) X ≠ X)) (subs_l ms)).
  Lemma openness_bound c L : openness c L ≤ 2 * 2 ^ length ms.
  Proof.
    unfold openness. rewrite <-subs_l_length. pose proof (filter_count_all (λ X, forallb (λ i, is_respected i X) L) (subs_l ms)).
    pose proof (filter_count_all (λ X, bool_decide (acl (abs c) X ≠ X)) (subs_l ms)). lia.
  Qed.

  Lemma fM_ms c : atts c = ms → fM (abs c) = M.
  Proof. intros E. apply set_eq. intros m. rewrite in_atts, elem_of_list_to_set. by rewrite E. Qed.
  Lemma cl_below c X : atts c = ms → rows_closed c → X ⊆ M → cl X ⊆ acl (abs c) X.
  Proof.
    intros Ha Hr HX m Hm. apply elem_of_up. split.
    { rewrite (fM_ms c Ha). by apply (cl_sub _ _ Hcl X). }
    intros g Hg. apply elem_of_down in Hg as [Hg HgX]. apply in_objs in Hg.
    assert (X ⊆ up (abs c) {[g]}) as Hsub.
    { intros x Hx. apply elem_of_up. split; [rewrite (fM_ms c Ha); by apply HX|]. intros g' ->%elem_of_singleton. by apply HgX. }
    assert (m ∈ up (abs c) {[g]}) as Hmg.
    { rewrite <-(Hr g Hg). apply (cl_mono _ _ Hcl X); [done| |done]. rewrite <-(fM_ms c Ha). apply up_sub. }
    apply elem_of_up in Hmg as [_ Hmg]. apply Hmg. by apply elem_of_singleton.
  Qed.
  Lemma sound_model Lc X : basis_like ms cl L0 Lc → X ⊆ M → cl X = X → model_of (Lc ++ L0) X.
  Proof.
    intros [Hb _] HX E i Hi Hp. rewrite <-E. assert (i.2 ⊆ cl i.1) as Hc.
    { apply elem_of_app in Hi as [Hi|Hi]; [|by apply HLs]. by destruct (Hb i Hi) as (_ & -> & _). }
    etrans; [exact Hc|]. by apply (cl_mono _ _ Hcl).
  Qed.

  (** The first question. *)
  Record first_question (c : context) (Lc : list fimp) (P C : gset name) : Prop := FQ {
    q_sub : P ⊆ M;
    q_model : model_of (Lc ++ L0) P;
    q_cl : C = acl (abs c) P;
    q_ne : P ≠ C;
    q_first : ∀ X, X ⊆ M → model_of (Lc ++ L0) X → X ≠ acl (abs c) X → X = P ∨ lectic ms P X }.
  Lemma model_swap (L L' : list fimp) X : model_of (L ++ L') X ↔ model_of (L' ++ L) X.
  Proof. rewrite !model_of_app. tauto. Qed.
  (** What the list of open implications says. *)
  Lemma head_question c Lc R : atts c = ms → post ms (acl (abs c)) (L0 ++ Lc) R →
    match R with
    | [] => ∀ X, X ⊆ M → model_of (Lc ++ L0) X → X = acl (abs c) X
    | (P, C) :: _ => first_question c Lc P C
    end.
  Proof.
    intros Ha HR. assert (closure_op M (acl (abs c))) as Hacl by (rewrite <-(fM_ms c Ha); apply acl_closure_op).
    destruct R as [|[P C] R].
    - intros X HX Hm. apply (post_complete ms _ Hacl (L0 ++ Lc) [] HR); [done|]. cbn. by apply model_swap.
    - destruct (post_elem _ _ _ _ HR (P, C)) as (H1 & H2 & H3 & H4); [left|]. cbn in *. split; [done|by apply model_swap|done|by rewrite H2|].
      assert (∀ Q, Q ∈ map fst ((P, C) :: R) → Q = P ∨ lectic ms P Q) as Hhd.
      { intros Q HQ. destruct HR as [[_ Hs] _]. cbn in HQ, Hs. apply elem_of_cons in HQ as [?|HQ]; [auto|]. right.
        inversion Hs as [|? ? _ Hf]; subst. rewrite Forall_forall in Hf. by apply Hf. }
      intros X HX Hm Hne. destruct (forallb (λ i, is_respected i X) ((P, C) :: R)) eqn:Ef.
      + exfalso. apply Hne. apply (post_complete ms _ Hacl (L0 ++ Lc) ((P, C) :: R) HR); [done|]. apply model_of_app. split; [|by apply model_swap].
        intros i Hi. apply is_respected_spec. rewrite forallb_forall in Ef. apply Ef. by apply elem_of_list_In.
      + apply forallb_false in Ef as (i & Hi & Er). apply not_true_iff_false in Er. rewrite is_respected_spec in Er.
        assert (i.1 ⊆ X) as Hsub. { destruct (decide (i.1 ⊆ X)); [done|]. exfalso. apply Er. by intros ?. }
        destruct (post_elem _ _ _ _ HR _ Hi) as (Hi1 & _).
        assert (i.1 = X ∨ lectic ms i.1 X) as HX'.
        { destruct (lectic_total ms i.1 X Hi1 HX) as [?|[?|Hlt]]; [auto|auto|]. by apply (lectic_sub ms i.1 X) in Hlt. }
        destruct (Hhd i.1) as [E|E]; [by apply elem_of_list_fmap_1| |].
        * rewrite E in HX'. destruct HX' as [?|?]; [left; congruence|by right].
        * right. destruct HX' as [<-|?]; [done|]. by eapply lectic_trans.
  Qed.

  Lemma model_dec L X : forallb (λ i, is_respected i X) L = true ↔ model_of L X.
  Proof.
    rewrite forallb_forall. split; intros H i Hi.
    - apply is_respected_spec, H. by apply elem_of_list_In.
    - apply is_respected_spec, H. by apply elem_of_list_In.
  Qed.
  Lemma not_respects P C : P ⊆ C → P ≠ C → ¬ respects P (P, C).
  Proof. intros H Hne Hr. apply Hne. apply (anti_symm (⊆)); [done|]. by apply Hr. Qed.

  Lemma confirm_einv c Lc P C : einv c Lc → first_question c Lc P C → C ⊆ cl P →
    einv c (Lc ++ [(P, C)]) ∧ openness c (L0 ++ Lc ++ [(P, C)]) < openness c (L0 ++ Lc).
  Proof.
    intros [h1 h2 h3 [h4 h4s] h5 h6 h7] [q1 q2 q3 q4 q5] HC.
    assert (C = cl P) as EC.
    { apply (anti_symm (⊆)); [done|]. rewrite q3. by apply cl_below. }
    assert (P ⊆ C) as HPC by (rewrite EC; by apply (cl_ext _ _ Hcl)).
    pose proof (not_respects P C HPC q4) as Hnr.
    assert (model_of L0 P) as HmP by by apply model_of_app in q2 as [_ ?].
    assert (∀ Q, Q ∈ map fst Lc → lectic ms Q P) as Hlt.
    { intros Q HQ. apply h6; [done|done|congruence|done]. }
    split; [split|].
    - done.
    - done.
    - done.
    - split.
      + intros i Hi. apply elem_of_app in Hi as [Hi|Hi]; [by apply h4|]. apply elem_of_list_singleton in Hi as ->. cbn. split; [done|]. split; [done|].
        split; [congruence|done].
      + rewrite map_app. by apply StronglySorted_snoc.
    - intros P' HP' Q HQ Hs. rewrite map_app in HP', HQ. apply elem_of_app in HP' as [HP'|HP'], HQ as [HQ|HQ].
      + by apply h5.
      + apply elem_of_list_singleton in HQ as ->. exfalso. apply (lectic_sub ms P P'); [apply Hs|by apply Hlt].
      + apply elem_of_list_singleton in HP' as ->. cbn. apply elem_of_list_fmap in HQ as (i & -> & Hi).
        destruct (h4 i Hi) as (_ & <- & _). apply (q2 i); [apply elem_of_app; by left|apply Hs].
      + apply elem_of_list_singleton in HP' as ->. apply elem_of_list_singleton in HQ as ->. exfalso. by apply Hs.
    - intros X HX Hm Hne Q HQ. apply model_of_app in Hm as [Hm Hm0]. apply model_of_app in Hm as [Hm1 Hm2].
      assert (model_of (Lc ++ L0) X) as Hm by by apply model_of_app.
      rewrite map_app in HQ. apply elem_of_app in HQ as [HQ|HQ]; [by apply h6|]. apply elem_of_list_singleton in HQ as ->. cbn.
      destruct (q5 X HX Hm Hne) as [->|?]; [|done]. exfalso. apply Hnr. apply Hm2. left.
    - rewrite app_assoc. apply no_repeats_snoc; [done|]. intros j Hj. apply not_true_iff_false. intros E. apply Hnr.
      apply (imp_eqb_respects _ _ P E). apply q2. rewrite elem_of_app in *. tauto.
    - unfold openness. apply Nat.add_lt_mono_r. apply (filter_count_lt _ _ _ P).
      + intros X _. rewrite !model_dec, app_assoc, (model_of_app (L0 ++ Lc)). tauto.
      + by apply elem_of_subs_l.
      + apply not_true_iff_false. rewrite model_dec, !model_of_app. intros (_ & _ & H). apply Hnr, H. left.
      + rewrite model_dec. by apply model_swap.
  Qed.

  (** ** New objects *)
  Lemma new_rows c X o : good c → atts c = ms → o ∉ objs c → ∃ c', add_object_with_intent c X o = (c', Ok tt) ∧ good c' ∧
    objs c' = objs c ++ [o] ∧ atts c' = ms ∧ up (abs c') {[o]} = X ∩ M ∧ ∀ g, g ∈ objs c → up (abs c') {[g]} = up (abs c) {[g]}.
  Proof.
    intros Hg Ha Hn. destruct (add_object_with_intent_effect c X o) as (c' & E & Hg' & Ho & Ha' & HI); [apply Hg|apply Hg|done|].
    exists c'. rewrite Ha in Ha'. repeat (split; [done|]).
    assert (∀ g m, m ∈ up (abs c') {[g]} ↔ m ∈ ms ∧ (incident c g m ∨ (g = o ∧ m ∈ atts c ∧ m ∈ X))) as Hup.
    { intros g m. rewrite elem_of_up, (fM_ms c' Ha'), elem_of_list_to_set, <-HI, <-elem_of_fI. split.
      - intros [? H]. split; [done|]. apply H. by apply elem_of_singleton.
      - intros [? H]. split; [done|]. by intros g' ->%elem_of_singleton. }
    split.
    - apply set_eq. intros m. rewrite Hup, elem_of_intersection, elem_of_list_to_set, Ha. split; [|tauto].
      intros [? [H|?]]; [|tauto]. apply incident_dom in H as [? _]. done.
    - intros g Hgo. apply set_eq. intros m. rewrite Hup, elem_of_up, (fM_ms c Ha), elem_of_list_to_set. split.
      + intros [? [H|(-> & _)]]; [|done]. split; [done|]. intros g' ->%elem_of_singleton. by apply elem_of_fI.
      + intros [? H]. split; [done|]. left. apply elem_of_fI. apply H. by apply elem_of_singleton.
  Qed.
  Lemma elem_of_acl c Y m : atts c = ms → Y ⊆ M →
    m ∈ acl (abs c) Y ↔ m ∈ M ∧ ∀ g, g ∈ objs c → Y ⊆ up (abs c) {[g]} → m ∈ up (abs c) {[g]}.
  Proof.
    intros Ha HY. unfold acl. rewrite elem_of_up, (fM_ms c Ha). split.
    - intros [Hm H]. split; [done|]. intros g Hg HYg. apply elem_of_up. split; [by rewrite (fM_ms c Ha)|].
      intros g' ->%elem_of_singleton. apply H. apply elem_of_down. split; [by apply in_objs|]. intros y Hy.
      apply HYg, elem_of_up in Hy as [_ Hy]. apply Hy. by apply elem_of_singleton.
    - intros [Hm H]. split; [done|]. intros g [Hg HgY]%elem_of_down.
      assert (m ∈ up (abs c) {[g]}) as [_ Hr]%elem_of_up; [|apply Hr; by apply elem_of_singleton].
      apply H; [by apply in_objs|]. intros y Hy. apply elem_of_up. split; [rewrite (fM_ms c Ha); by apply HY|].
      intros g' ->%elem_of_singleton. by apply HgY.
  Qed.
  (** [c'] is [c] with the objects [es] added. *)
  Record extends (c : context) (es : list name) (Xs : list (gset name)) (c' : context) : Prop := Ext {
    x_good : good c';
    x_objs : objs c' = objs c ++ es;
    x_atts : atts c' = ms;
    x_old : ∀ g, g ∈ objs c → up (abs c') {[g]} = up (abs c) {[g]};
    x_new : ∀ n o X, es !! n = Some o → Xs !! n = Some X → up (abs c') {[o]} = X ∩ M }.
  Lemma extends_acl c es Xs c' Y : atts c = ms → extends c es Xs c' → Y ⊆ M → acl (abs c') Y ⊆ acl (abs c) Y.
  Proof.
    intros Ha [x1 x2 x3 x4 x5] HY m. rewrite !elem_of_acl by done. intros [Hm H]. split; [done|]. intros g Hg HYg.
    rewrite <-(x4 g Hg) in *. apply H; [|done]. rewrite x2. apply elem_of_app. by left.
  Qed.
  Lemma extends_einv c Lc es Xs c' : einv c Lc → extends c es Xs c' → length es = length Xs →
    (∀ X, X ∈ Xs → cl (X ∩ M) = X ∩ M) → einv c' Lc ∧ openness c' (L0 ++ Lc) ≤ openness c (L0 ++ Lc).
  Proof.
    intros [h1 h2 h3 h4 h5 h6 h7] Hx Hl HXs. pose proof Hx as [x1 x2 x3 x4 x5].
    assert (∀ Y, Y ⊆ M → Y = acl (abs c) Y → Y = acl (abs c') Y) as Hkeep.
    { intros Y HY E. apply (anti_symm (⊆)); [apply acl_ext; by rewrite (fM_ms c' x3)|]. rewrite E at 2. by eapply extends_acl. }
    split; [split; try done|].
    - intros g Hg. rewrite x2 in Hg. apply elem_of_app in Hg as [Hg|Hg]; [rewrite (x4 g Hg); by apply h3|].
      apply elem_of_list_lookup in Hg as [n Hn]. destruct (lookup_lt_is_Some_2 Xs n) as [X HX].
      { rewrite <-Hl. by eapply lookup_lt_Some. }
      rewrite (x5 n g X Hn HX). apply HXs. by eapply elem_of_list_lookup_2.
    - intros X HX Hm Hne. apply h6; [done|done|]. intros E. apply Hne. by apply Hkeep.
    - unfold openness. apply Nat.add_le_mono_l. apply filter_count_le. intros X HX%elem_of_subs_l.
      rewrite !bool_decide_eq_true. intros Hne E. apply Hne. symmetry. by apply Hkeep.
  Qed.
  Lemma refute_openness c Lc X o es Xs c' P C : einv c Lc → extends c (o :: es) (X :: Xs) c' → first_question c Lc P C →
    ¬ respects X (P, C) → openness c' (L0 ++ Lc) < openness c (L0 ++ Lc).
  Proof.
    intros [h1 h2 h3 h4 h5 h6 h7] Hx [q1 q2 q3 q4 q5] Hr. pose proof Hx as [x1 x2 x3 x4 x5].
    unfold openness. apply Nat.add_lt_mono_l. apply (filter_count_lt _ _ _ (acl (abs c') P)).
    - intros Y HY%elem_of_subs_l. rewrite !bool_decide_eq_true. intros Hne E. apply Hne. apply (anti_symm (⊆)).
      + rewrite <-E at 2. by eapply extends_acl.
      + apply acl_ext. by rewrite (fM_ms c' x3).
    - apply elem_of_subs_l. rewrite <-(fM_ms c' x3). apply acl_sub.
    - rewrite bool_decide_eq_false. intros H. apply H. apply acl_idem. by rewrite (fM_ms c' x3).
    - rewrite bool_decide_eq_true. intros E. apply Hr. intros HPX. cbn in *.
      assert (acl (abs c') P ⊆ X ∩ M) as Hsub.
      { intros m [Hm H]%elem_of_acl; [|done|done]. rewrite <-(x5 0 o X) by done. apply H; [rewrite x2; apply elem_of_app; right; left|].
        rewrite (x5 0 o X) by done. set_solver. }
      assert (C ⊆ acl (abs c') P) as HC; [|set_solver].
      rewrite <-E, q3. apply acl_mono. apply acl_ext. by rewrite (fM_ms c' x3).
  Qed.

  (** ** The end *)
  Lemma done_einv c Lc : einv c Lc → (∀ X, X ⊆ M → model_of (Lc ++ L0) X → X = acl (abs c) X) →
    (∀ X, X ⊆ M → acl (abs c) X = cl X) ∧ post ms cl L0 Lc.
  Proof.
    intros [h1 h2 h3 h4 h5 h6 h7] Hdone. assert (∀ X, X ⊆ M → acl (abs c) X = cl X) as Hacl.
    { intros X HX. apply (anti_symm (⊆)); [|by apply cl_below].
      assert (cl X = acl (abs c) (cl X)) as ->.
      { apply Hdone; [by apply (cl_sub _ _ Hcl)|]. apply sound_model; [done|by apply (cl_sub _ _ Hcl)|by apply (cl_idem _ _ Hcl)]. }
      apply acl_mono. by apply (cl_ext _ _ Hcl). }
    split; [done|]. split; [done|]. intros P HP Hm. split.
    - intros HP'. split; [|by apply h5]. apply elem_of_list_fmap in HP' as (i & -> & Hi). destruct h4 as [h4 _]. by apply (h4 i Hi).
    - intros [Hne Hps]. destruct (decide (P ∈ map fst Lc)) as [|Hn]; [done|]. exfalso. apply Hne. rewrite <-Hacl by done.
      apply Hdone; [done|]. apply model_of_app. split; [|done]. intros i Hi Hsub. destruct h4 as [h4 _].
      destruct (h4 i Hi) as (_ & -> & _). assert (i.1 ∈ map fst Lc) as Hi1 by by apply elem_of_list_fmap_1.
      apply Hps; [done|]. split; [done|]. intros Hs. apply Hn. by replace P with i.1 by (apply (anti_symm (⊆)); done).
  Qed.

  (** ** Computing the questions *)
  (** A context without objects only admits these two backgrounds. *)
  Definition computable (c : context) (L : list fimp) : Prop := objs c ≠ [] ∨ L = [] ∨ is_closure L ∅ M.
  Lemma comp_post ords c L : good c → atts c = ms → (∀ i, i ∈ L → i.1 ⊆ M ∧ i.2 ⊆ M) → no_repeats L → lists_sets ords → computable c L →
    ∃ R, compute_dg_basis c ords (Some L) (λ _, true) = Ok R ∧ post ms (acl (abs c)) L R.
  Proof.
    intros Hg Ha HL Hn Ho Hc. assert (comparable (atts c) = true) as Hcmp' by by rewrite Ha.
    assert (within (abs c) L) as HL' by (intros i Hi; rewrite (fM_ms c Ha); by apply HL).
    assert (objs c ≠ [] ∨ L = [] ∨ is_closure L ∅ M) as [H|[H|H]] by exact Hc.
    { rewrite <-Ha. apply (dg_lin_post c Hg Hcmp' L HL'); [by left|done|done]. }
    { rewrite <-Ha. apply (dg_lin_post c Hg Hcmp' L HL'); [by right|done|done]. }
    exists []. split.
    - unfold compute_dg_basis, generalized_compute_dg_basis.
      destruct (lin_close_ok c Hcmp' L (L0_hashable c Hcmp' L HL') ords Ho [] ∅) as (C & HC & HCc).
      { apply NoDup_pairwise. intros p q i j Hi Hj Hpq E%imp_eqb_ikey. rewrite (Hn p q i j) in E; done. }
      { split; [by intros ? ?%elem_of_nil|constructor]. }
      cbn [app] in HC, HCc. rewrite HC. cbn [mbind res_bind]. rewrite (is_closure_unique _ _ _ _ HCc H), Ha.
      destruct (2 ^ length ms); cbn [dg_loop]; rewrite (size_M ms Hms), Nat.ltb_irrefl; done.
    - split; [split; [by intros ? ?%elem_of_nil|constructor]|]. intros P HP Hm. split; [by intros ?%elem_of_nil|].
      intros (Hne & _). exfalso. apply Hne. assert (P = M) as ->.
      { apply (anti_symm (⊆)); [done|]. destruct H as (_ & _ & H). apply H; [set_solver|done]. }
      apply (anti_symm (⊆)); [apply acl_ext; by rewrite (fM_ms c Ha)|]. rewrite <-(fM_ms c Ha) at 2. apply acl_sub.
  Qed.
  Lemma acl_no_objects c X : atts c = ms → X ⊆ M → objs c = [] → acl (abs c) X = M.
  Proof.
    intros Ha HX He. apply set_eq. intros m. rewrite elem_of_acl by done. rewrite He. split; [tauto|]. intros Hm. split; [done|].
    by intros g ?%elem_of_nil.
  Qed.
  Lemma comp_confirm c Lc P C : atts c = ms → computable c (L0 ++ Lc) → first_question c Lc P C → computable c (L0 ++ Lc ++ [(P, C)]).
  Proof.
    intros Ha Hc Hq. destruct (decide (objs c = [])) as [He|]; [|by left]. destruct Hc as [H|[H|H]]; [done| |].
    - apply app_nil in H as [E0 E1]. right. right. destruct Hq as [q1 q2 q3 q4 q5]. rewrite E0, E1 in *. cbn in *. rewrite acl_no_objects in q3 by done. subst C.
      assert (P = ∅) as ->.
      { destruct (q5 ∅) as [H|H]; [set_solver|by intros ? ?%elem_of_nil| |by rewrite H|].
        - rewrite acl_no_objects by (done || set_solver). intros E. apply q4. apply (anti_symm (⊆)); [done|]. rewrite <-E. set_solver.
        - destruct H as (k & m & _ & H & _). set_solver. }
      split; [set_solver|]. split; [by intros i ->%elem_of_list_singleton _|]. intros Y _ HY. apply (HY (∅, M)); [by left|]. set_solver.
    - exfalso. destruct Hq as [q1 q2 q3 q4 q5]. apply q4. rewrite q3. rewrite acl_no_objects by done. apply (anti_symm (⊆)); [done|].
      destruct H as (_ & _ & H). apply H; [set_solver|]. by apply model_swap.
  Qed.
  Lemma over_all c Lc : einv c Lc → ∀ i, i ∈ L0 ++ Lc → i.1 ⊆ M ∧ i.2 ⊆ M.
  Proof.
    intros He i [Hi|Hi]%elem_of_app; [by apply HL0|]. destruct (e_basis _ _ He) as [Hb _]. destruct (Hb i Hi) as (H1 & H2 & _).
    split; [done|]. unfold fimp in *. rewrite H2. by apply (cl_sub _ _ Hcl).
  Qed.

  (** ** The loop over a database *)
  Record dstate (d : edb) (Lc : list fimp) : Prop := DSt {
    s_inv : einv (dcxt d) Lc;
    s_imps : dimps d = L0 ++ Lc;
    s_jam : djam d = false;
    s_cond : dcond d = (λ _, true);
    s_comp : computable (dcxt d) (dimps d);
    s_open : post ms (acl (abs (dcxt d))) (dimps d) (dopen d) }.
  Lemma dstate_question d Lc P C R : dstate d Lc → dopen d = (P, C) :: R → first_question (dcxt d) Lc P C.
  Proof.
    intros [He Ei _ _ _ Hp] E. rewrite Ei, E in Hp. exact (head_question _ _ _ (e_atts _ _ He) Hp).
  Qed.
  Lemma refresh_state ords d Lc : lists_sets ords → einv (dcxt d) Lc → dimps d = L0 ++ Lc → djam d = false → dcond d = (λ _, true) →
    computable (dcxt d) (dimps d) →
    ∃ R, db_refresh ords d = (EDB (dcxt d) (dimps d) (dcond d) R (djam d), Ok tt) ∧ dstate (EDB (dcxt d) (dimps d) (dcond d) R (djam d)) Lc.
  Proof.
    intros Ho He Ei Hj Hc Hco. destruct (comp_post ords (dcxt d) (dimps d)) as (R & E & HR); try done; try apply He.
    { rewrite Ei. by eapply over_all. }
    { rewrite Ei. apply He. }
    exists R. unfold db_refresh. rewrite Hc, E. rewrite <-Hc. split; [done|]. by constructor.
  Qed.
  Lemma confirm_step ords d Lc P C R : (∀ n, lists_sets (ords n)) → dstate d Lc → dopen d = (P, C) :: R → C ⊆ cl P →
    ∃ d', ae_confirm ords [(P, C)] d = (d', Ok tt) ∧ dstate d' (Lc ++ [(P, C)]) ∧ dcxt d' = dcxt d ∧
      openness (dcxt d') (dimps d') < openness (dcxt d) (dimps d).
  Proof.
    intros Ho Hs E HC. pose proof (dstate_question d Lc P C R Hs E) as Hq. destruct Hs as [He Ei Hj Hc Hco Hp].
    destruct (confirm_einv _ _ _ _ He Hq HC) as [He' Hlt].
    destruct (refresh_state (ords 0) (with_imps d (dimps d ++ [(P, C)])) (Lc ++ [(P, C)])) as (R' & E' & Hs'); try done.
    { cbn. by rewrite Ei, app_assoc. }
    { cbn. rewrite Ei in *. rewrite <-app_assoc. apply comp_confirm; try done. apply He. }
    eexists. split; [|split; [exact Hs'|]; split; [done|]].
    - unfold ae_confirm. cbn [map dsteps]. unfold dstep. rewrite Hj. unfold decorated. cbn [fst snd]. unfold fimp in *. by rewrite E'.
    - cbn. rewrite Ei, <-app_assoc. done.
  Qed.
  Lemma extends_trans c o X c1 es Xs c' : extends c [o] [X] c1 → extends c1 es Xs c' → o ∉ objs c → extends c (o :: es) (X :: Xs) c'.
  Proof.
    intros [x1 x2 x3 x4 x5] [y1 y2 y3 y4 y5] Hn. split; try done.
    - by rewrite y2, x2, <-app_assoc.
    - intros g Hg. rewrite y4 by (rewrite x2; apply elem_of_app; by left). by apply x4.
    - intros [|n] o' X' E1 E2; cbn in *; [|by apply (y5 n)]. injection E1 as <-. injection E2 as <-.
      rewrite y4 by (rewrite x2; apply elem_of_app; right; left). by apply (x5 0).
  Qed.
  Lemma add_step ords es Xs d Lc : (∀ n, lists_sets (ords n)) → dstate d Lc → NoDup es → (∀ o, o ∈ es → o ∉ objs (dcxt d)) →
    length es = length Xs → (∀ X, X ∈ Xs → cl (X ∩ M) = X ∩ M) →
    ∃ d', ae_add ords es Xs d = (d', Ok tt) ∧ dstate d' Lc ∧ extends (dcxt d) es Xs (dcxt d').
  Proof.
    revert ords Xs d. induction es as [|o es IH]; intros ords Xs d Ho Hs Hnd Hfr Hl HXs.
    { destruct Xs; [|done]. exists d. split; [done|]. split; [done|]. destruct Hs as [He _ _ _ _ _]. split; [apply He|by rewrite app_nil_r|apply He|done|].
      intros n o X H. by rewrite lookup_nil in H. }
    destruct Xs as [|X Xs]; [done|]. apply NoDup_cons in Hnd as [Ho' Hnd]. cbn [ae_add].
    destruct Hs as [He Ei Hj Hc Hco Hp].
    assert (o ∉ objs (dcxt d)) as Hn by (apply Hfr; left).
    destruct (new_rows (dcxt d) X o) as (c' & E & Hg' & Hob & Ha' & Hr1 & Hr2); [apply He|apply He|done|].
    assert (extends (dcxt d) [o] [X] c') as Hx.
    { split; try done. intros [|n] o' X' E1 E2; [|by destruct n]. injection E1 as <-. injection E2 as <-. done. }
    destruct (extends_einv _ Lc _ _ _ He Hx eq_refl) as [He' _].
    { intros Y ->%elem_of_list_singleton. apply HXs. left. }
    assert (∃ d1, dstep (ords 0) (DAddExample o X) d = (d1, Ok tt) ∧ dstate d1 Lc ∧ dcxt d1 = c') as (d1 & -> & Hs1 & Ec).
    { unfold dstep. rewrite Hj. unfold db_add_example, guarded.
      assert (check_intent (dimps d) X = Ok tt) as ->.
      { apply check_intent_ok. intros j Hij. rewrite Ei in Hij. apply (respects_inter X M j); [by eapply over_all|].
        apply (sound_model Lc); [apply He|set_solver|apply HXs; left|]. rewrite elem_of_app in *. tauto. }
      rewrite bool_decide_false by done. unfold on_cxt. rewrite E. cbn [decorated fst snd].
      destruct (refresh_state (ords 0) (with_cxt d c') Lc) as (R & -> & Hd'); try done.
      { left. cbn. rewrite Hob. by destruct (objs (dcxt d)). }
      eexists. split; [done|]. split; [done|]. done. }
    destruct (IH (λ n, ords (S n)) Xs d1) as (d' & -> & Hs' & Hx').
    - intros n. apply Ho.
    - done.
    - done.
    - intros o1 Ho1. rewrite Ec, Hob. rewrite not_elem_of_app, elem_of_list_singleton. split; [apply Hfr; by right|]. congruence.
    - cbn in Hl. lia.
    - intros Y HY. apply HXs. by right.
    - exists d'. split; [done|]. split; [done|]. rewrite Ec in Hx'. by apply (extends_trans _ _ _ c').
  Qed.
  Lemma reject_step ords es Xs d Lc P C R : (∀ n, lists_sets (ords n)) → dstate d Lc → dopen d = (P, C) :: R →
    answers M cl (objs (dcxt d)) (P, C) (Counter es Xs) →
    ∃ d', ae_reject ords (P, C) es Xs d = (d', Ok tt) ∧ dstate d' Lc ∧ extends (dcxt d) es Xs (dcxt d') ∧
      openness (dcxt d') (dimps d') < openness (dcxt d) (dimps d).
  Proof.
    intros Ho Hs E (Hnd & Hfr & Hl & HXs & X & Xs' & -> & Hr). pose proof (dstate_question d Lc P C R Hs E) as Hq.
    destruct (add_step ords es (X :: Xs') d Lc Ho Hs Hnd Hfr Hl HXs) as (d' & E' & Hs' & Hx).
    exists d'. unfold ae_reject. destruct (is_respected (P, C) X) eqn:Er; [by apply is_respected_spec in Er|].
    split; [done|]. split; [done|]. split; [done|]. destruct es as [|o es]; [done|].
    rewrite (s_imps _ _ Hs), (s_imps _ _ Hs'). eapply refute_openness; [apply Hs|done..].
  Qed.

  Section loop.
    Context (expert : nat → edb → fimp → res answer) (ords : nat → nat → gset name → list fimp → nat → gset name → list name).
    Context (Hords : ∀ k n, lists_sets (ords k n)).
    Context (J : edb → Prop).
    Context (Hex : ∀ k d Lc P C R, dstate d Lc → J d → dopen d = (P, C) :: R →
      ∃ a, expert k d (P, C) = Ok a ∧ answers M cl (objs (dcxt d)) (P, C) a ∧
        match a with
        | Valid => ∀ d', dcxt d' = dcxt d → J d'
        | Counter es Xs => ∀ d', extends (dcxt d) es Xs (dcxt d') → J d'
        end).
    Lemma explore_loop n k d Lc : dstate d Lc → J d → openness (dcxt d) (dimps d) ≤ n →
      ∃ d' Lc', (∀ fuel, n ≤ fuel → explore fuel k expert ords d = (d', Ok tt)) ∧ dopen d' = [] ∧ dstate d' Lc' ∧
        (∃ es, objs (dcxt d') = objs (dcxt d) ++ es ∧ ∀ g, g ∈ objs (dcxt d) → up (abs (dcxt d')) {[g]} = up (abs (dcxt d)) {[g]}).
    Proof.
      revert k d Lc. induction n as [|n IH]; intros k d Lc Hs HJ Hn.
      - destruct (dopen d) as [|[P C] R] eqn:E.
        + exists d, Lc. split; [intros fuel _; destruct fuel; cbn; by rewrite E|]. split; [done|]. split; [done|]. exists []. by rewrite app_nil_r.
        + exfalso. destruct (Hex k d Lc P C R Hs HJ E) as (a & _ & Ha & _). destruct a as [|es Xs].
          * destruct (confirm_step (ords k) d Lc P C R (Hords k) Hs E Ha) as (d' & _ & _ & _ & Hlt). lia.
          * destruct (reject_step (ords k) es Xs d Lc P C R (Hords k) Hs E Ha) as (d' & _ & _ & _ & Hlt). lia.
      - destruct (dopen d) as [|[P C] R] eqn:E.
        + exists d, Lc. split; [intros fuel _; destruct fuel; cbn; by rewrite E|]. split; [done|]. split; [done|]. exists []. by rewrite app_nil_r.
        + destruct (Hex k d Lc P C R Hs HJ E) as (a & Ea & Ha & HJ'). destruct a as [|es Xs].
          * destruct (confirm_step (ords k) d Lc P C R (Hords k) Hs E Ha) as (d1 & E1 & Hs1 & Ec & Hlt).
            destruct (IH (S k) d1 _ Hs1) as (d' & Lc' & E' & Ho' & Hs' & es & Hob & Hup); [by apply HJ'|lia|].
            exists d', Lc'. split; [|split; [done|]; split; [done|]; exists es; by rewrite Ec in *].
            intros [|fuel] Hf; [lia|]. cbn [explore]. rewrite E, Ea. unfold fimp in *. rewrite E1. apply E'. lia.
          * destruct (reject_step (ords k) es Xs d Lc P C R (Hords k) Hs E Ha) as (d1 & E1 & Hs1 & Hx & Hlt).
            destruct (IH (S k) d1 _ Hs1) as (d' & Lc' & E' & Ho' & Hs' & es' & Hob & Hup); [by apply HJ'|lia|].
            exists d', Lc'. split; [|split; [done|]; split; [done|]; exists (es ++ es')].
            -- intros [|fuel] Hf; [lia|]. cbn [explore]. rewrite E, Ea. unfold fimp in *. rewrite E1. apply E'. lia.
            -- rewrite Hob, (x_objs _ _ _ _ Hx), app_assoc. split; [done|]. intros g Hg. rewrite Hup; [by apply Hx|].
               rewrite (x_objs _ _ _ _ Hx). apply elem_of_app. by left.
    Qed.
  End loop.

  (** ** The loop over a session *)
  Record xstate (s : nat) (x : xpl) (Lc : list fimp) : Prop := XSt {
    t_inv : einv (xcxt x) Lc;
    t_cur : xcur x = Some s;
    t_base : xbases x !! s = Some (L0 ++ Lc);
    t_comp : computable (xcxt x) (L0 ++ Lc) }.
  Lemma session_questions ords s x Lc : lists_sets ords → xstate s x Lc →
    ∃ R, x_candidates ords s x = Ok R ∧ post ms (acl (abs (xcxt x))) (L0 ++ Lc) R.
  Proof.
    intros Ho [He Hc Hb Hco]. unfold x_candidates. rewrite Hb. apply comp_post; try done; try apply He. by eapply over_all.
  Qed.
  Lemma accept_step s x Lc P C : xstate s x Lc → first_question (xcxt x) Lc P C → C ⊆ cl P →
    ∃ x', xstep (XAccept s (P, C)) x = (x', Ok tt) ∧ xstate s x' (Lc ++ [(P, C)]) ∧ xcxt x' = xcxt x ∧
      (∀ t, t ≠ s → xbases x' !! t = xbases x !! t) ∧
      openness (xcxt x') (L0 ++ Lc ++ [(P, C)]) < openness (xcxt x) (L0 ++ Lc).
  Proof.
    intros [He Hc Hb Hco] Hq HC. destruct (confirm_einv _ _ _ _ He Hq HC) as [He' Hlt]. cbn [xstep]. rewrite Hb. eexists. split; [done|].
    split; [|split; [done|]; split; [intros t Ht; cbn; by rewrite list_lookup_insert_ne|done]]. split; cbn; try done.
    - rewrite list_lookup_insert by by eapply lookup_lt_Some. by rewrite app_assoc.
    - apply comp_confirm; try done. apply He.
  Qed.
  Lemma decline_step s x Lc P C o X : xstate s x Lc → first_question (xcxt x) Lc P C → o ∉ objs (xcxt x) → cl (X ∩ M) = X ∩ M →
    ¬ respects X (P, C) →
    ∃ x', xstep (XReject s (P, C) o X) x = (x', Ok tt) ∧ xstate s x' Lc ∧ extends (xcxt x) [o] [X] (xcxt x') ∧
      xbases x' = xbases x ∧ openness (xcxt x') (L0 ++ Lc) < openness (xcxt x) (L0 ++ Lc).
  Proof.
    intros [He Hc Hb Hco] Hq Hn HX Hr. destruct (new_rows (xcxt x) X o) as (c' & E & Hg' & Hob & Ha' & Hr1 & Hr2); [apply He|apply He|done|].
    assert (extends (xcxt x) [o] [X] c') as Hx.
    { split; try done. intros [|n] o' X' E1 E2; [|by destruct n]. injection E1 as <-. injection E2 as <-. done. }
    destruct (extends_einv _ Lc _ _ _ He Hx eq_refl) as [He' _]; [by intros Y ->%elem_of_list_singleton|].
    cbn [xstep]. rewrite Hb. destruct (is_respected (P, C) X) eqn:Er; [by apply is_respected_spec in Er|].
    unfold x_add_object. rewrite Hc. cbn [mbind option_bind]. rewrite Hb.
    assert (forallb (λ i, is_respected i X) (L0 ++ Lc) = true) as ->.
    { apply model_dec. intros j Hij. apply (respects_inter X M j); [by eapply over_all|].
      apply (sound_model Lc); [apply He|set_solver|done|]. rewrite elem_of_app in *. tauto. }
    rewrite E. eexists. split; [done|]. split; [|split; [done|]; split; [done|by eapply refute_openness]].
    split; cbn; try done. left. rewrite Hob. by destruct (objs (xcxt x)).
  Qed.
  Section session.
    Context (person : nat → xpl → fimp → res (option name)) (intent : name → gset name).
    Context (ords : nat → nat → gset name → list fimp → nat → gset name → list name) (Hords : ∀ k n, lists_sets (ords k n)).
    Context (Hp : truthful_person M cl intent person).
    Lemma x_explore_loop n k s x Lc : xstate s x Lc → openness (xcxt x) (L0 ++ Lc) ≤ n →
      ∃ x' Lc', (∀ fuel, n ≤ fuel → x_explore fuel k person intent ords s x = (x', Ok tt)) ∧ xstate s x' Lc' ∧
        post ms (acl (abs (xcxt x'))) (L0 ++ Lc') [] ∧ (∀ t, t ≠ s → xbases x' !! t = xbases x !! t) ∧
        (∃ es, objs (xcxt x') = objs (xcxt x) ++ es ∧ ∀ g, g ∈ objs (xcxt x) → up (abs (xcxt x')) {[g]} = up (abs (xcxt x)) {[g]}).
    Proof.
      revert k x Lc. induction n as [n IH] using lt_wf_ind; intros k x Lc Hs Hn.
      destruct (session_questions (ords k 0) s x Lc (Hords k 0) Hs) as (R & E0 & HR).
      destruct (session_questions (ords k 1) s x Lc (Hords k 1) Hs) as (R' & E1 & HR').
      pose proof (post_unique _ _ _ _ _ HR HR') as <-.
      destruct R as [|[P C] R].
      { exists x, Lc. split; [intros [|fuel] _; cbn; by rewrite E0|]. split; [done|]. split; [done|]. split; [done|].
        exists []. by rewrite app_nil_r. }
      pose proof (head_question _ _ _ (e_atts _ _ (t_inv _ _ _ Hs)) HR) as Hq.
      destruct (Hp k x (P, C)) as (a & Ea & Ha); [apply Hq|rewrite <-(fM_ms _ (e_atts _ _ (t_inv _ _ _ Hs))), (q_cl _ _ _ _ Hq); apply acl_sub|].
      destruct a as [o|].
      - destruct Ha as (h1 & h2 & h3). destruct (decline_step s x Lc P C o (intent o) Hs Hq h1 h2 h3) as (x1 & Es & Hs1 & Hx & Hb & Hlt).
        destruct (IH (n - 1)) with (k := S k) (x := x1) (Lc := Lc) as (x' & Lc' & E' & Hs' & HR2 & Hb' & es & Hob & Hup); [lia|done|lia|].
        exists x', Lc'. split; [|split; [done|]; split; [done|]; split; [by rewrite Hb in Hb'|]; exists ([o] ++ es)].
        + intros [|fuel] Hf; [lia|]. cbn [x_explore]. rewrite E0, E1. cbn [mbind res_bind get_or lookup list_lookup]. unfold fimp in *.
          rewrite Ea. cbn [mbind res_bind]. rewrite Es. apply E'. lia.
        + rewrite Hob, (x_objs _ _ _ _ Hx), <-app_assoc. split; [done|]. intros g Hg. rewrite Hup; [by apply Hx|].
          rewrite (x_objs _ _ _ _ Hx). apply elem_of_app. by left.
      - destruct (accept_step s x Lc P C Hs Hq Ha) as (x1 & Es & Hs1 & Ec & Hb & Hlt).
        destruct (IH (n - 1)) with (k := S k) (x := x1) (Lc := Lc ++ [(P, C)]) as (x' & Lc' & E' & Hs' & HR2 & Hb' & es & Hob & Hup); [lia|done|lia|].
        exists x', Lc'. split; [|split; [done|]; split; [done|]; split; [intros t Ht; rewrite Hb' by done; by apply Hb|]; exists es].
        + intros [|fuel] Hf; [lia|]. cbn [x_explore]. rewrite E0, E1. cbn [mbind res_bind get_or lookup list_lookup]. unfold fimp in *.
          rewrite Ea. cbn [mbind res_bind]. rewrite Es. apply E'. lia.
        + by rewrite Ec in *.
    Qed.
  End session.

  (** ** The end of both loops *)
  Lemma post_swap cl1 cl2 L R : (∀ X, X ⊆ M → cl2 X = cl1 X) → post ms cl1 L R → post ms cl2 L R.
  Proof.
    intros E [[Hb Hs] Hp]. split.
    - split; [|done]. intros i Hi. destruct (Hb i Hi) as (H1 & H2). rewrite E by done. done.
    - intros P HP Hm. rewrite (Hp P HP Hm). unfold pseudo_at. rewrite E by done.
      assert (∀ Q, Q ∈ map fst R → cl2 Q = cl1 Q) as EQ.
      { intros Q ([Q' C] & -> & HQ)%elem_of_list_fmap. apply E. by destruct (Hb _ HQ). }
      split; intros [h1 h2]; (split; [done|]); intros Q HQ HQP; [rewrite EQ by done|rewrite <-EQ by done]; by apply h2.
  Qed.
  Lemma finished_exact c Lc : einv c Lc → post ms (acl (abs c)) (L0 ++ Lc) [] →
    (∀ X, X ⊆ M → acl (abs c) X = cl X) ∧ (∀ i, i ∈ Lc → i.2 = cl i.1) ∧ pseudo_family M cl L0 (λ P, P ∈ map fst Lc) ∧
    StronglySorted (lectic ms) (map fst Lc) ∧ post ms (acl (abs c)) L0 Lc.
  Proof.
    intros He [_ Hp]. destruct (done_einv c Lc He) as [H1 H2].
    { intros X HX Hm. destruct (decide (X = acl (abs c) X)) as [|Hne]; [done|]. exfalso.
      apply model_swap in Hm. apply (not_elem_of_nil (A := gset name) X). apply (Hp X HX Hm). split; [done|]. by intros Q ?%elem_of_nil. }
    split; [done|]. split; [|split; [by apply post_family|]; split; [apply H2|by apply (post_swap cl)]].
    intros i Hi. destruct (e_basis _ _ He) as [Hb _]. by destruct (Hb i Hi) as (_ & ? & _).
  Qed.
  Lemma start_einv c : good c → atts c = ms → rows_closed c → no_repeats L0 → einv c [].
  Proof.
    intros Hg Ha Hr Hn. split; try done; cbn; try by intros ? ?%elem_of_nil.
    - split; [by intros ? ?%elem_of_nil|constructor].
    - intros X _ _ _ Q HQ. by apply elem_of_nil in HQ.
    - by rewrite app_nil_r.
  Qed.
End explore.
