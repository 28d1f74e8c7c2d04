(** * The attribute-incremental algorithm: the result *)
From Verif Require Import Py PyFacts Spec SpecFacts DgSpec ContextModel ContextSpec ContextOps ContextFacts ContextInit ContextFinal
  ClosureModel ClosureFacts NorrisFacts DgCxt DgCons AiModel AiFacts AiRound.

Lemma elem_of_kclosure_loop s exs a : ∀ cl, s ⊆ cl →
  a ∈ kclosure_loop s cl exs ↔ a ∈ cl ∧ ∀ o, o ∈ exs → s ⊆ o → a ∈ o.
Proof.
  induction exs as [|o exs IH]; intros cl Hs; cbn [kclosure_loop].
  - split; [|tauto]. intros Ha. split; [done|]. by intros o Ho%elem_of_nil.
  - case_bool_decide as E1.
    + subst. split; [|tauto]. intros Ha. split; [done|]. intros o' _ Ho. by apply Ho.
    + rewrite IH by (case_bool_decide; set_solver). setoid_rewrite elem_of_cons. case_bool_decide as E2.
      * rewrite elem_of_intersection. split.
        -- intros [[H1 H2] H3]. split; [done|]. intros o' [->|Ho'] Hso; [done|by apply H3].
        -- intros [H1 H2]. split; [split; [done|apply H2; by auto]|]. intros o' Ho'. apply H2. by right.
      * split.
        -- intros [H1 H2]. split; [done|]. intros o' [->|Ho'] Hso; [done|by apply H2].
        -- intros [H1 H2]. split; [done|]. intros o' Ho'. apply H2. by right.
Qed.

Section final.
  Context (c : context) (Hg : good c) (Hcmp : comparable (atts c) = true) (Hob : objs c ≠ []).
  Local Notation K := (abs c).
  Definition firsts (k : nat) : gset name := list_to_set (take k (atts c)).
  Lemma firsts_sub k : firsts k ⊆ fM K.
  Proof.
    intros a Ha. unfold firsts in Ha. apply elem_of_list_to_set in Ha. cbn. apply elem_of_list_to_set.
    apply elem_of_take in Ha as (j & Hj & _). by eapply elem_of_list_lookup_2.
  Qed.
  Lemma firsts_S k m : atts c !! k = Some m → firsts (S k) = firsts k ∪ {[m]}.
  Proof.
    intros H. unfold firsts. rewrite (take_S_r _ _ _ H), list_to_set_app_L. cbn. by rewrite (right_id_L ∅ (∪)).
  Qed.
  Lemma kclosure_spec k s : s ⊆ firsts k → kclosure s k c = Ok (kcl K (firsts k) s).
  Proof.
    intros Hs. unfold kclosure. rewrite (examples_eq c Hg). cbn [mbind res_bind]. f_equal. apply set_eq. intros a.
    rewrite elem_of_kclosure_loop by done. unfold kcl, acl. rewrite elem_of_intersection, elem_of_up.
    assert (∀ g X, g ∈ fG K → X ⊆ firsts k → X ⊆ up K {[g]} ↔ g ∈ down K X) as Hup.
    { intros g X HG HX. rewrite elem_of_down. split.
      - intros H. split; [done|]. intros m Hm. apply H, elem_of_up in Hm as [_ Hm]. apply Hm. by apply elem_of_singleton.
      - intros [_ H] m Hm. apply elem_of_up. split; [by apply (firsts_sub k), HX|]. intros g' ->%elem_of_singleton. by apply H. }
    split.
    - intros [Ha H]. split; [|done]. split; [by apply (firsts_sub k)|]. intros g Hgs. pose proof Hgs as [HG _]%elem_of_down.
      assert (a ∈ up K {[g]}) as Hu.
      { apply H; [|by apply Hup]. apply elem_of_list_fmap. exists g. split; [done|]. cbn in HG. by apply elem_of_list_to_set in HG. }
      apply elem_of_up in Hu as [_ Hu]. apply Hu. by apply elem_of_singleton.
    - intros [[Ha1 Ha2] Ha3]. split; [done|]. intros o Ho Hso. apply elem_of_list_fmap in Ho as (g & -> & Hgo).
      assert (g ∈ fG K) as HG. { cbn. by apply elem_of_list_to_set. }
      apply elem_of_up. split; [done|]. intros g' ->%elem_of_singleton. apply Ha2. by apply Hup.
  Qed.
  Context (srt : nat → list pre → list pre) (Hsrt : ∀ i l, srt i l ≡ₚ l).
  Lemma np_ne : np c ≠ [].
  Proof.
    intros H. apply Hob. pose proof (good_wf c Hg) as Hw. apply length_zero_iff_nil. rewrite <-(wf_rows c Hw).
    by rewrite H.
  Qed.
  Lemma round_step i m ps : atts c !! i = Some m → Inv K (firsts i) ps →
    ∃ r, update_preclosed (srt i) i c ps = Ok r ∧ r.2 ≡ₚ pimps r.1 ∧ Inv K (firsts (S i)) r.1 ∧
      (Can ps → (∀ l, stopo (map pset (srt i l))) → Can r.1).
  Proof.
    intros Hi HI. rewrite (firsts_S i m Hi).
    assert (firsts i ∪ {[m]} ⊆ fM K) as HM. { rewrite <-(firsts_S i m Hi). apply firsts_sub. }
    assert (m ∉ firsts i) as Hm.
    { unfold firsts. rewrite elem_of_list_to_set, elem_of_take. intros (j & Hj & Hlt).
      assert (j = i); [|lia]. eapply NoDup_lookup; [apply Hg|done|done]. }
    assert (∀ X, X ⊆ firsts i ∪ {[m]} → kclosure X (S i) c = Ok (kcl K (firsts i ∪ {[m]}) X)) as Hclo.
    { intros X HX. rewrite kclosure_spec; rewrite (firsts_S i m Hi); done. }
    assert (∀ j : fimp, j.1 ⊆ firsts i ∪ {[m]} → j.2 ⊆ firsts i ∪ {[m]} → hashable j = true) as Hh.
    { intros j H1 H2. apply (hashable_sub c Hcmp); by etrans. }
    destruct (round_J K _ m Hm HM _ Hclo ps HI) as (st & H1 & HJ).
    destruct (round_ok K _ m Hm HM Hh ps HI st HJ (srt i) (Hsrt i)) as (r & H2 & H3 & H4 & H5).
    unfold update_preclosed. unfold aname. rewrite Hi. cbn [get_or mbind res_bind].
    rewrite (get_attribute_extent_by_index_spec c Hg i m np_ne Hi). cbn [mbind res_bind].
    rewrite H1. cbn [mbind res_bind]. rewrite H2. cbn [mbind res_bind]. eexists. split; [done|]. by cbn [fst snd].
  Qed.
  Lemma canonical_loop_ok n : ∀ i ps basis, i + n = length (atts c) → basis ≡ₚ pimps ps → Inv K (firsts i) ps →
    ∃ R ps', canonical_loop srt c (seq i n) ps basis = Ok R ∧ R ≡ₚ pimps ps' ∧ Inv K (fM K) ps' ∧
      (Can ps → (∀ i l, stopo (map pset (srt i l))) → Can ps').
  Proof.
    induction n as [|n IH]; intros i ps basis Hn Hb HI; cbn [seq canonical_loop].
    - exists basis, ps. split; [done|]. split; [done|]. split; [|tauto]. unfold firsts in HI. rewrite take_ge in HI by lia. done.
    - destruct (lookup_lt_is_Some_2 (atts c) i) as (m & Hm); [lia|].
      destruct (round_step i m ps Hm HI) as ([ps1 b1] & H1 & H2 & H3 & H4). cbn [fst snd] in *. rewrite H1. cbn [mbind res_bind fst snd].
      destruct (IH (S i) ps1 b1) as (R & ps' & h1 & h2 & h3 & h4); [lia|done|done|].
      exists R, ps'. split; [done|]. split; [done|]. split; [done|]. intros Hc Hs. apply h4; [|done]. apply H4; [done|]. apply Hs.
  Qed.
  Lemma kcl_full X : kcl K (fM K) X = acl K X.
  Proof. unfold kcl. apply set_eq. intros a. rewrite elem_of_intersection. split; [tauto|]. intros H. split; [done|]. by apply elem_of_up in H as [? _]. Qed.
  Lemma canonical_ok : ∃ R, compute_canonical_basis srt c = Ok R ∧
    (∀ i, i ∈ R → i.1 ⊆ fM K ∧ i.2 = acl K i.1 ∧ i.1 ≠ i.2) ∧ NoDup (map fst R) ∧
    (∀ X, X ⊆ fM K → model_of R X → acl K X = X) ∧
    ((∀ i l, stopo (map pset (srt i l))) → quasi R).
  Proof.
    unfold compute_canonical_basis.
    destruct (canonical_loop_ok (length (atts c)) 0 [PConcept (list_to_set (objs c)) ∅] []) as (R & ps' & H1 & H2 & H3 & H4).
    - done.
    - done.
    - constructor.
      + intros A B. rewrite elem_of_list_singleton. unfold firsts. rewrite take_0. cbn [list_to_set]. split.
        * intros [= -> ->]. split; [done|]. split; [unfold kcl; set_solver|]. apply set_eq. intros g. rewrite elem_of_down.
          cbn. set_solver.
        * intros (HB & _ & ->). assert (B = ∅) as -> by set_solver. f_equal. apply set_eq. intros g. rewrite elem_of_down.
          cbn. set_solver.
      + intros A i Hi. apply elem_of_list_singleton in Hi. done.
      + intros X HX _. unfold kcl, firsts in *. rewrite take_0 in *. cbn [list_to_set] in *. set_solver.
      + constructor.
    - exists R. split; [done|]. split; [|split; [|split]].
      + intros i Hi. rewrite H2 in Hi. apply elem_of_pimps in Hi as (A & Hi). apply (i_imp _ _ _ H3) in Hi as [(e1 & e2 & e3) _].
        rewrite kcl_full in e2. done.
      + rewrite H2. apply H3.
      + intros X HX HXm. rewrite <-kcl_full. apply (i_complete _ _ _ H3 X HX). by rewrite <-(model_perm _ _ X H2).
      + intros Hs. assert (Can ps') as [_ Hq].
        { apply H4; [|done]. split; [|by intros ?? ?%elem_of_nil]. intros a b X Y Ha Hb Hab.
          apply list_lookup_singleton_Some in Ha as [-> _], Hb as [-> _]. lia. }
        intros i j. rewrite H2. apply Hq.
  Qed.
End final.

(** A sound, complete list of implications with full conclusions, in which no
    premise misses the conclusion of a smaller one, has the pseudo-intents as premises. *)
Lemma quasi_family M cl (R : list fimp) : closure_op M cl →
  (∀ i, i ∈ R → i.1 ⊆ M ∧ i.2 = cl i.1 ∧ i.1 ≠ i.2) → (∀ X, X ⊆ M → model_of R X → cl X = X) → quasi R →
  pseudo_family M cl [] (λ P, P ∈ map fst R).
Proof.
  intros Hc He Hcomp Hq P. split.
  - intros HP. apply elem_of_list_fmap in HP as (i & -> & Hi). destruct (He i Hi) as (e1 & e2 & e3).
    split; [done|]. split; [by intros j Hj%elem_of_nil|]. split; [by rewrite <-e2|].
    intros Q HQ HQi. apply elem_of_list_fmap in HQ as (j & -> & Hj). destruct (He j Hj) as (_ & <- & _). by apply (Hq i j).
  - intros (HP & _ & Hne & H). destruct (decide (P ∈ map fst R)) as [|Hn]; [done|exfalso]. apply Hne. symmetry. apply Hcomp; [done|].
    intros j Hj Hs. destruct (He j Hj) as (_ & -> & _). assert (j.1 ∈ map fst R) as Hj' by (apply elem_of_list_fmap; by exists j).
    apply H; [done|]. split; [done|]. intros Hs'. apply Hn. assert (P = j.1) as -> by by apply (anti_symm (⊆)). done.
Qed.

Lemma canonical_entails K R : (∀ i, i ∈ R → i.1 ⊆ fM K ∧ i.2 = acl K i.1 ∧ i.1 ≠ i.2) →
  (∀ X, X ⊆ fM K → model_of R X → acl K X = X) → ∀ i, i.1 ⊆ fM K → i.2 ⊆ fM K → holds K i → entails R i.
Proof.
  intros He Hc [P C] HP HC Hh X HX HPX. cbn in *. apply acl_holds in Hh; [|done|done].
  set (Y := X ∩ fM K). assert (acl K Y = Y) as HY.
  { apply Hc; [unfold Y; set_solver|]. intros j Hj HjY. destruct (He j Hj) as (e1 & e2 & _).
    assert (j.2 ⊆ X) as H1. { apply (HX j Hj). unfold Y in HjY. set_solver. }
    assert (j.2 ⊆ fM K) as H2. { rewrite e2. apply acl_sub. } unfold Y. set_solver. }
  assert (P ⊆ Y) as HPY by (unfold Y; set_solver).
  pose proof (acl_mono K P Y HPY) as Hm. rewrite HY in Hm. unfold Y in Hm. set_solver.
Qed.
Lemma exact_perm K (R R' : list fimp) : NoDup (map fst R) → NoDup (map fst R') →
  (∀ i, i ∈ R → i.2 = acl K i.1) → (∀ i, i ∈ R' → i.2 = acl K i.1) → (∀ P, P ∈ map fst R ↔ P ∈ map fst R') → R ≡ₚ R'.
Proof.
  intros N N' H H' E. apply NoDup_Permutation; [by apply NoDup_fmap_1 in N|by apply NoDup_fmap_1 in N'|]. intros [P C].
  assert (∀ R : list fimp, (∀ i, i ∈ R → i.2 = acl K i.1) → (P, C) ∈ R ↔ P ∈ map fst R ∧ C = acl K P) as A.
  { clear. intros R H. split.
    - intros Hi. split; [apply elem_of_list_fmap; by exists (P, C)|]. apply (H _ Hi).
    - intros [Hi ->]. apply elem_of_list_fmap in Hi as ([P' C'] & -> & Hi). pose proof (H _ Hi) as Hc. cbn in *. by rewrite <-Hc. }
  rewrite (A R H), (A R' H'), E. done.
Qed.
(** [short_sort] only changes the order. *)
Section sort.
  Context {A : Type} (lt : A → A → bool).
  Lemma run_up_app l : ∀ x, (run_up lt x l).1 ++ (run_up lt x l).2 = x :: l.
  Proof. induction l as [|y l IH]; intros x; [done|]. cbn. destruct (lt y x); [done|]. cbn. by rewrite IH. Qed.
  Lemma run_down_app l : ∀ x, (run_down lt x l).1 ++ (run_down lt x l).2 = x :: l.
  Proof. induction l as [|y l IH]; intros x; [done|]. cbn. destruct (lt y x); [|done]. cbn. by rewrite IH. Qed.
  Lemma short_sort_perm l : short_sort lt l ≡ₚ l.
  Proof.
    unfold short_sort. assert ((first_run lt l).1 ++ (first_run lt l).2 ≡ₚ l) as H.
    { destruct l as [|x [|y l]]; [done|done|]. unfold first_run. destruct (lt y x).
      - change (reverse (run_down lt x (y :: l)).1 ++ (run_down lt x (y :: l)).2 ≡ₚ x :: y :: l).
        rewrite reverse_Permutation. by rewrite run_down_app.
      - by rewrite run_up_app. }
    trans ((first_run lt l).1 ++ (first_run lt l).2); [|exact H]. generalize (first_run lt l).1 as s. generalize (first_run lt l).2 as k. clear H.
    induction k as [|x k IH]; intros s; cbn [foldl]; [by rewrite app_nil_r|]. rewrite IH. unfold bin_insert.
    set (p := bin_pos _ _ _ _ _ _). rewrite <-(take_drop p s) at 3. rewrite <-!app_assoc. apply Permutation_app_head.
    cbn. rewrite Permutation_middle. done.
  Qed.
End sort.
Lemma canonical_no_objects ms srt c : mk_context [] None [] ms = Ok c → ms ≠ [] → compute_canonical_basis srt c = Err IndexError.
Proof.
  intros Hc Hms. pose proof Hc as (_ & _ & Ho & Ha & Hn & _)%mk_context_Ok.
  assert (npz c = None) as Hz. { rewrite mk_context_spec in Hc. case_decide; [|done]. by injection Hc as <-. }
  unfold compute_canonical_basis. assert (length (atts c) = length ms) as Hl by by rewrite Ha, uniquify_length.
  destruct (atts c) as [|a ats] eqn:Ea; [destruct ms; [done|discriminate]|]. cbn [length seq canonical_loop].
  unfold update_preclosed, aname. rewrite Ea. cbn [lookup list_lookup get_or mbind res_bind].
  unfold get_attribute_extent_by_index, np_col. by rewrite Hn, Hz.
Qed.
