(** * Facts about the Duquenne-Guigues basis algorithm *)
From Verif Require Import Py Spec PyFacts SpecFacts DgSpec ContextModel ClosureModel ClosureFacts DgModel.

(** ** Lectic order *)
Section lectic.
  Context (ms : list name).
  Lemma agree_refl j P : agree ms j P P.
  Proof. by intros k x _ _. Qed.
  Lemma agree_sym j P Q : agree ms j P Q → agree ms j Q P.
  Proof. intros H k x Hk Hx. symmetry. by eapply H. Qed.
  Lemma agree_trans j P Q R : agree ms j P Q → agree ms j Q R → agree ms j P R.
  Proof. intros H1 H2 k x Hk Hx. by rewrite (H1 k x Hk Hx), (H2 k x Hk Hx). Qed.
  Lemma agree_le j k P Q : j ≤ k → agree ms k P Q → agree ms j P Q.
  Proof. intros Hjk H l x Hl. apply H. lia. Qed.
  Lemma agree_S j m P Q : ms !! j = Some m → agree ms (S j) P Q ↔ agree ms j P Q ∧ (m ∈ P ↔ m ∈ Q).
  Proof.
    intros Hm. split.
    - intros H. split; [eapply agree_le; [|done]; lia|]. apply (H j); [lia|done].
    - intros [H1 H2] k x Hk Hx. destruct (decide (k = j)) as [->|].
      + assert (x = m) as -> by congruence. done.
      + apply (H1 k); [lia|done].
  Qed.

  Lemma lectic_irrefl P : ¬ lectic ms P P.
  Proof. intros (j & m & _ & H1 & H2 & _). done. Qed.
  Lemma lectic_sub P Q : P ⊆ Q → ¬ lectic ms Q P.
  Proof. intros H (j & m & _ & H1 & H2 & _). apply H2. by apply H. Qed.
  Lemma lectic_trans P Q R : lectic ms P Q → lectic ms Q R → lectic ms P R.
  Proof.
    intros (j & m & Hj & H1 & H2 & H3) (k & l & Hk & H4 & H5 & H6).
    destruct (decide (j < k)).
    - exists j, m. split; [done|]. split; [by apply (H6 j m)|]. split; [done|].
      eapply agree_trans; [done|]. eapply agree_le; [|done]. lia.
    - destruct (decide (j = k)) as [->|].
      { assert (m = l) by congruence. subst l. done. }
      exists k, l. split; [done|]. split; [done|]. split; [|].
      + intros Hl. apply H5. apply (H3 k l); [lia|done|done].
      + eapply agree_trans; [|done]. eapply agree_le; [|done]. lia.
  Qed.
  Lemma lectic_asym P Q : lectic ms P Q → ¬ lectic ms Q P.
  Proof. intros H1 H2. eapply lectic_irrefl, lectic_trans; done. Qed.
  Lemma agree_or_lectic j P Q : j ≤ length ms → agree ms j P Q ∨ lectic ms P Q ∨ lectic ms Q P.
  Proof.
    induction j as [|j IH]; intros Hj.
    { left. intros k x Hk. lia. }
    destruct IH as [H|H]; [lia| |by right].
    destruct (lookup_lt_is_Some_2 ms j) as [m Hm]; [lia|].
    destruct (decide (m ∈ P)) as [HP|HP], (decide (m ∈ Q)) as [HQ|HQ].
    - left. by apply (agree_S j m).
    - right. right. exists j, m. split; [done|]. split; [done|]. split; [done|]. by apply agree_sym.
    - right. left. by exists j, m.
    - left. apply (agree_S j m); [done|]. by split.
  Qed.
  Lemma agree_all P Q : P ⊆ list_to_set ms → Q ⊆ list_to_set ms → agree ms (length ms) P Q → P = Q.
  Proof.
    intros HP HQ H. apply set_eq. intros x.
    assert (∀ x, x ∈ (list_to_set ms : gset name) → (x ∈ P ↔ x ∈ Q)) as Hx.
    { clear x. intros x [k Hk]%elem_of_list_to_set%elem_of_list_lookup. apply (H k); [|done].
      by eapply lookup_lt_Some. }
    split; intros H'; apply Hx; auto.
  Qed.
  Lemma lectic_total P Q : P ⊆ list_to_set ms → Q ⊆ list_to_set ms →
    P = Q ∨ lectic ms P Q ∨ lectic ms Q P.
  Proof.
    intros HP HQ. destruct (agree_or_lectic (length ms) P Q) as [H|H]; [done| |by right].
    left. by apply agree_all.
  Qed.
End lectic.

Fixpoint rank (ms : list name) (P : gset name) : nat :=
  match ms with
  | [] => 0
  | m :: ms' => (if bool_decide (m ∈ P) then 2 ^ length ms' else 0) + rank ms' P
  end.
Lemma rank_lt ms P : rank ms P < 2 ^ length ms.
Proof. induction ms as [|m ms IH]; simpl; [lia|]. case_bool_decide; lia. Qed.
Lemma lectic_rank ms P Q : lectic ms P Q → rank ms P < rank ms Q.
Proof.
  induction ms as [|m ms IH]; intros (j & x & Hj & H1 & H2 & H3); [done|].
  destruct j as [|j]; simpl in Hj.
  - injection Hj as ->. simpl. rewrite bool_decide_false by done. rewrite bool_decide_true by done.
    pose proof (rank_lt ms P). lia.
  - assert (rank ms P < rank ms Q).
    { apply IH. exists j, x. split; [done|]. split; [done|]. split; [done|].
      intros k y Hk Hy. apply (H3 (S k)); [lia|done]. }
    simpl. assert (m ∈ P ↔ m ∈ Q) as Hm by (apply (H3 0); [lia|done]).
    rewrite (bool_decide_ext _ _ Hm). lia.
Qed.

Lemma closure_growing M cl : closure_op M cl → growing_op M cl.
Proof. intros H. constructor; apply H. Qed.

(** ** The loops *)
Section loop.
  Context (ms : list name) (Hms : NoDup ms).
  Local Notation M := (list_to_set ms : gset name).
  Local Notation n := (length ms).
  Context (cl : gset name → gset name) (Hcl : growing_op M cl).
  Context (aclose : gset name → res (gset name)) (Haclose : ∀ X, X ⊆ M → aclose X = Ok (cl X)).
  Context (close : closer) (L0 : list fimp) (cond : gset name → bool).

  Lemma elem_of_pre i x : x ∈ pre ms i ↔ ∃ k, k < i ∧ ms !! k = Some x.
  Proof.
    unfold pre. rewrite elem_of_list_to_set, elem_of_list_lookup. split.
    - intros [k [Hk Hi]%lookup_take_Some]. eauto.
    - intros (k & Hi & Hk). exists k. apply lookup_take_Some. done.
  Qed.
  Lemma pre_index k x i : ms !! k = Some x → x ∈ pre ms i ↔ k < i.
  Proof.
    intros Hk. rewrite elem_of_pre. split; [|eauto]. intros (k' & Hi & Hk').
    by rewrite (NoDup_lookup ms k k' x Hms Hk Hk').
  Qed.
  Lemma pre_sub i : pre ms i ⊆ M.
  Proof. intros x (k & _ & Hk)%elem_of_pre. apply elem_of_list_to_set. by eapply elem_of_list_lookup_2. Qed.
  Lemma pre_all : pre ms n = M.
  Proof. unfold pre. by rewrite firstn_all. Qed.
  Lemma suf_pre (a : gset name) i : a ⊆ M → a ∖ suf ms i = a ∩ pre ms i.
  Proof.
    intros Ha. apply set_eq. intros x. rewrite elem_of_difference, elem_of_intersection.
    split; intros [Hx H]; (split; [done|]).
    - apply Ha in Hx. rewrite elem_of_list_to_set, <-(take_drop i ms), elem_of_app in Hx.
      unfold suf in H. rewrite elem_of_list_to_set in H. unfold pre. rewrite elem_of_list_to_set. tauto.
    - unfold suf, pre in *. rewrite elem_of_list_to_set in *. rewrite <-(take_drop i ms) in Hms.
      apply NoDup_app in Hms as (_ & Hd & _). by apply Hd.
  Qed.
  Lemma agree_pre i P Q : agree ms i P Q ↔ ∀ x, x ∈ pre ms i → (x ∈ P ↔ x ∈ Q).
  Proof.
    split.
    - intros H x (k & Hk & Hx)%elem_of_pre. by apply (H k).
    - intros H k x Hk Hx. apply H, elem_of_pre. eauto.
  Qed.
  Lemma size_M : size M = n.
  Proof. by apply size_list_to_set. Qed.
  Lemma full_size a : a ⊆ M → n ≤ size a → a = M.
  Proof.
    intros Ha Hs. apply leibniz_equiv. intros x. split; [apply Ha|]. intros Hx.
    destruct (decide (x ∈ a)); [done|]. assert (a ⊂ M) as Hlt.
    { split; [done|]. intros H. by apply n, H. }
    apply subset_size in Hlt. rewrite size_M in Hlt. lia.
  Qed.

  (** What the inner loop finds. *)
  Definition inner_res (R : list fimp) (a1 : gset name) (i : nat) (b : gset name) (j : nat) : Prop :=
    ∃ m, j < i ∧ ms !! j = Some m ∧ m ∉ a1 ∧
      close (a1 ∩ pre ms j ∪ {[m]}) (Some (R ++ L0)) = Ok b ∧
      (b ∖ (a1 ∩ pre ms j)) ∩ pre ms j = ∅ ∧
      ∀ k x, j < k < i → ms !! k = Some x → x ∉ a1 →
        ∃ b', close (a1 ∩ pre ms k ∪ {[x]}) (Some (R ++ L0)) = Ok b' ∧ (b' ∖ (a1 ∩ pre ms k)) ∩ pre ms k ≠ ∅.

  Definition close_ok (R : list fimp) : Prop :=
    ∀ X, X ⊆ M → ∃ C, close X (Some (R ++ L0)) = Ok C ∧ X ⊆ C ∧ C ⊆ M.

  Lemma dg_inner_spec R a1 a i : close_ok R → i ≤ n → a1 ⊆ M → a = a1 ∩ pre ms i →
    (∃ k x, k < i ∧ ms !! k = Some x ∧ x ∉ a1) →
    ∃ b j, dg_inner ms close (Some L0) R a i = Ok (b, Some j) ∧ inner_res R a1 i b j.
  Proof.
    intros HR. revert a. induction i as [|j IH]; intros a Hi Ha1 Ha Hex.
    { destruct Hex as (k & x & Hk & _). lia. }
    destruct (lookup_lt_is_Some_2 ms j) as [m Hm]; [lia|].
    cbn [dg_inner]. rewrite Hm. cbn [get_or mbind res_bind].
    assert (pre ms (S j) = pre ms j ∪ {[m]}) as HS.
    { apply set_eq. intros x. rewrite elem_of_union, elem_of_singleton, !elem_of_pre. split.
      - intros (k & Hk & Hx). destruct (decide (k = j)) as [->|]; [right; congruence|]. left. exists k. split; [lia|done].
      - intros [(k & Hk & Hx)| ->]; [exists k; split; [lia|done]|]. exists j. split; [lia|done]. }
    assert (m ∉ pre ms j) as Hmj by (rewrite (pre_index j m); [lia|done]).
    destruct (decide (m ∈ a1)) as [Hma|Hma].
    - rewrite bool_decide_true by (rewrite Ha, HS; clear -Hma; set_solver).
      destruct (IH (a ∖ {[m]})) as (b & j' & -> & H).
      + lia.
      + done.
      + rewrite Ha, HS. clear -Hmj. set_solver.
      + destruct Hex as (k & x & Hk & Hx & Hxa). exists k, x. split; [|done].
        destruct (decide (k = j)) as [->|]; [|lia]. congruence.
      + exists b, j'. split; [done|]. destruct H as (m' & H1 & H2 & H3 & H4 & H5 & H6).
        exists m'. split; [lia|]. do 4 (split; [done|]). intros k x Hk Hx Hxa.
        destruct (decide (k = j)) as [->|]; [congruence|]. apply H6; [lia|done|done].
    - rewrite bool_decide_false by (rewrite Ha; clear -Hma; set_solver).
      assert (a = a1 ∩ pre ms j) as Haj.
      { rewrite Ha, HS. clear -Hma. set_solver. }
      cbn [cat_basis mbind res_bind].
      destruct (HR (a ∪ {[m]})) as (C & HC & HC1 & HC2).
      { assert (m ∈ M) by (apply elem_of_list_to_set; by eapply elem_of_list_lookup_2).
        rewrite Haj. clear -Ha1 H. set_solver. }
      rewrite HC. cbn [mbind res_bind]. case_bool_decide as Hb.
      + exists C, j. split; [done|]. exists m. split; [lia|]. split; [done|]. split; [done|].
        rewrite <-Haj. split; [done|]. split; [done|]. intros k x Hk. lia.
      + destruct (IH a) as (b & j' & -> & H).
        * lia.
        * done.
        * done.
        * apply set_choose_L in Hb as [y Hy]. apply elem_of_intersection in Hy as [Hy1 Hy2].
          pose proof Hy2 as (k & Hk & Hx)%elem_of_pre. exists k, y. split; [done|]. split; [done|].
          rewrite Haj in Hy1. clear -Hy1 Hy2. set_solver.
        * exists b, j'. split; [done|]. destruct H as (m' & H1 & H2 & H3 & H4 & H5 & H6).
          exists m'. split; [lia|]. do 4 (split; [done|]). intros k x Hk Hx Hxa.
          destruct (decide (k = j)) as [->|]; [|apply H6; [lia|done|done]].
          assert (x = m) as -> by congruence. rewrite <-Haj. by exists C.
  Qed.

  Lemma inner_progress R a1 i b j : close_ok R → i ≤ n → a1 ⊆ M → inner_res R a1 i b j →
    j < n ∧ b ⊆ M ∧ agree ms j a1 b ∧ ∃ m, ms !! j = Some m ∧ m ∈ b ∧ m ∉ a1.
  Proof.
    intros HR Hi Ha (m & H1 & H2 & H3 & H4 & H5 & _).
    destruct (HR (a1 ∩ pre ms j ∪ {[m]})) as (C & HC & HC1 & HC2).
    { assert (m ∈ M) by (apply elem_of_list_to_set; by eapply elem_of_list_lookup_2).
      clear -Ha H. set_solver. }
    rewrite H4 in HC. injection HC as <-. split; [lia|]. split; [done|]. split.
    - apply agree_pre. intros x Hx. split; [clear -Hx HC1; set_solver|]. intros Hxb.
      destruct (decide (x ∈ a1)); [done|]. exfalso.
      assert (x ∈ (b ∖ (a1 ∩ pre ms j)) ∩ pre ms j) as Hx' by (clear -Hx Hxb n; set_solver).
      rewrite H5 in Hx'. by apply elem_of_empty in Hx'.
    - exists m. split; [done|]. split; [|done]. clear -HC1. set_solver.
  Qed.

  (** Generic rule for the outer loop. *)
  Definition next_basis (R : list fimp) (a : gset name) : list fimp :=
    if bool_decide (a ≠ cl a) && cond a then R ++ [(a, cl a)] else R.
  Context (Inv : list fimp → gset name → nat → Prop) (Post : list fimp → Prop).
  Context (Isub : ∀ R a i, Inv R a i → a ⊆ M ∧ i ≤ n).
  Context (Iclose : ∀ R a i, Inv R a i → close_ok (next_basis R a)).
  Context (Istep1 : ∀ R a i b j, Inv R a i → a ≠ M → (cl a ∖ a) ∩ pre ms i ≠ ∅ →
    inner_res (next_basis R a) (a ∩ pre ms i) i b j → Inv (next_basis R a) b j).
  Context (Istep2 : ∀ R a i b j, Inv R a i → a ≠ M → (cl a ∖ a) ∩ pre ms i = ∅ → cl a ≠ M →
    inner_res (next_basis R a) (cl a) n b j → Inv (next_basis R a) b j).
  Context (Iend1 : ∀ R i, Inv R M i → Post R).
  Context (Iend2 : ∀ R a i, Inv R a i → a ≠ M → (cl a ∖ a) ∩ pre ms i = ∅ → cl a = M → Post (next_basis R a)).

  Lemma dg_loop_rule fuel R a i : Inv R a i → 2 ^ n ≤ fuel + rank ms a →
    ∃ R', dg_loop ms aclose close (Some L0) cond fuel R a i = Ok R' ∧ Post R'.
  Proof.
    revert R a i. induction fuel as [|fuel IH]; intros R a i HI Hf.
    { pose proof (rank_lt ms a). lia. }
    destruct (Isub _ _ _ HI) as [Ha Hi]. cbn [dg_loop].
    destruct (Nat.ltb_spec (size a) n) as [Hs|Hs].
    2: { apply full_size in Hs; [|done]. subst a. eauto. }
    assert (a ≠ M) as Hne. { intros ->. rewrite size_M in Hs. lia. }
    rewrite Haclose by done. cbn [mbind res_bind].
    change (if bool_decide (a ≠ cl a) && cond a then R ++ [(a, cl a)] else R) with (next_basis R a).
    pose proof (Iclose _ _ _ HI) as HR. pose proof (gr_sub _ _ Hcl a Ha) as HclM.
    case_bool_decide as Hb.
    - destruct (dg_inner_spec (next_basis R a) (a ∩ pre ms i) (a ∖ suf ms i) i) as (b & j & -> & Hin).
      + done.
      + done.
      + clear -Ha. set_solver.
      + rewrite suf_pre by done. clear. set_solver.
      + apply set_choose_L in Hb as [y Hy]. apply elem_of_intersection in Hy as [Hy1 Hy2].
        apply elem_of_pre in Hy2 as (k & Hk & Hx). exists k, y. split; [done|]. split; [done|].
        clear -Hy1. set_solver.
      + cbn [mbind res_bind default]. apply IH; [by apply (Istep1 R a i)|].
        assert (a ∩ pre ms i ⊆ M) as Hai by (clear -Ha; set_solver).
        destruct (inner_progress _ _ _ _ _ HR Hi Hai Hin) as (Hj & Hbm & Hag & m & Hm & Hmb & Hma).
        assert (lectic ms a b) as Hlt%lectic_rank; [|lia].
        assert (j < i) as Hji by (destruct Hin as (? & ? & _); done).
        exists j, m. split; [done|]. split; [done|]. split.
        * intros Hm'. apply Hma, elem_of_intersection. split; [done|]. by apply (pre_index j m).
        * intros k x Hk Hx. rewrite <-(Hag k x Hk Hx), elem_of_intersection, (pre_index k x i Hx).
          split; [intros; split; [done|lia]|tauto].
    - destruct (Nat.eqb_spec (size (cl a)) n) as [Hn|Hn].
      { eexists. split; [done|]. eapply Iend2; [done..|]. apply full_size; [done|lia]. }
      assert (cl a ≠ M) as Hne'. { intros E. rewrite E, size_M in Hn. lia. }
      destruct (dg_inner_spec (next_basis R a) (cl a) (cl a) n) as (b & j & -> & Hin).
      + done.
      + done.
      + done.
      + rewrite pre_all. clear -HclM. set_solver.
      + destruct (decide (Exists (λ x, x ∉ cl a) ms)) as [(x & Hx & Hx')%Exists_exists|Hno].
        * apply elem_of_list_lookup in Hx as [k Hk]. exists k, x. split; [by eapply lookup_lt_Some|done].
        * exfalso. apply Hne', set_eq. intros x. split; [apply HclM|]. intros Hx%elem_of_list_to_set.
          destruct (decide (x ∈ cl a)); [done|]. destruct Hno. apply Exists_exists. eauto.
      + cbn [mbind res_bind default]. apply IH; [by apply (Istep2 R a i)|].
        destruct (inner_progress _ _ _ _ _ HR (le_n _) HclM Hin) as (Hj & Hbm & Hag & m & Hm & Hmb & Hma).
        assert (lectic ms (cl a) b) as Hlt%lectic_rank by (by exists j, m).
        assert (rank ms a ≤ rank ms (cl a)); [|lia].
        destruct (lectic_total ms a (cl a)) as [<-|[H%lectic_rank|H]]; [done|done|lia|lia|].
        exfalso. eapply lectic_sub; [|done]. by apply (gr_ext _ _ Hcl).
  Qed.
End loop.
