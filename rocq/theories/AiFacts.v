(** * The attribute-incremental algorithm *)
From Verif Require Import Py PyFacts Spec SpecFacts DgSpec ContextModel ContextSpec ContextOps ContextFacts ContextInit ContextFinal
  ClosureModel ClosureFacts NorrisFacts DgCxt AiModel.

Lemma Ok_eq {A} (x y : A) : Ok x = Ok y → x = y.
Proof. by intros [= ->]. Qed.
Lemma pimps_app l k : pimps (l ++ k) = pimps l ++ pimps k.
Proof. unfold pimps. apply omap_app. Qed.
Lemma elem_of_pimps i l : i ∈ pimps l ↔ ∃ A, PImp A i ∈ l.
Proof.
  unfold pimps. rewrite elem_of_list_omap. split.
  - intros ([A B|A j] & Hp & E); [done|]. injection E as ->. by exists A.
  - intros (A & H). by exists (PImp A i).
Qed.

(** Lists of sets in which no set includes a later one. *)
Definition topo (l : list (gset name)) : Prop :=
  ∀ a b X Y, l !! a = Some X → l !! b = Some Y → a < b → ¬ Y ⊆ X.
Lemma topo_snoc l x : topo (l ++ [x]) ↔ topo l ∧ ∀ y, y ∈ l → ¬ x ⊆ y.
Proof.
  split.
  - intros H. split.
    + intros a b X Y Ha Hb. apply (H a b); by rewrite lookup_app_l by by eapply lookup_lt_Some.
    + intros y (a & Ha)%elem_of_list_lookup. pose proof (lookup_lt_Some _ _ _ Ha).
      apply (H a (length l) y x); [by rewrite lookup_app_l|by rewrite list_lookup_middle|done].
  - intros [H1 H2] a b X Y Ha Hb Hab.
    assert (b < S (length l)) as Hb'. { apply lookup_lt_Some in Hb. rewrite app_length in Hb. simpl in Hb. lia. }
    rewrite lookup_app_l in Ha by lia. destruct (decide (b < length l)) as [Hl|Hl].
    + rewrite lookup_app_l in Hb by done. by apply (H1 a b X Y).
    + replace b with (length l) in Hb by lia. rewrite list_lookup_middle in Hb by done. injection Hb as <-.
      apply H2. by eapply elem_of_list_lookup_2.
Qed.
Lemma topo_app l k : topo l → topo k → (∀ x y, x ∈ l → y ∈ k → ¬ y ⊆ x) → topo (l ++ k).
Proof.
  intros H1 H2 H3 a b X Y Ha Hb Hab. apply lookup_app_Some in Ha as [Ha|[Ha Ha']], Hb as [Hb|[Hb Hb']].
  - by apply (H1 a b).
  - apply H3; by eapply elem_of_list_lookup_2.
  - apply lookup_lt_Some in Hb. lia.
  - apply (H2 (a - length l) (b - length l)); [done|done|lia].
Qed.
Lemma topo_NoDup l : topo l → NoDup l.
Proof.
  intros H. apply NoDup_alt. intros a b X Ha Hb. destruct (decide (a = b)) as [|Hne]; [done|exfalso].
  destruct (decide (a < b)); [by apply (H a b X X)|]. apply (H b a X X); [done|done|lia|done].
Qed.

Section algo.
  Context (K : fctx).
  Notation dn := (down K).
  (** Closure restricted to the attributes [M]. *)
  Definition kcl (M X : gset name) : gset name := acl K X ∩ M.
  Section round.
  Context (M : gset name) (HM : M ⊆ fM K).
  Lemma elem_kcl X a : a ∈ kcl M X ↔ a ∈ M ∧ dn X ⊆ dn {[a]}.
  Proof.
    unfold kcl, acl. rewrite elem_of_intersection, elem_of_up. split.
    - intros [[H1 H2] H3]. split; [done|]. intros g Hg. apply elem_of_down. pose proof Hg as [HG _]%elem_of_down.
      split; [done|]. intros m ->%elem_of_singleton. by apply H2.
    - intros [H1 H2]. split; [|done]. split; [by apply HM|]. intros g Hg%H2. apply elem_of_down in Hg as [_ Hg]. apply Hg. set_solver.
  Qed.
  Lemma kcl_ext X : X ⊆ M → X ⊆ kcl M X.
  Proof. intros H a Ha. apply elem_kcl. split; [by apply H|]. apply down_anti. set_solver. Qed.
  Lemma kcl_sub X : kcl M X ⊆ M.
  Proof. clear HM. unfold kcl. set_solver. Qed.
  Lemma kcl_mono X Y : X ⊆ Y → kcl M X ⊆ kcl M Y.
  Proof. clear HM. intros H. unfold kcl. pose proof (acl_mono K X Y H). set_solver. Qed.
  Lemma dn_kcl X : X ⊆ M → dn (kcl M X) = dn X.
  Proof.
    intros H. apply (anti_symm (⊆)); [apply down_anti, kcl_ext, H|].
    intros g Hg. apply elem_of_down. split; [by apply elem_of_down in Hg as [? _]|]. intros m [_ Hm]%elem_kcl.
    specialize (Hm g Hg). apply elem_of_down in Hm as [_ Hm]. apply Hm. set_solver.
  Qed.
  Lemma kcl_dn X Y : dn X = dn Y → kcl M X = kcl M Y.
  Proof. intros E. apply set_eq. intros a. by rewrite !elem_kcl, E. Qed.
  Lemma kcl_idem X : X ⊆ M → kcl M (kcl M X) = kcl M X.
  Proof. intros H. by apply kcl_dn, dn_kcl. Qed.
  Lemma kcl_min X Y : X ⊆ Y → kcl M Y = Y → kcl M X ⊆ Y.
  Proof. intros H E. rewrite <-E. by apply kcl_mono. Qed.
  End round.

  (** A valid implication with a full, non-trivial conclusion. *)
  Definition exact (M : gset name) (i : fimp) : Prop := i.1 ⊆ M ∧ i.2 = kcl M i.1 ∧ i.1 ≠ i.2.
  Lemma closed_respects M X i : X ⊆ M → kcl M X = X → i.1 ⊆ M → i.2 = kcl M i.1 → respects X i.
  Proof. intros HX E Hi E2 H. rewrite E2. by apply kcl_min. Qed.

  (** ** Closing the remaining premises *)
  Section closing.
    Context (M : gset name) (HM : M ⊆ fM K) (fixed : list fimp).
    Context (Hhash : ∀ i : fimp, i.1 ⊆ M → i.2 ⊆ M → hashable i = true).
    Lemma close_loop_ok rl : ∀ added extra,
      (∀ i, i ∈ fixed ++ added → exact M i) → (∀ A i, (A, i) ∈ rl → i.1 ⊆ M ∧ i.2 = kcl M i.1) →
      NoDup (map fst (fixed ++ added)) →
      ∃ new : list (gset name * fimp), 
        close_loop fixed rl added extra = Ok (fixed ++ added ++ map snd new, extra ++ map (λ p, PImp p.1 p.2) new) ∧
        (∀ X, model_of (fixed ++ added ++ map snd new) X ↔ model_of (fixed ++ map snd rl ++ added) X) ∧
        (∀ A i, (A, i) ∈ new → exact M i ∧ ∃ j, (A, j) ∈ rl ∧ j.1 ⊆ i.1 ∧ i.2 = j.2) ∧
        (∀ i j, i ∈ map snd new → j ∈ fixed ++ added ++ map snd new → j.1 ⊂ i.1 → j.2 ⊆ i.1) ∧
        NoDup (map fst (fixed ++ added ++ map snd new)).
    Proof.
      induction rl as [|[A i] rl IH]; intros added extra Hfa Hrl Hnd.
      - exists []. cbn [close_loop map]. rewrite !app_nil_r. split; [done|]. split; [by intros X; cbn|].
        split; [by intros ?? ?%elem_of_nil|]. split; [by intros ?? ?%elem_of_nil|done].
      - cbn [close_loop]. set (rest := fixed ++ map snd (reverse rl) ++ added).
        assert (∀ j, j ∈ rest → j.1 ⊆ M ∧ j.2 = kcl M j.1) as Hrest.
        { intros j. unfold rest. rewrite !elem_of_app. intros [Hj|[Hj|Hj]].
          - destruct (Hfa j) as (? & ? & ?); [apply elem_of_app; by left|done].
          - apply elem_of_list_fmap in Hj as ([A' j'] & -> & Hj). rewrite elem_of_reverse in Hj. apply (Hrl A'). by right.
          - destruct (Hfa j) as (? & ? & ?); [apply elem_of_app; by right|done]. }
        destruct (Hrl A i) as [Hi1 Hi2]; [by left|].
        destruct (simple_closure_spec i.1 rest) as (C & HC & HC1 & HC2 & HC3).
        { intros j [H1 H2]%Hrest. apply Hhash; [done|]. rewrite H2. apply kcl_sub. }
        rewrite HC. cbn [mbind res_bind].
        assert (i.1 ∪ C = C) as EC by set_solver. rewrite EC.
        assert (C ⊆ i.2) as HCi.
        { apply HC3; [rewrite Hi2; by apply kcl_ext|]. intros j [H1 H2]%Hrest. rewrite Hi2.
          apply (closed_respects M); [apply kcl_sub|by apply kcl_idem|done|done]. }
        assert (C ⊆ M) as HCM. { rewrite Hi2 in HCi. pose proof (kcl_sub M i.1). set_solver. }
        assert (∀ X, model_of rest X ↔ model_of (fixed ++ map snd rl ++ added) X) as Hrev.
        { intros X. unfold model_of, rest. split; intros H j Hj; apply H; revert Hj; rewrite !elem_of_app;
          intros [Hj|[Hj|Hj]]; auto; right; left; apply elem_of_list_fmap in Hj as (y & -> & Hy); apply elem_of_list_fmap;
          exists y; (split; [done|]); [by rewrite elem_of_reverse|by rewrite elem_of_reverse in Hy]. }
        case_bool_decide as Hd.
        + destruct (IH added extra Hfa) as (new & H1 & H2 & H3 & H4 & H5); [intros ???; apply (Hrl A0); by right|done|].
          exists new. split; [done|]. split; [|split; [|done]].
          * intros X. rewrite H2, <-Hrev. cbn [map snd]. split.
            -- intros Hm j. rewrite !elem_of_app, elem_of_cons. intros Hj.
               assert (j = i ∨ j ∈ fixed ++ map snd rl ++ added) as [->|Hj'].
               { rewrite !elem_of_app. tauto. }
               ++ intros Hs. rewrite <-Hd. by apply HC3.
               ++ apply Hrev in Hm. by apply Hm.
            -- intros Hm. apply Hrev. intros j Hj. apply Hm. revert Hj. rewrite !elem_of_app, elem_of_cons. tauto.
          * intros A0 j Hj. destruct (H3 A0 j Hj) as (? & k & ? & ?). split; [done|]. exists k. split; [by right|done].
        + assert (exact M (C, i.2)) as HE.
          { split; [done|]. split; [|done]. cbn [fst snd]. rewrite Hi2. apply kcl_dn; [done|].
            apply (anti_symm (⊆)); [|by apply down_anti]. rewrite <-(dn_kcl M HM i.1 Hi1). apply down_anti. by rewrite <-Hi2. }
          assert (C ∉ map fst (fixed ++ added)) as Hfresh.
          { intros Hin. apply elem_of_list_fmap in Hin as (j & Ej & Hj). destruct (Hfa j Hj) as (J1 & J2 & J3).
            apply J3. apply (anti_symm (⊆)); [rewrite J2; by apply kcl_ext|]. rewrite <-Ej. apply HC2; [|by rewrite <-Ej].
            unfold rest. revert Hj. rewrite !elem_of_app. tauto. }
          destruct (IH (added ++ [(C, i.2)]) (extra ++ [PImp A (C, i.2)])) as (new & H1 & H2 & H3 & H4 & H5).
          { intros j. rewrite app_assoc, elem_of_app, elem_of_list_singleton. intros [Hj| ->]; [by apply Hfa|done]. }
          { intros ???; apply (Hrl A0); by right. }
          { rewrite app_assoc, map_app. apply NoDup_app. split; [done|]. split; [|apply NoDup_singleton].
            intros x Hx ->%elem_of_list_singleton. done. }
          exists ((A, (C, i.2)) :: new). cbn [map fst snd]. rewrite <-!app_assoc in H1, H2, H4, H5. rewrite <-!app_assoc in H1.
          split; [exact H1|]. split; [|split; [|split; [|exact H5]]].
          * intros X. etransitivity; [apply H2|]. cbn [map snd]. split.
            -- intros Hm. assert (model_of rest X) as Hr.
               { apply Hrev. intros j Hj. apply Hm. revert Hj. rewrite !elem_of_app. tauto. }
               intros j. rewrite !elem_of_app, elem_of_cons. intros Hj.
               assert (j = i ∨ j ∈ fixed ++ map snd rl ++ added) as [->|Hj'].
               { rewrite !elem_of_app. tauto. }
               ++ intros Hs. apply (Hm (C, i.2)); [rewrite !elem_of_app, elem_of_list_singleton; tauto|]. by apply HC3.
               ++ apply Hrev in Hr. by apply Hr.
            -- intros Hm j. rewrite !elem_of_app, elem_of_list_singleton. intros Hj.
               assert (j = (C, i.2) ∨ j ∈ fixed ++ i :: map snd rl ++ added) as [->|Hj'].
               { rewrite !elem_of_app, elem_of_cons, elem_of_app. tauto. }
               ++ cbn. intros Hs. apply (Hm i); [rewrite !elem_of_app, elem_of_cons; tauto|]. by etransitivity.
               ++ by apply Hm.
          * intros A0 j. rewrite elem_of_cons. intros [[= -> ->]|Hj].
            -- split; [done|]. exists i. split; [by left|done].
            -- destruct (H3 A0 j Hj) as (? & k & ? & ?). split; [done|]. exists k. split; [by right|done].
          * intros j k Hj Hk Hs. apply elem_of_cons in Hj as [->|Hj]; [|by apply (H4 j k)].
            cbn [fst snd] in *. rewrite !elem_of_app, elem_of_cons in Hk.
            assert (∀ j, j ∈ rest → j.1 ⊆ C → j.2 ⊆ C) as HCr by (intros; by apply HC2).
            destruct Hk as [Hk|[Hk|[->|Hk]]].
            -- apply HCr; [unfold rest; rewrite !elem_of_app; tauto|apply Hs].
            -- apply HCr; [unfold rest; rewrite !elem_of_app; tauto|apply Hs].
            -- exfalso. destruct Hs as [_ Hs]. by apply Hs.
            -- apply elem_of_list_fmap in Hk as ([A' k'] & -> & Hk). destruct (H3 A' k' Hk) as (_ & k0 & Hk0 & K1 & K2).
               cbn [snd] in *. rewrite K2. apply HCr; [|etransitivity; [exact K1|apply Hs]].
               unfold rest. rewrite !elem_of_app. right; left. apply elem_of_list_fmap. exists (A', k0). split; [done|].
               by rewrite elem_of_reverse.
    Qed.
  End closing.

  (** ** One round *)
  Section round.
    Context (M : gset name) (m : name) (Hm : m ∉ M) (HM : M ∪ {[m]} ⊆ fM K).
    Let M' := M ∪ {[m]}.
    Let E := dn {[m]}.
    Context (clo : gset name → res (gset name)) (Hclo : ∀ X, X ⊆ M' → clo X = Ok (kcl M' X)).
    Lemma HM0 : M ⊆ fM K.
    Proof. etrans; [|exact HM]. apply union_subseteq_l. Qed.
    Lemma dn_add X : dn (X ∪ {[m]}) = dn X ∩ E.
    Proof. apply down_union. Qed.
    Lemma kcl_old X : X ⊆ M → ¬ dn X ⊆ E → kcl M' X = kcl M X.
    Proof.
      intros HX HE. apply set_eq. intros a. rewrite !elem_kcl by (done || apply HM0). unfold M'. rewrite elem_of_union, elem_of_singleton.
      split; [|tauto]. intros [[?| ->] ?]; [done|]. by destruct HE.
    Qed.
    Lemma kcl_mod X : X ⊆ M → dn X ⊆ E → kcl M' X = kcl M X ∪ {[m]}.
    Proof.
      intros HX HE. apply set_eq. intros a. rewrite elem_of_union, !elem_kcl by (done || apply HM0). unfold M'.
      rewrite elem_of_union, elem_of_singleton. split; [tauto|]. intros [?| ->]; [tauto|]. split; [by right|done].
    Qed.
    Lemma kcl_mod_m X : X ⊆ M → dn X ⊆ E → kcl M' (X ∪ {[m]}) = kcl M X ∪ {[m]}.
    Proof.
      intros HX HE. rewrite <-kcl_mod by done. apply kcl_dn; [done|]. rewrite dn_add. by apply subseteq_intersection_1_L.
    Qed.
    Lemma sub_add X Y : X ⊆ M → X ⊆ Y ∪ {[m]} → X ⊆ Y.
    Proof.
      intros HX HY a Ha. specialize (HY a Ha). apply elem_of_union in HY as [?|HY]; [done|]. apply elem_of_singleton in HY as ->. by destruct Hm; apply HX.
    Qed.
    Definition okp (p : pre) : Prop :=
      match p with
      | PConcept A B => B ⊆ M ∧ kcl M B = B ∧ A = dn B
      | PImp A i => exact M i ∧ A = dn i.1
      end.
    Lemma okp_pset p : okp p → pset p ⊆ M ∧ pext p = dn (pset p).
    Proof. destruct p as [A B|A i]; cbn; [tauto|]. unfold exact. tauto. Qed.
    Record J (done : list pre) (st : ustate) : Prop := {
      j_old : ∀ i, i ∈ old_stable st ↔ ∃ A, PImp A i ∈ done ∧ ¬ A ⊆ E;
      j_old_sub : old_stable st `sublist_of` pimps done;
      j_new : ∀ i, i ∈ new_stable st → ∃ A B, PConcept A B ∈ done ∧ ¬ A ⊆ E ∧ i = (B ∪ {[m]}, kcl M' (B ∪ {[m]})) ∧ i.1 ≠ i.2;
      j_new_all : ∀ A B, PConcept A B ∈ done → ¬ A ⊆ E → (∀ i, i ∈ new_stable st → respects (B ∪ {[m]}) i) →
        kcl M' (B ∪ {[m]}) = B ∪ {[m]};
      j_new_pair : ∀ a b i j, new_stable st !! a = Some i → new_stable st !! b = Some j → a < b → respects j.1 i;
      j_min : ∀ i, i ∈ min_mod st → ∃ A, A ⊆ E ∧ ((∃ B, PConcept A B ∈ done ∧ i = (B, B ∪ {[m]})) ∨
        ∃ j, PImp A j ∈ done ∧ i = (j.1, j.2 ∪ {[m]}));
      j_min_conc : ∀ A B, PConcept A B ∈ done → A ⊆ E → ∃ i, i ∈ min_mod st ∧ i.1 ⊆ B;
      j_min_imp : ∀ A j, PImp A j ∈ done → A ⊆ E → (j.1, j.2 ∪ {[m]}) ∈ min_mod st ∨
        (A, (j.1 ∪ {[m]}, j.2 ∪ {[m]})) ∈ non_min st ∧ ∃ i, i ∈ min_mod st ∧ i.1 ⊆ j.1;
      j_min_pair : ∀ a b i j, min_mod st !! a = Some i → min_mod st !! b = Some j → a < b → ¬ i.1 ⊆ j.1;
      j_non : ∀ A i, (A, i) ∈ non_min st → ∃ j, PImp A j ∈ done ∧ A ⊆ E ∧ i = (j.1 ∪ {[m]}, j.2 ∪ {[m]});
      j_extra : ∀ p, p ∈ mod_extra st ↔ ∃ A B, PConcept A B ∈ done ∧ A ⊆ E ∧ p = PConcept A (B ∪ {[m]});
      j_pre_conc : ∀ X Y, PConcept X Y ∈ new_pre st ↔ (PConcept X Y ∈ done ∧ ¬ X ⊆ E) ∨
        (∃ A B, PConcept A B ∈ done ∧ ¬ A ⊆ E ∧ X = A ∩ E ∧ Y = B ∪ {[m]} ∧ kcl M' Y = Y);
      j_pre_imp : pimps (new_pre st) ≡ₚ old_stable st ++ new_stable st ++ min_mod st;
      j_pre_ext : ∀ A i, PImp A i ∈ new_pre st → A = dn i.1;
      j_pre_sets : ∀ p, p ∈ new_pre st → (∃ q, q ∈ done ∧ pset p = pset q) ∨
        ∃ A B, PConcept A B ∈ done ∧ ¬ A ⊆ E ∧ pset p = B ∪ {[m]};
      j_topo : topo (map pset done) → topo (map pset (new_pre st)) ∧ topo (map fst (new_stable st)) ∧
        topo (map fst (min_mod st)) ∧ topo (map pset (mod_extra st)) }.

    Lemma lookup_snoc_cases {A} (l : list A) x a y : (l ++ [x]) !! a = Some y → l !! a = Some y ∧ a < length l ∨ a = length l ∧ y = x.
    Proof.
      intros H. destruct (decide (a < length l)) as [Hl|Hl].
      - left. by rewrite lookup_app_l in H.
      - right. assert (a = length l) as ->. { apply lookup_lt_Some in H. rewrite app_length in H. simpl in H. lia. }
        rewrite list_lookup_middle in H by done. by injection H as <-.
    Qed.
    Ltac step := rewrite ?elem_of_app, ?elem_of_list_singleton in *.
    Ltac kp := intros; setoid_rewrite elem_of_app; setoid_rewrite elem_of_list_singleton; naive_solver.
    Lemma topo_split (l : list pre) p : topo (map pset (l ++ [p])) → topo (map pset l) ∧ ∀ y, y ∈ map pset l → ¬ pset p ⊆ y.
    Proof. rewrite map_app. cbn [map]. by rewrite topo_snoc. Qed.
    Lemma fresh (l np : list pre) p : (∀ y, y ∈ map pset l → ¬ pset p ⊆ y) → okp p →
      (∀ q, q ∈ np → (∃ r, r ∈ l ∧ pset q = pset r) ∨ ∃ A B, PConcept A B ∈ l ∧ ¬ A ⊆ E ∧ pset q = B ∪ {[m]}) →
      ∀ y, y ∈ map pset np → ¬ pset p ⊆ y.
    Proof.
      intros T2 Hp j15 y Hy. apply elem_of_list_fmap in Hy as (q & -> & Hq).
      destruct (j15 q Hq) as [(r & Hr & ->)|(X & Y & Hc & Hx & ->)].
      - apply T2. apply elem_of_list_fmap. by exists r.
      - intros Hs. apply (T2 Y); [apply elem_of_list_fmap; by exists (PConcept X Y)|].
        apply okp_pset in Hp as [Hp _]. by apply sub_add.
    Qed.
    Lemma J_snoc_old A i done st : ¬ A ⊆ E → okp (PImp A i) → (∀ p, p ∈ done → okp p) → J done st →
      J (done ++ [PImp A i]) (push_old i (push_pre (PImp A i) st)).
    Proof.
      intros HA Hp Hd [j1 j2 j3 j4 j5 j6 j7 j8 j9 j10 j11 j12 j13 j14 j15 j16].
      assert (∀ X Y, PConcept X Y ∈ done ++ [PImp A i] ↔ PConcept X Y ∈ done) as R1.
      { intros. step. naive_solver. }
      constructor; cbn [push_old push_pre old_stable new_stable min_mod non_min mod_extra new_pre]; try setoid_rewrite R1; try done.
      - intros k. step. rewrite j1. setoid_rewrite elem_of_app. setoid_rewrite elem_of_list_singleton. naive_solver.
      - rewrite pimps_app. by apply sublist_app.
      - intros k Hk. destruct (j6 k Hk) as (X & HX & [?|(j & ? & ?)]); exists X; (split; [done|]); [by left|right].
        exists j. by step; auto.
      - intros X j. step. intros [?|[= -> ->]] ?; [by apply j8|done].
      - intros X k Hk. destruct (j10 X k Hk) as (j & ? & ?). exists j. by step; auto.
      - intros X Y. step. rewrite j12. naive_solver.
      - rewrite pimps_app, j13. cbn. rewrite <-!app_assoc. apply Permutation_app_head. cbn.
        rewrite app_assoc. symmetry. apply Permutation_cons_append.
      - intros X k. step. intros [?|[= -> ->]]; [by apply j14|]. apply Hp.
      - intros p. step. intros [H| ->].
        + destruct (j15 p H) as [(q & ? & ?)|?]; [left|by right]. exists q. by step; auto.
        + left. exists (PImp A i). by step; auto.
      - intros T. destruct (topo_split _ _ T) as [T1 T2]. destruct (j16 T1) as (t1 & t2 & t3 & t4).
        split; [|done]. rewrite map_app. cbn [map]. apply topo_snoc. split; [done|]. by apply (fresh done).
    Qed.
    Lemma J_snoc_stable A B done st st' : ¬ A ⊆ E → okp (PConcept A B) → (∀ p, p ∈ done → okp p) → J done st →
      stable_concept A B m E clo (push_pre (PConcept A B) st) = Ok st' → J (done ++ [PConcept A B]) st'.
    Proof.
      intros HA Hp Hd [j1 j2 j3 j4 j5 j6 j7 j8 j9 j10 j11 j12 j13 j14 j15 j16].
      assert (∀ X Y, PImp X Y ∈ done ++ [PConcept A B] ↔ PImp X Y ∈ done) as R1.
      { intros. step. naive_solver. }
      assert (pimps (done ++ [PConcept A B]) = pimps done) as R2.
      { rewrite pimps_app. apply app_nil_r. }
      assert (B ∪ {[m]} ⊆ M') as HB. { unfold M'. destruct Hp as [Hp _]. by apply union_mono_r. }
      assert (∀ X Y, PConcept X Y ∈ done ++ [PConcept A B] → X ⊆ E → PConcept X Y ∈ done) as R3.
      { intros X Y. step. intros [?|[= -> ->]] ?; done. }
      assert (∀ X Y, PConcept X Y ∈ done → PConcept X Y ∈ done ++ [PConcept A B]) as R4.
      { intros X Y ?. step. by left. }
      assert (∀ p, p ∈ new_pre st ++ [PConcept A B] → (∃ q, q ∈ done ++ [PConcept A B] ∧ pset p = pset q) ∨
        ∃ X Y, PConcept X Y ∈ done ++ [PConcept A B] ∧ ¬ X ⊆ E ∧ pset p = Y ∪ {[m]}) as R5.
      { intros p. step. intros [H| ->].
        - destruct (j15 p H) as [(q & ? & ?)|(X & Y & ? & ?)]; [left; exists q; by step; auto|right; exists X, Y; by auto].
        - left. exists (PConcept A B). by step; auto. }
      assert (topo (map pset (done ++ [PConcept A B])) → topo (map pset (new_pre st ++ [PConcept A B]))) as R6.
      { intros T. destruct (topo_split _ _ T) as [T1 T2]. rewrite map_app. cbn [map]. apply topo_snoc.
        split; [by apply j16|]. by apply (fresh done). }
      assert (topo (map pset (done ++ [PConcept A B])) → ∀ y, y ∈ map pset (new_pre st ++ [PConcept A B]) → ¬ B ∪ {[m]} ⊆ y) as R7.
      { intros T. destruct (topo_split _ _ T) as [T1 T2]. intros y. rewrite map_app, elem_of_app. cbn [map].
        rewrite elem_of_list_singleton. intros [Hy| ->] Hs.
        - apply (fresh done (new_pre st) (PConcept A B)) with (y := y); try done. etrans; [|exact Hs]. apply union_subseteq_l.
        - destruct Hm. destruct Hp as [Hp _]. apply Hp, Hs. apply elem_of_union_r. by apply elem_of_singleton. }
      assert (∀ i, i ∈ min_mod st → ∃ X, X ⊆ E ∧ ((∃ Y, PConcept X Y ∈ done ++ [PConcept A B] ∧ i = (Y, Y ∪ {[m]})) ∨
        ∃ j, PImp X j ∈ done ++ [PConcept A B] ∧ i = (j.1, j.2 ∪ {[m]}))) as R8.
      { intros i Hi. destruct (j6 i Hi) as (X & ? & [(Y & ? & ?)|(j & ? & ?)]); exists X; (split; [done|]);
          [left; exists Y|right; exists j; rewrite R1]; by auto. }
      assert (∀ p, p ∈ mod_extra st ↔ ∃ X Y, PConcept X Y ∈ done ++ [PConcept A B] ∧ X ⊆ E ∧ p = PConcept X (Y ∪ {[m]})) as R9.
      { intros p. rewrite j11. split; intros (X & Y & ? & ? & ?); exists X, Y; by auto. }
      assert (∀ X Y, PConcept X Y ∈ new_pre st ++ [PConcept A B] ↔ PConcept X Y ∈ done ++ [PConcept A B] ∧ ¬ X ⊆ E ∨
        (∃ U V, PConcept U V ∈ done ∧ ¬ U ⊆ E ∧ X = U ∩ E ∧ Y = V ∪ {[m]} ∧ kcl M' Y = Y)) as R10.
      { intros X Y. step. rewrite j12. naive_solver. }
      assert (pimps (new_pre st ++ [PConcept A B]) ≡ₚ old_stable st ++ new_stable st ++ min_mod st) as R11.
      { rewrite pimps_app. cbn. by rewrite app_nil_r. }
      assert (∀ X i, PImp X i ∈ new_pre st ++ [PConcept A B] → X = dn i.1) as R12.
      { intros X i. step. intros [?|?]; [by apply j14|done]. }
      assert (∀ i, i ∈ new_stable st → ∃ X Y, PConcept X Y ∈ done ++ [PConcept A B] ∧ ¬ X ⊆ E ∧
        i = (Y ∪ {[m]}, kcl M' (Y ∪ {[m]})) ∧ i.1 ≠ i.2) as R13.
      { intros i Hi. destruct (j3 i Hi) as (X & Y & ? & ?). exists X, Y. by auto. }
      unfold stable_concept. cbn [push_pre old_stable new_stable min_mod non_min mod_extra new_pre].
      destruct (forallb (λ i, is_respected i (B ∪ {[m]})) (new_stable st)) eqn:HF.
      - rewrite forallb_forall in HF. setoid_rewrite <-elem_of_list_In in HF. setoid_rewrite is_respected_spec in HF.
        rewrite Hclo by done. cbn [mbind res_bind]. intros H. apply Ok_eq in H as <-. case_bool_decide as HC.
        + constructor; cbn [old_stable new_stable min_mod non_min mod_extra new_pre]; try done; try (setoid_rewrite R1; done); try (by rewrite R2).
          * intros X Y. step. intros [?|[= -> ->]] ? ?; [by eapply j4|done].
          * eauto.
          * intros X Y. rewrite elem_of_app, R10, elem_of_list_singleton. step. split.
            -- intros [[?|(U & V & ? & ?)]|[= -> ->]]; [by left|right; exists U, V; by step; auto|].
               right. exists A, B. step. by auto 10.
            -- intros [?|(U & V & HU & ? & ? & ? & ?)]; [by auto|]. apply elem_of_app in HU as [HU|HU]; [|apply elem_of_list_singleton in HU as [= -> ->]];
                 [left; right; by eauto 10|subst; by auto].
          * rewrite pimps_app. cbn. by rewrite app_nil_r.
          * intros X i. rewrite elem_of_app, elem_of_list_singleton. intros [?|?]; [by apply R12|done].
          * intros p. rewrite elem_of_app, elem_of_list_singleton. intros [?| ->]; [by apply R5|].
            right. exists A, B. by step; auto.
          * intros T. destruct (topo_split _ _ T) as [T1 T2]. destruct (j16 T1) as (_ & ?).
            split; [|done]. rewrite map_app. cbn [map]. apply topo_snoc. by split; [apply R6|apply R7].
        + constructor; cbn [old_stable new_stable min_mod non_min mod_extra new_pre]; try done; try (setoid_rewrite R1; done); try (by rewrite R2).
          * intros i. rewrite elem_of_app, elem_of_list_singleton. intros [?| ->]; [by apply R13|].
            exists A, B. step. cbn. by auto 10.
          * intros X Y. rewrite elem_of_app, elem_of_list_singleton.
            setoid_rewrite elem_of_app. setoid_rewrite elem_of_list_singleton. intros [?|[= -> ->]] ? Hr; [eapply j4; by eauto|].
            specialize (Hr _ (or_intror eq_refl)). apply set_eq. intros a. split; [|apply kcl_ext; done].
            revert a. apply Hr. done.
          * intros a b i j Ha Hb Hab. apply lookup_snoc_cases in Ha as [[Ha La]|[La ->]]; apply lookup_snoc_cases in Hb as [[Hb Lb]|[Lb ->]].
            -- by apply (j5 a b).
            -- apply HF. by apply elem_of_list_lookup_2 in Ha.
            -- rewrite La in Hab. by destruct (Nat.lt_asymm _ _ Hab).
            -- rewrite La, Lb in Hab. by destruct (Nat.lt_irrefl _ Hab).
          * eauto.
          * intros X Y. rewrite elem_of_app, R10, elem_of_list_singleton. step. split.
            -- intros [[?|(U & V & ? & ?)]|?]; [by left|right; exists U, V; by step; auto|done].
            -- intros [?|(U & V & HU & ? & ? & ? & ?)]; [by auto|]. apply elem_of_app in HU as [HU|HU]; [|apply elem_of_list_singleton in HU as [= -> ->]];
                 [left; right; by eauto 10|subst; done].
          * rewrite pimps_app, R11. cbn. rewrite <-!app_assoc. do 2 apply Permutation_app_head.
            rewrite Permutation_app_comm. done.
          * intros X i. rewrite elem_of_app, elem_of_list_singleton. intros [?|[= -> ->]]; [by apply R12|].
            destruct Hp as (_ & _ & ->). cbn. by rewrite dn_add.
          * intros p. rewrite elem_of_app, elem_of_list_singleton. intros [?| ->]; [by apply R5|].
            right. exists A, B. by step; auto.
          * intros T. destruct (topo_split _ _ T) as [T1 T2]. destruct (j16 T1) as (_ & t2 & ?).
            split; [|split]; [| |done].
            -- rewrite map_app. cbn [map]. apply topo_snoc. by split; [apply R6|apply R7].
            -- rewrite map_app. cbn [map]. apply topo_snoc. split; [done|]. intros y Hy. apply elem_of_list_fmap in Hy as (i & -> & Hi).
               destruct (j3 i Hi) as (X & Y & HXY & _ & -> & _). cbn. intros Hs. apply (T2 Y).
               { apply elem_of_list_fmap. by exists (PConcept X Y). }
               apply sub_add; [apply Hp|]. etrans; [|exact Hs]. apply union_subseteq_l.
      - intros H. apply Ok_eq in H as <-.
        assert (¬ ∀ i, i ∈ new_stable st → respects (B ∪ {[m]}) i) as HF'.
        { intros Hr. apply not_true_iff_false in HF. apply HF. apply forallb_forall. intros i Hi. apply is_respected_spec, Hr.
          by apply elem_of_list_In. }
        constructor; cbn [old_stable new_stable min_mod non_min mod_extra new_pre]; try done; try (setoid_rewrite R1; done); try (by rewrite R2).
        + intros X Y. step. intros [?|[= -> ->]] ? ?; [by eapply j4|done].
        + eauto.
        + intros X Y. rewrite R10. step. split.
          * intros [?|(U & V & ? & ?)]; [by left|right; exists U, V; by step; auto].
          * intros [?|(U & V & HU & ? & ? & ? & HK)]; [by auto|]. apply elem_of_app in HU as [HU|HU]; [|apply elem_of_list_singleton in HU as [= -> ->]];
              [right; by eauto 10|subst].
            destruct HF'. intros i Hi. destruct (j3 i Hi) as (X' & Y' & ? & _ & -> & _). intros Hs. cbn in *.
            rewrite <-HK. by apply kcl_mono.
        + intros T. destruct (topo_split _ _ T) as [T1 T2]. destruct (j16 T1) as (_ & ?). split; [by apply R6|done].
    Qed.
    Lemma J_snoc_mconc A B done st : A ⊆ E → okp (PConcept A B) → (∀ p, p ∈ done → okp p) → J done st →
      J (done ++ [PConcept A B]) (modified_concept A B m st).
    Proof.
      intros HA Hp Hd [j1 j2 j3 j4 j5 j6 j7 j8 j9 j10 j11 j12 j13 j14 j15 j16].
      assert (∀ X Y, PImp X Y ∈ done ++ [PConcept A B] ↔ PImp X Y ∈ done) as R1.
      { intros. step. naive_solver. }
      assert (pimps (done ++ [PConcept A B]) = pimps done) as R2.
      { rewrite pimps_app. apply app_nil_r. }
      assert (∀ X Y, PConcept X Y ∈ done ++ [PConcept A B] → ¬ X ⊆ E → PConcept X Y ∈ done) as R3.
      { intros X Y. step. intros [?|[= -> ->]] ?; done. }
      assert (∀ X Y, PConcept X Y ∈ done → PConcept X Y ∈ done ++ [PConcept A B]) as R4.
      { intros X Y ?. step. by left. }
      assert (∀ p, p ∈ new_pre st → (∃ q, q ∈ done ++ [PConcept A B] ∧ pset p = pset q) ∨
        ∃ X Y, PConcept X Y ∈ done ++ [PConcept A B] ∧ ¬ X ⊆ E ∧ pset p = Y ∪ {[m]}) as R5.
      { intros p H. destruct (j15 p H) as [(q & ? & ?)|(X & Y & ? & ?)]; [left; exists q; by step; auto|right; exists X, Y; by auto]. }
      assert (∀ i, i ∈ min_mod st → ∃ X, X ⊆ E ∧ ((∃ Y, PConcept X Y ∈ done ++ [PConcept A B] ∧ i = (Y, Y ∪ {[m]})) ∨
        ∃ j, PImp X j ∈ done ++ [PConcept A B] ∧ i = (j.1, j.2 ∪ {[m]}))) as R8.
      { intros i Hi. destruct (j6 i Hi) as (X & ? & [(Y & ? & ?)|(j & ? & ?)]); exists X; (split; [done|]);
          [left; exists Y|right; exists j; rewrite R1]; by auto. }
      assert (∀ p, p ∈ mod_extra st ++ [PConcept A (B ∪ {[m]})] ↔
        ∃ X Y, PConcept X Y ∈ done ++ [PConcept A B] ∧ X ⊆ E ∧ p = PConcept X (Y ∪ {[m]})) as R9.
      { intros p. rewrite elem_of_app, elem_of_list_singleton, j11. split.
        - intros [(X & Y & ? & ? & ?)| ->]; [exists X, Y; by auto|exists A, B; by step; auto].
        - intros (X & Y & HX & ? & ->). apply elem_of_app in HX as [HX|HX]; [left; by eauto|].
          apply elem_of_list_singleton in HX as [= -> ->]. by right. }
      assert (∀ X Y, PConcept X Y ∈ new_pre st ↔ PConcept X Y ∈ done ++ [PConcept A B] ∧ ¬ X ⊆ E ∨
        (∃ U V, PConcept U V ∈ done ++ [PConcept A B] ∧ ¬ U ⊆ E ∧ X = U ∩ E ∧ Y = V ∪ {[m]} ∧ kcl M' Y = Y)) as R10.
      { intros X Y. rewrite j12. split.
        - intros [[? ?]|(U & V & ? & ?)]; [left; by auto|right; exists U, V; by auto].
        - intros [[? ?]|(U & V & ? & ? & ?)]; [left; by auto|right; exists U, V; by auto]. }
      assert (∀ i, i ∈ new_stable st → ∃ X Y, PConcept X Y ∈ done ++ [PConcept A B] ∧ ¬ X ⊆ E ∧
        i = (Y ∪ {[m]}, kcl M' (Y ∪ {[m]})) ∧ i.1 ≠ i.2) as R13.
      { intros i Hi. destruct (j3 i Hi) as (X & Y & ? & ?). exists X, Y. by auto. }
      assert (topo (map pset (done ++ [PConcept A B])) → topo (map pset (mod_extra st ++ [PConcept A (B ∪ {[m]})]))) as R14.
      { intros T. destruct (topo_split _ _ T) as [T1 T2]. rewrite map_app. cbn [map pset]. apply topo_snoc.
        split; [by apply j16|]. intros y Hy. apply elem_of_list_fmap in Hy as (p & -> & Hp2). apply j11 in Hp2 as (X & Y & HXY & _ & ->).
        cbn. intros Hs. apply (T2 Y). { apply elem_of_list_fmap. by exists (PConcept X Y). }
        apply sub_add; [apply Hp|]. etrans; [|exact Hs]. apply union_subseteq_l. }
      unfold modified_concept.
      destruct (existsb (λ j : fimp, bool_decide (j.1 ⊆ B)) (min_mod st)) eqn:HX.
      - apply existsb_exists in HX as (k & Hk & HkB). apply elem_of_list_In in Hk. apply bool_decide_eq_true in HkB.
        constructor; cbn [old_stable new_stable min_mod non_min mod_extra new_pre]; try done; try (setoid_rewrite R1; done);
          try (by rewrite R2).
        + eauto.
        + intros X Y HXY ?. apply elem_of_app in HXY as [?|HXY]; [by eapply j7|].
          apply elem_of_list_singleton in HXY as [= -> ->]. by exists k.
        + intros T. split; [|split; [|split]]; [..|by apply R14]; destruct (topo_split _ _ T) as [T1 T2]; by apply j16.
      - assert (∀ j, j ∈ min_mod st → ¬ j.1 ⊆ B) as HX'.
        { intros j Hj Hs. apply not_true_iff_false in HX. apply HX. apply existsb_exists. exists j. split; [by apply elem_of_list_In|].
          by apply bool_decide_eq_true. }
        constructor; cbn [old_stable new_stable min_mod non_min mod_extra new_pre]; try done; try (setoid_rewrite R1; done);
          try (by rewrite R2).
        + eauto.
        + intros i. rewrite elem_of_app, elem_of_list_singleton. intros [?| ->]; [by apply R8|].
          exists A. split; [done|]. left. exists B. by step; auto.
        + intros X Y HXY ?. setoid_rewrite elem_of_app. setoid_rewrite elem_of_list_singleton. apply elem_of_app in HXY as [?|HXY].
          * destruct (j7 X Y) as (i & ? & ?); [done..|]. exists i. by auto.
          * apply elem_of_list_singleton in HXY as [= -> ->]. exists (B, B ∪ {[m]}). by auto.
        + intros X j. rewrite R1. intros Hj HXE. setoid_rewrite elem_of_app. destruct (j8 X j Hj HXE) as [?|(? & k & ? & ?)]; [by auto|].
          right. split; [done|]. exists k. by auto.
        + intros a b i j Ha Hb Hab. apply lookup_snoc_cases in Ha as [[Ha La]|[La ->]]; apply lookup_snoc_cases in Hb as [[Hb Lb]|[Lb ->]].
          * by apply (j9 a b).
          * apply HX'. by apply elem_of_list_lookup_2 in Ha.
          * rewrite La in Hab. by destruct (Nat.lt_asymm _ _ Hab).
          * rewrite La, Lb in Hab. by destruct (Nat.lt_irrefl _ Hab).
        + intros X Y. rewrite elem_of_app, elem_of_list_singleton, <-R10. naive_solver.
        + rewrite pimps_app, j13. cbn. by rewrite <-!app_assoc.
        + intros X i. rewrite elem_of_app, elem_of_list_singleton. intros [?|[= -> ->]]; [by apply j14|]. apply Hp.
        + intros p. rewrite elem_of_app, elem_of_list_singleton. intros [?| ->]; [by apply R5|].
          left. exists (PConcept A B). by step; auto.
        + intros T. split; [|split; [|split]]; [| | |by apply R14]; destruct (topo_split _ _ T) as [T1 T2]; destruct (j16 T1) as (t1 & t2 & t3 & t4).
          * rewrite map_app. cbn [map]. apply topo_snoc. split; [done|]. by apply (fresh done _ (PConcept A B)).
          * done.
          * rewrite map_app. cbn [map]. apply topo_snoc. split; [done|]. intros y Hy. apply elem_of_list_fmap in Hy as (i & -> & Hi).
            cbn [fst]. apply (T2 i.1). destruct (j6 i Hi) as (X & _ & [(Y & ? & ->)|(j & ? & ->)]); apply elem_of_list_fmap;
              [by exists (PConcept X Y)|by exists (PImp X j)].
    Qed.
    Lemma J_snoc_mimp A i0 done st : A ⊆ E → okp (PImp A i0) → (∀ p, p ∈ done → okp p) → J done st →
      J (done ++ [PImp A i0]) (modified_implication A i0 m st).
    Proof.
      intros HA Hp Hd [j1 j2 j3 j4 j5 j6 j7 j8 j9 j10 j11 j12 j13 j14 j15 j16].
      assert (∀ X Y, PConcept X Y ∈ done ++ [PImp A i0] ↔ PConcept X Y ∈ done) as R1.
      { intros. step. naive_solver. }
      assert (old_stable st `sublist_of` pimps (done ++ [PImp A i0])) as R2.
      { rewrite pimps_app. by apply sublist_inserts_r. }
      assert (∀ X Y, PImp X Y ∈ done → PImp X Y ∈ done ++ [PImp A i0]) as R4.
      { intros X Y ?. step. by left. }
      assert (∀ i, i ∈ old_stable st ↔ ∃ X, PImp X i ∈ done ++ [PImp A i0] ∧ ¬ X ⊆ E) as R3.
      { intros i. rewrite j1. split; intros (X & HX & HXE); exists X; [by auto|]. apply elem_of_app in HX as [HX|HX]; [done|].
        apply elem_of_list_singleton in HX as [= -> ->]. done. }
      assert (∀ p, p ∈ new_pre st → (∃ q, q ∈ done ++ [PImp A i0] ∧ pset p = pset q) ∨
        ∃ X Y, PConcept X Y ∈ done ++ [PImp A i0] ∧ ¬ X ⊆ E ∧ pset p = Y ∪ {[m]}) as R5.
      { intros p H. destruct (j15 p H) as [(q & ? & ?)|(X & Y & ? & ?)]; [left; exists q; by step; auto|right; exists X, Y; by rewrite R1]. }
      assert (∀ i, i ∈ min_mod st → ∃ X, X ⊆ E ∧ ((∃ Y, PConcept X Y ∈ done ++ [PImp A i0] ∧ i = (Y, Y ∪ {[m]})) ∨
        ∃ j, PImp X j ∈ done ++ [PImp A i0] ∧ i = (j.1, j.2 ∪ {[m]}))) as R8.
      { intros i Hi. destruct (j6 i Hi) as (X & ? & [(Y & ? & ?)|(j & ? & ?)]); exists X; (split; [done|]);
          [left; exists Y; by rewrite R1|right; exists j; by auto]. }
      assert (∀ X i, (X, i) ∈ non_min st → ∃ j, PImp X j ∈ done ++ [PImp A i0] ∧ X ⊆ E ∧ i = (j.1 ∪ {[m]}, j.2 ∪ {[m]})) as R9.
      { intros X i Hi. destruct (j10 X i Hi) as (j & ? & ?). exists j. by auto. }
      unfold modified_implication.
      destruct (existsb (λ j : fimp, bool_decide (j.1 ⊆ i0.1)) (min_mod st)) eqn:HX.
      - apply existsb_exists in HX as (k & Hk & HkB). apply elem_of_list_In in Hk. apply bool_decide_eq_true in HkB.
        constructor; cbn [old_stable new_stable min_mod non_min mod_extra new_pre]; try done; try (setoid_rewrite R1; done).
        + intros X j HXY ?. rewrite elem_of_app, elem_of_list_singleton. apply elem_of_app in HXY as [?|HXY].
          * destruct (j8 X j) as [?|[? ?]]; [done..|by left|right]. by auto.
          * apply elem_of_list_singleton in HXY as [= -> ->]. right. split; [by right|]. by exists k.
        + intros X i. rewrite elem_of_app, elem_of_list_singleton. intros [?|[= -> ->]]; [by apply R9|].
          exists i0. by step; auto.
        + intros T. destruct (topo_split _ _ T) as [T1 T2]. by apply j16.
      - assert (∀ j, j ∈ min_mod st → ¬ j.1 ⊆ i0.1) as HX'.
        { intros j Hj Hs. apply not_true_iff_false in HX. apply HX. apply existsb_exists. exists j. split; [by apply elem_of_list_In|].
          by apply bool_decide_eq_true. }
        constructor; cbn [old_stable new_stable min_mod non_min mod_extra new_pre]; try done; try (setoid_rewrite R1; done).
        + intros i. rewrite elem_of_app, elem_of_list_singleton. intros [?| ->]; [by apply R8|].
          exists A. split; [done|]. right. exists i0. by step; auto.
        + intros X Y. rewrite R1. intros HXY ?. setoid_rewrite elem_of_app.
          destruct (j7 X Y) as (i & ? & ?); [done..|]. exists i. by auto.
        + intros X j HXY ?. setoid_rewrite elem_of_app. rewrite elem_of_list_singleton. apply elem_of_app in HXY as [?|HXY].
          * destruct (j8 X j) as [?|(? & k & ? & ?)]; [done..|by auto|right]. split; [done|]. exists k. by auto.
          * apply elem_of_list_singleton in HXY as [= -> ->]. left. by right.
        + intros a b i j Ha Hb Hab. apply lookup_snoc_cases in Ha as [[Ha La]|[La ->]]; apply lookup_snoc_cases in Hb as [[Hb Lb]|[Lb ->]].
          * by apply (j9 a b).
          * apply HX'. by apply elem_of_list_lookup_2 in Ha.
          * rewrite La in Hab. by destruct (Nat.lt_asymm _ _ Hab).
          * rewrite La, Lb in Hab. by destruct (Nat.lt_irrefl _ Hab).
        + intros X Y. rewrite elem_of_app, elem_of_list_singleton, j12. setoid_rewrite R1. naive_solver.
        + rewrite pimps_app, j13. cbn. by rewrite <-!app_assoc.
        + intros X i. rewrite elem_of_app, elem_of_list_singleton. intros [?|[= -> ->]]; [by apply j14|]. apply Hp.
        + intros p. rewrite elem_of_app, elem_of_list_singleton. intros [?| ->]; [by apply R5|].
          left. exists (PImp A i0). by step; auto.
        + intros T. destruct (topo_split _ _ T) as [T1 T2]; destruct (j16 T1) as (t1 & t2 & t3 & t4).
          split; [|split; [|split]]; [|done| |done].
          * rewrite map_app. cbn [map]. apply topo_snoc. split; [done|]. by apply (fresh done _ (PImp A i0)).
          * rewrite map_app. cbn [map]. apply topo_snoc. split; [done|]. intros y Hy. apply elem_of_list_fmap in Hy as (i & -> & Hi).
            cbn [fst]. apply (T2 i.1). destruct (j6 i Hi) as (X & _ & [(Y & ? & ->)|(j & ? & ->)]); apply elem_of_list_fmap;
              [by exists (PConcept X Y)|by exists (PImp X j)].
    Qed.
    Lemma update_loop_ok l : ∀ done st, (∀ p, p ∈ done ++ l → okp p) → J done st →
      ∃ st', update_loop m E clo l st = Ok st' ∧ J (done ++ l) st'.
    Proof.
      induction l as [|p l IH]; intros done st Ho HJ.
      { exists st. by rewrite app_nil_r. }
      assert (∃ st1, update_one m E clo p st = Ok st1 ∧ J (done ++ [p]) st1) as (st1 & H1 & HJ1).
      { assert (okp p) as Hp. { apply Ho. rewrite elem_of_app, elem_of_cons. auto. }
        assert (∀ q, q ∈ done → okp q) as Hd. { intros q Hq. apply Ho. rewrite elem_of_app. auto. }
        unfold update_one. case_bool_decide as HE; destruct p as [A B|A i]; cbn in HE.
        - eexists. split; [done|]. by apply J_snoc_mconc.
        - eexists. split; [done|]. by apply J_snoc_mimp.
        - assert (∃ st1, stable_concept A B m E clo (push_pre (PConcept A B) st) = Ok st1) as (st1 & H1).
          { unfold stable_concept. destruct (forallb _ _); [|by eexists]. rewrite Hclo; [by eexists|].
            unfold M'. destruct Hp as [Hp _]. by apply union_mono_r. }
          exists st1. split; [done|]. by eapply J_snoc_stable.
        - eexists. split; [done|]. by apply J_snoc_old. }
      destruct (IH (done ++ [p]) st1) as (st2 & H2 & HJ2).
      { intros q. rewrite <-app_assoc. apply Ho. }
      { done. }
      exists st2. cbn [update_loop]. rewrite H1. cbn [mbind res_bind]. split; [done|]. by rewrite <-app_assoc in HJ2.
    Qed.
    Lemma J_nil : J [] (UState [] [] [] [] [] []).
    Proof.
      constructor; cbn [old_stable new_stable min_mod non_min mod_extra new_pre map]; try (by intros; set_solver); try done.
      all: try (intros; by apply elem_of_nil in H).
    Qed.
  End round.
End algo.
