(** * Norris' algorithm finds every concept exactly once *)
From Verif Require Import Py Spec PyFacts SpecFacts ContextModel ContextSpec ContextFacts LatticeModel.

Section norris.
  Context (M : gset name).
  Local Notation rows := (list (name * gset name)).
  (** The objects of [prev] having all of [B]; sets closed in the context of these rows. *)
  Definition rext (prev : rows) (B : gset name) : gset name :=
    list_to_set (map fst (List.filter (fun p => bool_decide (B ⊆ p.2)) prev)).
  Definition rclosed (prev : rows) (B : gset name) : Prop :=
    B ⊆ M ∧ ∀ x, x ∈ M → (∀ p, p ∈ prev → B ⊆ p.2 → x ∈ p.2) → x ∈ B.
  Lemma elem_of_rext prev B g : g ∈ rext prev B ↔ ∃ r, (g, r) ∈ prev ∧ B ⊆ r.
  Proof.
    unfold rext. rewrite elem_of_list_to_set, elem_of_list_fmap. split.
    - intros ([g' r] & -> & H%elem_of_list_In). apply filter_In in H as [H1%elem_of_list_In H2]. exists r. simpl in H2.
      by apply bool_decide_eq_true in H2.
    - intros (r & H1 & H2). exists (g, r). split; [done|]. apply elem_of_list_In, filter_In.
      split; [by apply elem_of_list_In|]. by apply bool_decide_eq_true.
  Qed.
  Definition rcl (prev : rows) (B : gset name) : gset name :=
    filter (fun x => Forall (fun p : name * gset name => B ⊆ p.2 → x ∈ p.2) prev) M.
  Lemma elem_of_rcl prev B x : x ∈ rcl prev B ↔ x ∈ M ∧ ∀ p, p ∈ prev → B ⊆ p.2 → x ∈ p.2.
  Proof. unfold rcl. rewrite elem_of_filter, Forall_forall. tauto. Qed.
  Lemma rcl_ext prev B : B ⊆ M → B ⊆ rcl prev B.
  Proof. intros H x Hx. apply elem_of_rcl. split; [by apply H|]. intros p _ Hp. by apply Hp. Qed.
  Lemma rcl_rows prev B p : p ∈ prev → B ⊆ p.2 → rcl prev B ⊆ p.2.
  Proof. intros Hp HB x Hx. apply elem_of_rcl in Hx as [_ H]. by apply H. Qed.
  Lemma rcl_closed prev B : B ⊆ M → rclosed prev (rcl prev B).
  Proof.
    intros HB. split; [intros x Hx; by apply elem_of_rcl in Hx as []|]. intros x Hx H. apply elem_of_rcl. split; [done|].
    intros p Hp HBp. apply (H p Hp). by apply rcl_rows.
  Qed.

  Record inv (prev : rows) (cs : list fconcept) : Prop := {
    inv_ext : ∀ x, x ∈ cs → x.1 = rext prev x.2;
    inv_closed : ∀ x, x ∈ cs → rclosed prev x.2;
    inv_all : ∀ B, rclosed prev B → B ∈ map snd cs;
    inv_nodup : NoDup (map snd cs) }.

  Section step.
    Context (prev : rows) (o : name) (ex : gset name) (cs : list fconcept).
    Context (Hnd : NoDup (map fst (prev ++ [(o, ex)]))) (Hex : ex ⊆ M) (Hinv : inv prev cs).
    Local Notation row := (o, ex).
    Lemma prev_unique p q : p ∈ prev → q ∈ prev → p.1 = q.1 → p = q.
    Proof.
      rewrite map_app in Hnd. apply NoDup_app in Hnd as (H & _ & _). clear -H.
      intros [i Hi]%elem_of_list_lookup [j Hj]%elem_of_list_lookup E.
      assert (i = j) as <-; [|congruence].
      eapply (NoDup_lookup (map fst prev)); [done|rewrite list_lookup_fmap, Hi; done|].
      rewrite list_lookup_fmap, Hj. simpl. by rewrite E.
    Qed.
    (** The concept creates a new one. *)
    Definition gen (B : gset name) : Prop :=
      ¬ B ⊆ ex ∧ ∀ p, p ∈ prev → B ∩ ex ⊆ p.2 → B ⊆ p.2.
    Lemma norris_new_gen x : x ∈ cs → ¬ x.2 ⊆ ex →
      norris_new prev x.1 (x.2 ∩ ex) = true ↔ gen x.2.
    Proof.
      intros Hx Hn. unfold norris_new, gen. rewrite forallb_forall. split.
      - intros H. split; [done|]. intros p Hp HN. specialize (H p (proj1 (elem_of_list_In _ _) Hp)).
        apply negb_true_iff, andb_false_iff in H as [H|H]; apply bool_decide_eq_false in H; [done|].
        apply dec_stable in H. rewrite (inv_ext _ _ Hinv x Hx) in H.
        apply elem_of_rext in H as (r & H1 & H2). by rewrite (prev_unique p (p.1, r) Hp H1 eq_refl).
      - intros [_ H] p Hp%elem_of_list_In. apply negb_true_iff, andb_false_iff.
        destruct (decide (x.2 ∩ ex ⊆ p.2)) as [HN|HN]; [right|left; by apply bool_decide_eq_false].
        apply bool_decide_eq_false. intros Hout. apply Hout. rewrite (inv_ext _ _ Hinv x Hx).
        apply elem_of_rext. exists p.2. split; [by destruct p|]. by apply H.
    Qed.
    Lemma norris_one_eq x : x ∈ cs →
      (x.2 ⊆ ex ∧ norris_one prev row x = ((x.1 ∪ {[o]}, x.2), None)) ∨
      (gen x.2 ∧ norris_one prev row x = (x, Some ({[o]} ∪ x.1, x.2 ∩ ex))) ∨
      (¬ x.2 ⊆ ex ∧ ¬ gen x.2 ∧ norris_one prev row x = (x, None)).
    Proof.
      intros Hx. unfold norris_one. simpl. case_bool_decide as Hs; [by left|]. right.
      destruct (norris_new prev x.1 (x.2 ∩ ex)) eqn:E.
      - left. split; [|done]. by apply norris_new_gen.
      - right. split; [done|]. split; [|done]. intros Hg. apply (norris_new_gen x Hx Hs) in Hg. congruence.
    Qed.
    Lemma rext_snoc B : rext (prev ++ [row]) B = if bool_decide (B ⊆ ex) then rext prev B ∪ {[o]} else rext prev B.
    Proof.
      apply set_eq. intros g. rewrite elem_of_rext. setoid_rewrite elem_of_app. setoid_rewrite elem_of_list_singleton.
      case_bool_decide as HB.
      - rewrite elem_of_union, elem_of_singleton, elem_of_rext. split.
        + intros (r & [Hr| [= -> ->]] & Hs); [left; by exists r|by right].
        + intros [(r & Hr & Hs)| ->]; [exists r; auto|exists ex; auto].
      - rewrite elem_of_rext. split.
        + intros (r & [Hr| [= -> ->]] & Hs); [by exists r|done].
        + intros (r & Hr & Hs). exists r. auto.
    Qed.
    Lemma rclosed_old B : rclosed prev B → rclosed (prev ++ [row]) B.
    Proof.
      intros [HB H]. split; [done|]. intros x Hx Hp. apply H; [done|]. intros p Hpp. apply Hp. apply elem_of_app. by left.
    Qed.
    Lemma rclosed_new B : rclosed prev B → gen B → rclosed (prev ++ [row]) (B ∩ ex).
    Proof.
      intros [HB H] [_ Hg]. split; [clear -HB; set_solver|]. intros x Hx Hp. apply elem_of_intersection. split.
      - apply H; [done|]. intros p Hpp HBp. apply (Hp p); [apply elem_of_app; by left|]. clear -HBp. set_solver.
      - apply (Hp row); [apply elem_of_app; right; by left|]. simpl. clear. set_solver.
    Qed.
    Lemma rclosed_snoc B : rclosed (prev ++ [row]) B → rclosed prev B ∨ ∃ B0, rclosed prev B0 ∧ gen B0 ∧ B = B0 ∩ ex.
    Proof.
      intros [HB H]. destruct (decide (B ⊆ ex)) as [Hs|Hs].
      - pose proof (rcl_closed prev B HB) as H0. assert (B = rcl prev B ∩ ex) as E.
        { apply set_eq. intros x. split.
          - intros Hx. apply elem_of_intersection. split; [by apply rcl_ext|by apply Hs].
          - intros [H1 H2]%elem_of_intersection. apply elem_of_rcl in H1 as [H1 H3]. apply H; [done|].
            intros p [Hp| ->%elem_of_list_singleton]%elem_of_app HBp; [by apply H3|done]. }
        destruct (decide (rcl prev B ⊆ ex)) as [Hc|Hc].
        + left. assert (B = rcl prev B) as ->; [|done]. rewrite E at 1. clear -Hc. set_solver.
        + right. exists (rcl prev B). split; [done|]. split; [|done]. split; [done|].
          intros p Hp. rewrite <-E. by apply rcl_rows.
      - left. split; [done|]. intros x Hx Hp. apply H; [done|].
        intros p [Hpp| ->%elem_of_list_singleton]%elem_of_app HBp; [by apply Hp|done].
    Qed.
    Lemma gen_unique B1 B2 : rclosed prev B1 → rclosed prev B2 → gen B1 → gen B2 → B1 ∩ ex = B2 ∩ ex → B1 = B2.
    Proof.
      assert (∀ B1 B2, rclosed prev B1 → rclosed prev B2 → gen B1 → B1 ∩ ex = B2 ∩ ex → B1 ⊆ B2) as H.
      { intros C1 C2 [H1 _] [H2 H2'] [_ Hg] E x Hx. apply H2'; [by apply H1|]. intros p Hp HC2.
        apply (Hg p Hp); [|done]. rewrite E. clear -HC2. set_solver. }
      intros. apply set_eq. intros x. split; [by apply (H B1 B2)|by apply (H B2 B1)].
    Qed.
    Lemma gen_not_old B : rclosed prev B → gen B → ¬ rclosed prev (B ∩ ex).
    Proof.
      intros [HB _] [Hn Hg] [_ H]. apply Hn. intros x Hx.
      assert (x ∈ B ∩ ex) as Hi; [|clear -Hi; set_solver]. apply H; [by apply HB|].
      intros p Hp HN. by apply (Hg p Hp HN).
    Qed.
    Definition step_cs : list fconcept :=
      map fst (map (norris_one prev row) cs) ++ omap snd (map (norris_one prev row) cs).
    Lemma elem_of_news y : y ∈ omap snd (map (norris_one prev row) cs) ↔
      ∃ x, x ∈ cs ∧ gen x.2 ∧ y = ({[o]} ∪ x.1, x.2 ∩ ex).
    Proof.
      rewrite elem_of_list_omap. split.
      - intros (r & (x & -> & Hx)%elem_of_list_fmap & Hr). exists x. split; [done|].
        destruct (norris_one_eq x Hx) as [[_ E]|[[Hg E]|(_ & _ & E)]]; rewrite E in Hr; simpl in Hr; [done| |done].
        by injection Hr as <-.
      - intros (x & Hx & Hg & ->). exists (norris_one prev row x). split; [by apply elem_of_list_fmap_1|].
        destruct (norris_one_eq x Hx) as [[Hs E]|[[_ E]|(_ & Hn & E)]]; [by destruct Hg|by rewrite E|done].
    Qed.
    Lemma elem_of_olds y : y ∈ map fst (map (norris_one prev row) cs) ↔
      ∃ x, x ∈ cs ∧ y = (rext (prev ++ [row]) x.2, x.2).
    Proof.
      rewrite map_map, elem_of_list_fmap. apply exist_proper. intros x. split.
      - intros [-> Hx]. split; [done|]. rewrite rext_snoc, <-(inv_ext _ _ Hinv x Hx).
        destruct (norris_one_eq x Hx) as [[Hs E]|[[[Hs _] E]|(Hs & _ & E)]]; rewrite E; simpl.
        + by rewrite bool_decide_true by done.
        + rewrite bool_decide_false by done. by destruct x.
        + rewrite bool_decide_false by done. by destruct x.
      - intros [Hx ->]. split; [|done]. rewrite rext_snoc, <-(inv_ext _ _ Hinv x Hx).
        destruct (norris_one_eq x Hx) as [[Hs E]|[[[Hs _] E]|(Hs & _ & E)]]; rewrite E; simpl.
        + by rewrite bool_decide_true by done.
        + rewrite bool_decide_false by done. by destruct x.
        + rewrite bool_decide_false by done. by destruct x.
    Qed.
    Lemma olds_snd : map snd (map fst (map (norris_one prev row) cs)) = map snd cs.
    Proof.
      rewrite !map_map. apply map_ext_in. intros x _. unfold norris_one. simpl.
      destruct (bool_decide _); [done|]. by destruct (norris_new _ _ _).
    Qed.
    Lemma news_nodup : NoDup (map snd (omap snd (map (norris_one prev row) cs))).
    Proof.
      assert (∀ l, (∀ x, x ∈ l → x ∈ cs) → NoDup (map snd l) → NoDup (map snd (omap snd (map (norris_one prev row) l)))) as H;
        [|apply H; [done|apply Hinv]].
      intros l. induction l as [|x l IH]; intros Hl Hn; [constructor|]. simpl. apply NoDup_cons in Hn as [Hx Hn].
      assert (NoDup (map snd (omap snd (map (norris_one prev row) l)))) as IH' by (apply IH; [intros; apply Hl; by right|done]).
      destruct (norris_one_eq x) as [[_ ->]|[[Hg ->]|(_ & _ & ->)]]; [apply Hl; by left|done| |done].
      simpl. apply NoDup_cons. split; [|done]. intros (y & Ey & Hy)%elem_of_list_fmap. apply Hx.
      apply elem_of_list_omap in Hy as (r & (z & -> & Hz)%elem_of_list_fmap & Hr).
      assert (z ∈ cs) as Hzc by (apply Hl; by right).
      destruct (norris_one_eq z Hzc) as [[_ E]|[[Hgz E]|(_ & _ & E)]]; rewrite E in Hr; simpl in Hr; [done| |done].
      injection Hr as <-. simpl in Ey.
      rewrite (gen_unique x.2 z.2); [by apply elem_of_list_fmap_1| | |done|done|done].
      - apply (inv_closed _ _ Hinv), Hl. by left.
      - by apply (inv_closed _ _ Hinv).
    Qed.
    Lemma news_ext y : y ∈ omap snd (map (norris_one prev row) cs) → y.1 = rext (prev ++ [row]) y.2 ∧ rclosed (prev ++ [row]) y.2.
    Proof.
      intros (x & Hx & Hg & ->)%elem_of_news. simpl. split; [|by apply rclosed_new; [apply (inv_closed _ _ Hinv)|]].
      rewrite rext_snoc, bool_decide_true by (clear; set_solver). rewrite (inv_ext _ _ Hinv x Hx).
      assert (rext prev (x.2 ∩ ex) = rext prev x.2) as ->; [|clear; set_solver].
      apply set_eq. intros g. rewrite !elem_of_rext. split.
      - intros (r & Hr & Hs). exists r. split; [done|]. by apply (proj2 Hg (g, r)).
      - intros (r & Hr & Hs). exists r. split; [done|]. clear -Hs. set_solver.
    Qed.
    Lemma inv_step : inv (prev ++ [row]) step_cs.
    Proof.
      split.
      - intros y [Hy|Hy]%elem_of_app; [|by apply news_ext]. apply elem_of_olds in Hy as (x & _ & ->). done.
      - intros y [Hy|Hy]%elem_of_app; [|by apply news_ext]. apply elem_of_olds in Hy as (x & Hx & ->).
        apply rclosed_old. simpl. by apply (inv_closed _ _ Hinv).
      - intros B HB. unfold step_cs. rewrite map_app, elem_of_app, olds_snd.
        destruct (rclosed_snoc B HB) as [H|(B0 & H0 & Hg & ->)]; [left; by apply (inv_all _ _ Hinv)|right].
        apply (inv_all _ _ Hinv) in H0. apply elem_of_list_fmap in H0 as (x & -> & Hx).
        apply elem_of_list_fmap. exists ({[o]} ∪ x.1, x.2 ∩ ex). split; [done|]. apply elem_of_news. by exists x.
      - unfold step_cs. rewrite map_app. apply NoDup_app. split; [rewrite olds_snd; apply Hinv|]. split; [|apply news_nodup].
        rewrite olds_snd. intros B H1 H2. apply elem_of_list_fmap in H2 as (y & -> & Hy).
        apply elem_of_news in Hy as (x & Hx & Hg & ->). simpl in H1. apply elem_of_list_fmap in H1 as (z & E & Hz).
        apply (gen_not_old x.2); [by apply (inv_closed _ _ Hinv)|done|]. rewrite E. by apply (inv_closed _ _ Hinv).
    Qed.
  End step.

  (** What is known about the trace: same intents as the final list, and each
      extent as of the moment of the yield. *)
  Definition trace_ok (all : rows) (y : fconcept) : Prop :=
    ∃ i, i ≤ length all ∧ y.1 = rext (take i all) y.2 ∧
      (i = 0 ∨ ∃ p, all !! pred i = Some p ∧ p.1 ∈ y.1).
  Lemma norris_rows_spec prev rs cs tr :
    NoDup (map fst (prev ++ rs)) → (∀ p, p ∈ rs → p.2 ⊆ M) → inv prev cs →
    map snd tr = map snd cs → (∀ y, y ∈ tr → trace_ok (prev ++ rs) y) →
    inv (prev ++ rs) (norris_rows prev rs cs tr).1 ∧
    map snd (norris_rows prev rs cs tr).2 = map snd (norris_rows prev rs cs tr).1 ∧
    (∀ y, y ∈ (norris_rows prev rs cs tr).2 → trace_ok (prev ++ rs) y) ∧
    ∃ k, (norris_rows prev rs cs tr).2 = tr ++ k.
  Proof.
    revert prev cs tr. induction rs as [|[o ex] rs IH]; intros prev cs tr Hnd HM Hinv Htr Hok.
    - rewrite app_nil_r in *. simpl. split; [done|]. split; [done|]. split; [done|]. exists []. by rewrite app_nil_r.
    - simpl. assert (prev ++ (o, ex) :: rs = (prev ++ [(o, ex)]) ++ rs) as E by by rewrite <-app_assoc.
      assert (NoDup (map fst (prev ++ [(o, ex)]))) as Hnd1.
      { rewrite E, map_app in Hnd. by apply NoDup_app in Hnd as (? & _). }
      assert (ex ⊆ M) as Hex by (apply (HM (o, ex)); by left).
      assert (inv (prev ++ [(o, ex)]) (step_cs prev o ex cs)) as Hinv1 by (by apply inv_step).
      destruct (IH (prev ++ [(o, ex)]) (step_cs prev o ex cs) (tr ++ omap snd (map (norris_one prev (o, ex)) cs)))
        as (H1 & H2 & H3 & k & H4).
      + by rewrite <-E.
      + intros p Hp. apply HM. by right.
      + done.
      + unfold step_cs. rewrite !map_app, Htr, olds_snd. done.
      + intros y [Hy|Hy]%elem_of_app; rewrite <-E; [by apply Hok|].
        destruct (news_ext prev o ex cs Hnd1 Hinv y Hy) as [Hy1 _]. exists (S (length prev)). split; [rewrite app_length; simpl; lia|].
        split.
        * rewrite E. rewrite take_app_alt; [done|]. rewrite app_length. simpl. lia.
        * right. exists (o, ex). split; [by rewrite lookup_app_r, Nat.sub_diag by (simpl; lia)|].
          apply elem_of_news in Hy as (x & _ & _ & ->); [|done|done]. simpl. clear. set_solver.
      + rewrite E. split; [done|]. split; [done|]. split; [done|]. exists (omap snd (map (norris_one prev (o, ex)) cs) ++ k).
        unfold step_cs in H4. rewrite H4. by rewrite <-app_assoc.
  Qed.
End norris.

Section cxt.
  Context (c : context) (Hg : good c).
  Local Notation K := (abs c).
  Definition cxt_rows : list (name * gset name) := map (fun g => (g, up K {[g]})) (objs c).
  Local Lemma elem_of_fG g : g ∈ fG K ↔ g ∈ objs c.
  Proof. by apply elem_of_list_to_set. Qed.
  Lemma examples_eq : examples c = Ok (map (fun g => up K {[g]}) (objs c)).
  Proof.
    unfold examples. assert (∀ l k, objs c = k ++ l →
      mapM (get_object_intent_by_index c) (seq (length k) (length l)) = Ok (map (fun g => up K {[g]}) l)) as H.
    { induction l as [|g l IH]; intros k E; [done|]. simpl. rewrite (get_object_intent_by_index_spec c) with (g := g).
      - simpl. specialize (IH (k ++ [g])). rewrite app_length in IH. simpl in IH. rewrite Nat.add_1_r in IH.
        rewrite IH; [done|]. by rewrite <-app_assoc.
      - apply Hg.
      - rewrite E, lookup_app_r, Nat.sub_diag by lia. done. }
    apply (H (objs c) []). done.
  Qed.
  Lemma rows_eq : take (length (np c)) (zip (objs c) (map (fun g => up K {[g]}) (objs c))) = cxt_rows.
  Proof.
    rewrite (wf_rows c (good_wf c Hg)). unfold cxt_rows.
    rewrite take_ge by (rewrite zip_with_length, map_length; lia).
    generalize (objs c). intros l. induction l as [|g l IH]; [done|]. simpl. by rewrite IH.
  Qed.
  Lemma elem_of_cxt_rows p : p ∈ cxt_rows ↔ p.1 ∈ objs c ∧ p.2 = up K {[p.1]}.
  Proof.
    unfold cxt_rows. rewrite elem_of_list_fmap. split.
    - by intros (g & -> & Hgo).
    - intros [H1 H2]. exists p.1. split; [|done]. destruct p. simpl in *. by rewrite H2.
  Qed.
  Lemma sub_up_single B g : B ⊆ fM K → B ⊆ up K {[g]} ↔ ∀ m, m ∈ B → (g, m) ∈ fI K.
  Proof.
    intros HB. split.
    - intros H m Hm. apply H in Hm. apply elem_of_up in Hm as [_ Hm]. apply Hm. by apply elem_of_singleton.
    - intros H m Hm. apply elem_of_up. split; [by apply HB|]. intros g' ->%elem_of_singleton. by apply H.
  Qed.
  Lemma rext_take i B g : B ⊆ fM K → g ∈ rext (take i cxt_rows) B ↔ g ∈ take i (objs c) ∧ ∀ m, m ∈ B → (g, m) ∈ fI K.
  Proof.
    intros HB. rewrite elem_of_rext. unfold cxt_rows. rewrite firstn_map. setoid_rewrite elem_of_list_fmap. split.
    - intros (r & (g' & [= -> ->] & Hin) & Hs). split; [done|]. by apply sub_up_single.
    - intros [H1 H2]. exists (up K {[g]}). split; [by exists g|]. by apply sub_up_single.
  Qed.
  Lemma rext_down B : B ⊆ fM K → rext cxt_rows B = down K B.
  Proof.
    intros HB. apply set_eq. intros g. pose proof (rext_take (length (objs c)) B g HB) as H.
    unfold cxt_rows in *. rewrite take_ge in H by by rewrite map_length. rewrite H, take_ge by done.
    rewrite elem_of_down, elem_of_fG. tauto.
  Qed.
  Lemma rclosed_concept B : rclosed (fM K) cxt_rows B ↔ is_concept K (down K B) B.
  Proof.
    split.
    - intros [HB H]. split; [apply down_sub|]. split; [done|]. split; [|done]. apply set_eq. intros m. split.
      + intros [Hm Hall]%elem_of_up. apply H; [done|]. intros [g r] [Hp1 Hp2]%elem_of_cxt_rows HBp. simpl in *. subst r.
        apply elem_of_up. split; [done|]. intros g' ->%elem_of_singleton. apply Hall, elem_of_down.
        split; [by apply elem_of_fG|]. by apply sub_up_single.
      + intros Hm. apply elem_of_up. split; [by apply HB|]. intros g Hgd. apply elem_of_down in Hgd as [_ Hgd]. by apply Hgd.
    - intros (_ & HB & E & _). split; [done|]. intros x Hx H. rewrite <-E. apply elem_of_up. split; [done|].
      intros g [Hg1 Hg2]%elem_of_down. assert (x ∈ up K {[g]}) as Hxg.
      { apply (H (g, up K {[g]})); [apply elem_of_cxt_rows; split; [by apply elem_of_fG|done]|]. by apply sub_up_single. }
      apply elem_of_up in Hxg as [_ Hxg]. apply Hxg. by apply elem_of_singleton.
  Qed.
  Lemma norris_run_spec : ∃ cs tr, norris_run c = Ok (cs, tr) ∧ inv (fM K) cxt_rows cs ∧
    map snd tr = map snd cs ∧ (∀ y, y ∈ tr → trace_ok cxt_rows y) ∧ ∃ k, tr = (∅, fM K) :: k.
  Proof.
    unfold norris_run. rewrite examples_eq. cbn [mbind res_bind]. rewrite rows_eq.
    destruct (norris_rows_spec (fM K) [] cxt_rows [(∅, fM K)] [(∅, fM K)]) as (H1 & H2 & H3 & k & H4).
    - simpl. unfold cxt_rows. rewrite map_map. simpl. rewrite map_id. apply Hg.
    - intros p [_ ->]%elem_of_cxt_rows. apply up_sub.
    - split.
      + intros x ->%elem_of_list_singleton. simpl. done.
      + intros x ->%elem_of_list_singleton. simpl. split; [done|]. done.
      + intros B [HB H]. simpl. apply elem_of_list_singleton. apply set_eq. intros x. split; [by apply HB|].
        intros Hx. apply H; [done|]. by intros p ?%elem_of_nil.
      + simpl. apply NoDup_singleton.
    - done.
    - intros y ->%elem_of_list_singleton. exists 0. split; [lia|]. split; [done|]. by left.
    - simpl in *. destruct (norris_rows _ _ _ _) as [cs tr]. simpl in *. exists cs, tr.
      split; [done|]. split; [done|]. split; [done|]. split; [done|]. by exists k.
  Qed.
  Lemma norris_inv_concepts cs : inv (fM K) cxt_rows cs →
    NoDup cs ∧ NoDup (map snd cs) ∧ ∀ A B, (A, B) ∈ cs ↔ is_concept K A B.
  Proof.
    intros H. split; [apply (NoDup_fmap_1 snd), H|]. split; [apply H|]. intros A B. split.
    - intros Hx. pose proof (inv_closed _ _ _ H _ Hx) as Hc. pose proof (inv_ext _ _ _ H _ Hx) as He. simpl in *.
      pose proof (proj1 Hc) as HB. rewrite rext_down in He by done. subst A. by apply rclosed_concept.
    - intros (HA & HB & H1 & H2). assert (rclosed (fM K) cxt_rows B) as Hc.
      { apply rclosed_concept. rewrite H2. done. }
      apply (inv_all _ _ _ H) in Hc. apply elem_of_list_fmap in Hc as ([A' B'] & E & Hin). simpl in E. subst B'.
      pose proof (inv_ext _ _ _ H _ Hin) as He. simpl in He. rewrite rext_down, H2 in He by done. by subst A'.
  Qed.
  Lemma norris_spec : ∃ cs, norris c = Ok cs ∧ NoDup cs ∧ NoDup (map snd cs) ∧ ∀ A B, (A, B) ∈ cs ↔ is_concept K A B.
  Proof.
    destruct norris_run_spec as (cs & tr & Hr & Hi & _). exists cs. unfold norris. rewrite Hr. split; [done|].
    by apply norris_inv_concepts.
  Qed.
  (** The yields. *)
  Lemma norris_trace_spec cs tr : norris_run c = Ok (cs, tr) →
    map snd tr = map snd cs ∧ head tr = Some (∅, fM K) ∧
    ∀ k A B, tr !! k = Some (A, B) →
      (∃ A', cs !! k = Some (A', B) ∧ is_concept K A' B ∧ A ⊆ A') ∧
      ∃ i, i ≤ length (objs c) ∧ (∀ g, g ∈ A ↔ g ∈ take i (objs c) ∧ ∀ m, m ∈ B → (g, m) ∈ fI K) ∧
           (i = 0 ∨ ∃ g, objs c !! pred i = Some g ∧ g ∈ A).
  Proof.
    intros E. destruct norris_run_spec as (cs' & tr' & Hr & Hi & Hm & Hok & k0 & Hk0). rewrite E in Hr. injection Hr as <- <-.
    split; [done|]. split; [by rewrite Hk0|]. intros k A B Hk.
    assert (∃ A', cs !! k = Some (A', B)) as [A' HA'].
    { assert (map snd cs !! k = Some B) as H by (rewrite <-Hm, list_lookup_fmap, Hk; done).
      rewrite list_lookup_fmap in H. destruct (cs !! k) as [[A' B']|]; [|done]. simpl in H. injection H as ->. by exists A'. }
    destruct (norris_inv_concepts cs Hi) as (_ & _ & Hc).
    assert (is_concept K A' B) as HcB by (apply Hc, elem_of_list_lookup; by exists k).
    assert (B ⊆ fM K) as HB by apply HcB.
    destruct (Hok (A, B)) as (i & Hil & HA & Hlast); [apply elem_of_list_lookup; by exists k|]. simpl in *.
    assert (∀ g, g ∈ A ↔ g ∈ take i (objs c) ∧ ∀ m, m ∈ B → (g, m) ∈ fI K) as Hg'.
    { intros g. rewrite HA. by apply rext_take. }
    split.
    - exists A'. split; [done|]. split; [done|]. intros g Hgx. apply Hg' in Hgx as [H1 H2].
      destruct HcB as (_ & _ & _ & <-). apply elem_of_down. split; [|done]. apply elem_of_fG.
      apply elem_of_take in H1 as (j & Hj & _). by eapply elem_of_list_lookup_2.
    - exists i. split; [unfold cxt_rows in Hil; by rewrite map_length in Hil|]. split; [done|].
      destruct Hlast as [->|(p & Hp & HpA)]; [by left|right]. unfold cxt_rows in Hp. rewrite list_lookup_fmap in Hp.
      destruct (objs c !! pred i) as [g|]; [|done]. simpl in Hp. injection Hp as <-. by exists g.
  Qed.
End cxt.
