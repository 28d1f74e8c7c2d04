(** * The basis generator passes over no closed set, whatever happens between the calls *)
From Verif Require Import Py PyFacts Spec SpecFacts DgSpec ContextModel ContextSpec ContextOps ContextFacts ClosureModel ClosureFacts
  DgModel DgFacts DgMain DgCxt GenModel GenSpec GenFacts.
Local Open Scope nat_scope.

Section pass.
  Context (ms : list name) (Hms : NoDup ms).
  Local Notation M := (list_to_set ms : gset name).
  Local Notation n := (length ms).
  Context (close : closer).
  Local Notation overM := (overM ms).
  Local Notation closes := (closes ms close).
  Context (clf : gset name → gset name) (Hclf : growing_op M clf).
  Context (P : gset name) (HP : P ⊆ M) (HPf : P ≠ clf P).
  Local Notation always := (λ _ : gset name, true).

  Lemma P_not_M : P ≠ M.
  Proof.
    intros E. apply HPf. apply (anti_symm (⊆)); [by apply (gr_ext _ _ Hclf)|]. rewrite E at 2. by apply (gr_sub _ _ Hclf).
  Qed.
  Definition tight (a : gset name) (i : nat) : Prop :=
    i = n ∨ ∃ m, ms !! i = Some m ∧ m ∈ a ∧ (a ∩ pre ms (S i) ⊆ P → a ⊆ P).
  Definition behind (a : gset name) (i : nat) : Prop := a ⊆ M ∧ i ≤ n ∧ (a = P ∨ lectic ms a P) ∧ tight a i.

  Lemma inner_behind L R a1 i b j k x : closes L → overM R → i ≤ n → a1 ⊆ M → inner_res ms close L R a1 i b j →
    model_of (R ++ L) P → ms !! k = Some x → x ∈ P → x ∉ a1 → agree ms k a1 P → k < i → behind b j.
  Proof.
    intros [HL Hclose] HR Hi Ha1 Hin HPm Hk HxP Hxa Hag Hki.
    destruct (inner_progress ms close L R a1 i b j (over_close ms close L HL Hclose R HR) Hi Ha1 Hin) as (Hj & Hb & Hab & m & Hm & Hmb & Hma).
    destruct Hin as (m' & Hji & Hm' & _ & Hcl' & Hb0 & Hrej). assert (m' = m) as -> by congruence.
    assert (∀ l y, l ≤ k → ms !! l = Some y → y ∈ P → a1 ∩ pre ms l ∪ {[y]} ⊆ P) as Hsub.
    { intros l y Hl Hy HyP z [[Hz1 Hz2]%elem_of_intersection| ->%elem_of_singleton]%elem_of_union; [|done].
      apply elem_of_pre in Hz2 as (o & Ho & Hz). apply (Hag o z); [lia|done|done]. }
    assert (∀ l y, ms !! l = Some y → a1 ∩ pre ms l ∪ {[y]} ⊆ M) as HsubM.
    { intros l y Hy. assert (y ∈ M) by (apply elem_of_list_to_set; by eapply elem_of_list_lookup_2).
      clear -Ha1 H. set_solver. }
    destruct (Hclose R _ HR (HsubM j m Hm)) as (C & HC & Hc). rewrite Hcl' in HC. injection HC as <-.
    destruct Hc as (_ & _ & Hc).
    split; [done|]. split; [lia|]. split.
    - assert (¬ lectic ms P b) as Hn.
      { destruct (Nat.lt_trichotomy k j) as [Hkj|[->|Hkj]].
        - intros H. apply (lectic_asym ms _ _ H). exists k, x. split; [done|]. split; [done|]. split.
          + intros Hxb. apply Hxa. by apply (Hab k x).
          + eapply agree_trans; [|done]. apply agree_sym. eapply agree_le; [|done]. lia.
        - assert (x = m) as -> by congruence. apply lectic_sub. apply Hc; [|done]. by apply Hsub.
        - exfalso. destruct (Hrej k x) as (b' & Hb' & Hne); [lia|done|done|].
          destruct (Hclose R _ HR (HsubM k x Hk)) as (C & HC & Hc'). rewrite Hb' in HC. injection HC as <-.
          destruct Hc' as (_ & _ & Hc'). assert (b' ⊆ P) as HbP by (apply Hc'; [by apply Hsub|done]).
          apply Hne. apply set_eq. intros y. split; [|by intros ?%elem_of_empty].
          intros [[Hy1 Hy2]%elem_of_difference Hy3]%elem_of_intersection. exfalso. apply Hy2, elem_of_intersection.
          split; [|done]. apply elem_of_pre in Hy3 as (l & Hl & Hy). apply (Hag l y); [done|done|]. by apply HbP. }
      destruct (lectic_total ms b P Hb HP) as [->|[?|?]]; [by left|by right|done].
    - right. exists m. split; [done|]. split; [done|].
      assert (b ∩ pre ms (S j) = a1 ∩ pre ms j ∪ {[m]}) as ->; [|intros H; by apply Hc].
      apply set_eq. intros y. rewrite elem_of_union, !elem_of_intersection, elem_of_singleton, !elem_of_pre. split.
      + intros [Hxb (l & Hl & Hx)]. destruct (decide (l = j)) as [->|]; [right; congruence|]. left.
        split; [|exists l; split; [lia|done]]. apply (Hab l y); [lia|done|done].
      + intros [[Hx1 (l & Hl & Hx)]| ->].
        * split; [by apply (Hab l y)|]. exists l. split; [lia|done].
        * split; [done|]. exists j. split; [lia|done].
  Qed.

  Lemma tight_sub a i k x : tight a i → ms !! k = Some x → x ∉ a → agree ms k a P → i ≤ k → a ⊆ P.
  Proof.
    intros Ht Hk Hxa Hag Hik. assert (k < n) by (by eapply lookup_lt_Some).
    destruct Ht as [->|(m & Hm & Hma & Hc)]; [lia|]. assert (k ≠ i) by (intros ->; congruence).
    apply Hc. intros y [Hy1 Hy2]%elem_of_intersection. apply elem_of_pre in Hy2 as (l & Hl & Hy).
    apply (Hag l y); [lia|done|done].
  Qed.
  Lemma rest_behind L R a ac i loop : closes L → overM R → behind a i → a ⊆ ac → ac ⊆ M →
    model_of (R ++ L) P → lectic ms a P → ac ≠ P → (a ⊆ P → ac ⊆ P) →
    ∃ b j, dgen_rest ms close (Some L) loop R a ac i = loop R b j ∧ behind b j ∧ lectic ms a b.
  Proof.
    intros HC HR (Ha & Hi & _ & Ht) H1 H2 HPm Hlt Hne Himp. pose proof HC as [HL Hclose].
    pose proof (over_close ms close L HL Hclose R HR) as HRc. pose proof Hlt as (k & x & Hk & HxP & Hxa & Hag).
    unfold dgen_rest. destruct (decide ((ac ∖ a) ∩ pre ms i = ∅)) as [He|Hb].
    - rewrite bool_decide_false by (intros ?; done).
      assert (∀ l y, l < i → ms !! l = Some y → (y ∈ a ↔ y ∈ ac)) as Hagi.
      { intros l y Hl Hy. split; [by apply H1|]. intros Hy'. destruct (decide (y ∈ a)); [done|]. exfalso.
        assert (y ∈ (ac ∖ a) ∩ pre ms i) as Hy2.
        { apply elem_of_intersection. split; [by apply elem_of_difference|]. apply elem_of_pre. eauto. }
        rewrite He in Hy2. by apply elem_of_empty in Hy2. }
      assert (lectic ms ac P) as Hlt'.
      { destruct (decide (k < i)) as [Hki|Hki].
        - exists k, x. split; [done|]. split; [done|]. split.
          + intros Hx. apply Hxa. by apply (Hagi k x).
          + intros l y Hl Hy. rewrite <-(Hagi l y); [|lia|done]. by apply (Hag l y).
        - pose proof (Himp (tight_sub a i k x Ht Hk Hxa Hag ltac:(lia))) as Hs.
          destruct (lectic_total ms ac P H2 HP) as [?|[?|H]]; [done|done|]. destruct (lectic_sub ms _ _ Hs H). }
      pose proof Hlt' as (k' & x' & Hk' & HxP' & Hxa' & Hag').
      rewrite (proj2 (Nat.eqb_neq _ _)).
      2: { intros E. apply (full_size ms Hms) in H2; [|lia]. subst ac. apply Hxa'. by apply HP. }
      destruct (dg_inner_spec ms Hms close L R ac ac n HRc (le_n _) H2) as (b & j & E & Hin).
      { rewrite pre_all. clear -H2. set_solver. }
      { exists k', x'. split; [by eapply lookup_lt_Some|done]. }
      exists b, j. rewrite E. split; [done|]. split.
      + eapply (inner_behind L R ac n b j k' x'); try done. by eapply lookup_lt_Some.
      + destruct (inner_progress ms close L _ _ _ _ _ HRc (le_n _) H2 Hin) as (Hj & Hbm & Hagb & m & Hm & Hmb & Hma).
        assert (lectic ms ac b) as Hltb by (by exists j, m).
        destruct (lectic_total ms a ac) as [->|[H|H]]; [done|done|done|by eapply lectic_trans|]. destruct (lectic_sub ms _ _ H1 H).
    - rewrite bool_decide_true by done.
      assert (k < i) as Hki.
      { destruct (decide (k < i)) as [?|Hki]; [done|]. exfalso.
        pose proof (Himp (tight_sub a i k x Ht Hk Hxa Hag ltac:(lia))) as Hs.
        apply set_choose_L in Hb as [y Hy]. apply elem_of_intersection in Hy as [[Hy1 Hy2]%elem_of_difference Hy3].
        apply elem_of_pre in Hy3 as (l & Hl & Hy). apply Hy2, (Hag l y); [lia|done|auto]. }
      assert (a ∩ pre ms i ⊆ M) as Hai by (clear -Ha; set_solver).
      assert (x ∉ a ∩ pre ms i) as Hxi by (clear -Hxa; set_solver).
      destruct (dg_inner_spec ms Hms close L R (a ∩ pre ms i) (a ∖ suf ms i) i HRc Hi Hai) as (b & j & E & Hin).
      { rewrite (suf_pre ms Hms always a i Ha). clear. set_solver. }
      { by exists k, x. }
      assert (∀ l, l ≤ i → agree ms l a (a ∩ pre ms i)) as Hagi.
      { intros l Hl. apply (agree_pre ms). intros y (o & Ho & Hy)%elem_of_pre. rewrite elem_of_intersection, elem_of_pre.
        split; [intros; split; [done|exists o; split; [lia|done]]|tauto]. }
      exists b, j. rewrite E. split; [done|]. split.
      + eapply (inner_behind L R (a ∩ pre ms i) i b j k x); try done.
        eapply agree_trans; [|done]. apply agree_sym, Hagi. lia.
      + pose proof Hin as (m0 & Hji & Hm0 & Hma0 & _).
        destruct (inner_progress ms close L _ _ _ _ _ HRc Hi Hai Hin) as (Hj & Hbm & Hagb & m & Hm & Hmb & Hma).
        exists j, m. split; [done|]. split; [done|]. split.
        * intros Hm'. apply Hma, elem_of_intersection. split; [done|]. apply elem_of_pre. eauto.
        * eapply agree_trans; [|done]. apply Hagi. lia.
  Qed.

  (** The closure of a world: idempotent, and [P] is not closed in it. *)
  Definition wide (cl : gset name → gset name) : Prop :=
    (∀ X, X ⊆ M → cl (cl X) = cl X) ∧ ∀ X, X ⊆ M → clf X ⊆ cl X.
  Lemma not_P cl a : growing_op M cl → wide cl → a ⊆ M → cl a ≠ P.
  Proof.
    intros Hcl [H1 H2] Ha E. apply HPf, (anti_symm (⊆)); [by apply (gr_ext _ _ Hclf)|].
    rewrite (H2 P HP). rewrite <-E. by rewrite H1.
  Qed.
  Lemma loop_behind L aclose cl fuel R a i : closes L → reads ms aclose cl → wide cl → overM R → model_of (R ++ L) P →
    behind a i → 2 ^ n ≤ fuel + rank ms a →
    ∃ b j, dgen_loop ms close (Some L) always aclose fuel R a i = (Yielded (b, cl b), DgAt R b (cl b) j) ∧ behind b j ∧ b ≠ cl b.
  Proof.
    intros HC [Hcl Hac] Hw HR HPm. revert a i. induction fuel as [|fuel IH]; intros a i Hb Hf.
    { pose proof (rank_lt ms a). lia. }
    pose proof Hb as (Ha & Hi & Hor & Ht). cbn [dgen_loop]. destruct (Nat.ltb_spec (size a) n) as [Hs|Hs].
    2: { exfalso. apply (full_size ms Hms) in Hs; [|done]. subst a. destruct Hor as [E|(k & x & Hk & HxP & Hxa & _)]; [by apply P_not_M|].
      apply Hxa. by apply HP. }
    rewrite Hac by done. rewrite andb_true_r. case_bool_decide as Hne; [by exists a, i|].
    assert (a = cl a) as E by (destruct (decide (a = cl a)); [done|by destruct Hne]).
    pose proof (not_P cl a Hcl Hw Ha) as HnP. rewrite <-E in *.
    destruct Hor as [->|Hlt]; [done|].
    destruct (rest_behind L R a a i (dgen_loop ms close (Some L) always aclose fuel)) as (b & j & -> & Hb' & Hlt'); try done.
    apply IH; [done|]. apply lectic_rank in Hlt'. lia.
  Qed.
  Definition sbehind (Y : list fimp) (s : dgen) : Prop :=
    match s with
    | DgNew => Y = []
    | DgAt R a ac i => Y = R ++ [(a, ac)] ∧ overM R ∧ behind a i ∧ a ⊆ ac ∧ ac ⊆ M ∧ a ≠ ac ∧ ac ≠ P
    | DgEnd => False
    end.
  Lemma next_behind L aclose cl Y s : closes L → reads ms aclose cl → wide cl → sbehind Y s → model_of (Y ++ L) P →
    ∃ i s', dgen_next ms close (Some L) always aclose s = (Yielded i, s') ∧ sbehind (Y ++ [i]) s'.
  Proof.
    intros HC Hr Hw Hs HPm. pose proof HC as [HL Hclose]. pose proof Hr as [Hcl _].
    assert (∀ R a i, overM R → model_of (R ++ L) P → behind a i →
      ∃ j s', dgen_loop ms close (Some L) always aclose (2 ^ n) R a i = (Yielded j, s') ∧ sbehind (R ++ [j]) s') as Hl.
    { intros R a i HR Hm Hb. destruct (loop_behind L aclose cl (2 ^ n) R a i) as (b & j & -> & Hb' & Hne); try done; [lia|].
      eexists _, _. split; [done|]. pose proof Hb' as (Hb1 & _). cbn. split; [done|]. split; [done|]. split; [done|].
      split; [by apply (gr_ext _ _ Hcl)|]. split; [by apply (gr_sub _ _ Hcl)|]. split; [done|]. by apply not_P. }
    destruct s as [|R a ac i|]; cbn [dgen_next sbehind] in *; [| |done].
    - subst Y. destruct (Hclose [] ∅) as (C & HC' & HC1 & HC2 & HC3); [by intros ? ?%elem_of_nil|done|].
      cbn [app] in *. rewrite HC'. apply (Hl []); [by intros ? ?%elem_of_nil|done|].
      assert (C ⊆ P) as Hs by by apply HC3.
      split; [by trans P|]. split; [done|]. split; [|by left].
      destruct (lectic_total ms C P) as [->|[?|H]]; [by trans P|done|by left|by right|]. destruct (lectic_sub ms _ _ Hs H).
    - destruct Hs as (-> & HR & Hb & H1 & H2 & Hne & HnP). pose proof Hb as (Ha & Hi & Hor & Ht).
      assert (a ⊆ P → ac ⊆ P) as Himp.
      { apply (HPm (a, ac)), elem_of_app. left. apply elem_of_app. right. by left. }
      destruct Hor as [->|Hlt].
      { exfalso. apply Hne. apply (anti_symm (⊆)); [done|]. by apply Himp. }
      assert (overM (R ++ [(a, ac)])) as HR' by by apply over_snoc.
      destruct (rest_behind L (R ++ [(a, ac)]) a ac i (dgen_loop ms close (Some L) always aclose (2 ^ n))) as (b & j & -> & Hb' & _); try done.
      by apply Hl.
  Qed.
  Lemma calls_behind {W} (bg : W → list fimp) (aclose : W → gset name → res (gset name)) (cl : W → gset name → gset name) ws Y s :
    (∀ w, w ∈ ws → closes (bg w) ∧ reads ms (aclose w) (cl w) ∧ wide (cl w) ∧ model_of (bg w) P) → sbehind Y s →
    let es := (calls (λ w, dgen_next ms close (Some (bg w)) always (aclose w)) ws s).1 in
    model_of (Y ++ values es) P → Stopped ∉ es.
  Proof.
    revert Y s. induction ws as [|w ws IH]; intros Y s Hw Hs; cbn zeta; [by intros _ ?%elem_of_nil|].
    rewrite calls_cons. intros Hm. destruct (Hw w) as (W1 & W2 & W3 & W4); [left|].
    destruct (next_behind (bg w) (aclose w) (cl w) Y s) as (i & s' & E & Hs'); try done.
    { apply model_of_app. split; [|done]. by apply model_of_app in Hm as [? _]. }
    rewrite E in *. cbn [fst snd] in *. change (values (Yielded i :: ?es)) with (i :: values es) in Hm.
    rewrite not_elem_of_cons. split; [done|]. apply (IH (Y ++ [i])); [intros ? ?; apply Hw; by right|done|].
    by rewrite <-(assoc_L (++)).
  Qed.
End pass.

(** ** Contexts *)
Lemma dg_calls_closed c0 ws cf : good c0 → comparable (atts c0) = true → good cf → atts cf = atts c0 →
  (∀ L c, (L, c) ∈ ws → overM (atts c0) L ∧ state c0 c ∧ rows_in (abs c) (abs cf)) →
  let es := dg_iter_calls (atts c0) (λ _, true) ws in
  Stopped ∈ es → ∀ P, P ⊆ fM (abs c0) → model_of (values es) P → (∀ L c, (L, c) ∈ ws → model_of L P) → P = acl (abs cf) P.
Proof.
  intros Hg Hcmp Hgf Ef Hw es Hst P HP Hm Hb. destruct (decide (P = acl (abs cf) P)) as [?|Hne]; [done|]. exfalso. revert Hst.
  assert (NoDup (atts c0)) as Hnd by apply Hg.
  assert (closure_op (list_to_set (atts c0)) (acl (abs cf))) as Hcf by (rewrite <-Ef; apply (acl_closure_op (abs cf))).
  apply (calls_behind (atts c0) Hnd simple_close (acl (abs cf)) (closure_growing _ _ Hcf) P HP Hne fst (λ w, cxt_aclose w.2) (λ w, acl (abs w.2)) ws [] DgNew);
    [|done|done].
  intros [L c] Hlc. destruct (Hw L c Hlc) as (H1 & H2 & H3). cbn [fst snd].
  destruct (wstate_ok c0 Hcmp (L, c)) as [W1 W2]; [done|]. split; [exact W1|]. split; [exact W2|].
  split; [|by apply (Hb L c)]. destruct H2 as (_ & Ea & _). split.
  - intros X HX. pose proof (acl_closure_op (abs c)) as Hc. apply (cl_idem _ _ Hc). change (X ⊆ list_to_set (atts c)). by rewrite Ea.
  - intros X HX. apply rows_acl; [done|]. change (list_to_set (atts c) = (list_to_set (atts cf) : gset name)). by rewrite Ea, Ef.
Qed.
