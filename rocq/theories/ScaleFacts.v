(** * Facts about scaling *)
From Verif Require Import Py Spec PyFacts SpecFacts ContextModel ContextSpec ContextOps ContextFacts ContextInit
  ContextMut ContextEffects ContextMisc ContextFinal MvModel MvFacts ScaleSpec.

Lemma foldM_seq {S} (f : nat → S → res S) (I : nat → S → Prop) n s : I 0 s →
  (∀ i s, i < n → I i s → ∃ s', f i s = Ok s' ∧ I (Datatypes.S i) s') → ∃ s', foldM f (seq 0 n) s = Ok s' ∧ I n s'.
Proof.
  intros H0 Hs. assert (∀ m k s, k + m = n → I k s → ∃ s', foldM f (seq k m) s = Ok s' ∧ I n s') as H; [|by apply (H n 0)].
  intros m. induction m as [|m IH]; intros k s' Hk Hi; cbn [seq foldM].
  - exists s'. split; [done|]. replace n with k by lia. done.
  - destruct (Hs k s') as (s2 & -> & H2); [lia|done|]. cbn [mbind res_bind]. apply IH; [lia|done].
Qed.
Lemma concat_lookup_inj {A} (ls : list (list A)) i i' l l' x : NoDup (concat ls) → ls !! i = Some l → ls !! i' = Some l' → x ∈ l → x ∈ l' → i = i'.
Proof.
  revert i i'. induction ls as [|k ls IH]; intros i i' Hn Hi Hi' Hx Hx'; [done|]. cbn in Hn. apply NoDup_app in Hn as (_ & Hd & Hn).
  assert (∀ j l0, ls !! j = Some l0 → x ∈ l0 → x ∈ concat ls) as Hc.
  { intros j l0 Hj Hl. apply elem_of_list_In, in_concat. exists l0. split; apply elem_of_list_In; [by eapply elem_of_list_lookup_2|done]. }
  destruct i as [|i], i' as [|i']; cbn in Hi, Hi'; [done| | |].
  - injection Hi as ->. exfalso. apply (Hd x Hx). by eapply Hc.
  - injection Hi' as ->. exfalso. apply (Hd x Hx'). by eapply Hc.
  - f_equal. by eapply IH.
Qed.
Lemma concat_split {A} (ls : list (list A)) i l : ls !! i = Some l → concat ls = concat (take i ls) ++ l ++ concat (drop (S i) ls).
Proof. revert i. induction ls as [|k ls IH]; intros [|i] H; [done|done| |]; cbn in *; [by injection H as ->|]. rewrite (IH i H). by rewrite app_assoc. Qed.
Lemma concat_take_S {A} (ls : list (list A)) i l : ls !! i = Some l → concat (take (S i) ls) = concat (take i ls) ++ l.
Proof. intros H. rewrite (take_S_r _ _ _ H), concat_app. cbn. by rewrite app_nil_r. Qed.
Lemma str_app_inj_l a x y : (a +:+ x)%string = (a +:+ y)%string → x = y.
Proof. induction a as [|c a IH]; [done|]. intros H. rewrite !string_cons_app in H. injection H as H. by apply IH. Qed.

Section scaling.
  Context {V : Type} (ev : string → V → res bool) (mos mats : list name) (mcell : nat → nat → res V) (scales : list context).
  Context (val : nat → nat → V) (Hval : ∀ o a, o < length mos → a < length mats → mcell o a = Ok (val o a)).
  Context (Htot : ∀ a s e o, a < length mats → scales !! a = Some s → e ∈ objs s → o < length mos → ∃ b, eval_name ev e (val o a) = Ok b).
  Definition says (s : context) (a o : nat) (m : name) : Prop := ∃ e, e ∈ objs s ∧ eval_name ev e (val o a) = Ok true ∧ incident s e m.

  (** One row of the scale: every object is visited once. *)
  Lemma scale_row_spec s ai col row e y : ai < length mats → objs s !! row = Some e → cell s row col = Ok y →
    scales !! ai = Some s → ∀ d, length d = length mos →
    ∃ d', foldM (scale_cell ev mcell s ai col row) (seq 0 (length mos)) d = Ok d' ∧ length d' = length mos ∧
      ∀ o x, d !! o = Some x → ∃ x', d' !! o = Some x' ∧ (x' = true ↔ x = true ∨ (eval_name ev e (val o ai) = Ok true ∧ y = true)).
  Proof.
    intros Hai Hrow Hcell Hs d Hd.
    destruct (foldM_seq (scale_cell ev mcell s ai col row) (λ k d', length d' = length mos ∧ ∀ o x, d !! o = Some x → ∃ x', d' !! o = Some x' ∧
       if decide (o < k) then (x' = true ↔ x = true ∨ (eval_name ev e (val o ai) = Ok true ∧ y = true)) else x' = x) (length mos) d) as (d' & E & Hl & H).
    - split; [done|]. intros o x Ho. exists x. split; [done|]. by rewrite decide_False by lia.
    - intros k d1 Hk (Hl & H). unfold scale_cell.
      destruct (lookup_lt_is_Some_2 d k) as [x0 Hx0]; [lia|]. destruct (H k x0 Hx0) as (x1 & Hx1 & Hx). rewrite decide_False in Hx by lia. subst x1.
      rewrite Hx1. cbn [get_or mbind res_bind].
      assert (∀ z, (z = true ↔ x0 = true ∨ (eval_name ev e (val k ai) = Ok true ∧ y = true)) → length (<[k := z]> d1) = length mos ∧
        (∀ o x, d !! o = Some x → ∃ x', <[k := z]> d1 !! o = Some x' ∧
         if decide (o < S k) then (x' = true ↔ x = true ∨ (eval_name ev e (val o ai) = Ok true ∧ y = true)) else x' = x)) as Hz.
      { intros z Hz. split; [by rewrite insert_length|]. intros o x Ho. destruct (decide (o = k)) as [->|Hne].
        - rewrite list_lookup_insert by lia. exists z. split; [done|]. rewrite decide_True by lia. by assert (x = x0) as -> by congruence.
        - rewrite list_lookup_insert_ne by done. destruct (H o x Ho) as (x' & Hx' & Hc). exists x'. split; [done|].
          destruct (decide (o < k)), (decide (o < S k)); try done; lia. }
      destruct x0.
      + exists d1. split; [done|]. rewrite <-(list_insert_id d1 k true Hx1). apply Hz. tauto.
      + rewrite Hval by lia. cbn [mbind res_bind]. unfold oname. rewrite Hrow. cbn [get_or mbind res_bind].
        destruct (Htot ai s e k Hai Hs) as [b Hb]; [by eapply elem_of_list_lookup_2|done|]. rewrite Hb. cbn [mbind res_bind]. destruct b.
        * rewrite Hcell. cbn [mbind res_bind]. eexists. split; [done|]. apply Hz. rewrite Hb. naive_solver.
        * exists d1. split; [done|]. rewrite <-(list_insert_id d1 k false Hx1). apply Hz. rewrite Hb. naive_solver.
    - exists d'. split; [done|]. split; [done|]. intros o x Ho. destruct (H o x Ho) as (x' & Hx' & Hc). exists x'. split; [done|].
      rewrite decide_True in Hc; [done|]. apply lookup_lt_Some in Ho. lia.
  Qed.
  Lemma derived_attr_spec s ai col m : ai < length mats → scales !! ai = Some s → wf s → distinct s → atts s !! col = Some m →
    ∃ d, derived_attr ev mos mcell s ai col = Ok d ∧ length d = length mos ∧
      ∀ o, o < length mos → d !! o = Some true ↔ says s ai o m.
  Proof.
    intros Hai Hs Hw Hd Hm. unfold derived_attr.
    destruct (foldM_seq (λ row d, foldM (scale_cell ev mcell s ai col row) (seq 0 (length mos)) d)
      (λ k d, length d = length mos ∧ ∀ o, o < length mos → ∃ x, d !! o = Some x ∧
        (x = true ↔ ∃ r e, r < k ∧ objs s !! r = Some e ∧ eval_name ev e (val o ai) = Ok true ∧ incident s e m)) (length (objs s)) (replicate (length mos) false)) as (d & E & Hl & H).
    - rewrite replicate_length. split; [done|]. intros o Ho. exists false. rewrite lookup_replicate. split; [done|]. split; [done|]. intros (r & e & ? & _). lia.
    - intros k d Hk (Hl & H). destruct (lookup_lt_is_Some_2 (objs s) k Hk) as [e He].
      pose proof (cellb_incident s k col e m Hd Hw He Hm) as Hc. apply cell_Ok in Hc.
      destruct (scale_row_spec s ai col k e _ Hai He Hc Hs d Hl) as (d' & E & Hl' & H'). exists d'. split; [done|]. split; [done|].
      intros o Ho. destruct (H o Ho) as (x & Hx & Hx'). destruct (H' o x Hx) as (x' & Hx2 & Hx3). exists x'. split; [done|]. rewrite Hx3, Hx', bool_decide_eq_true. split.
      + intros [(r & e' & Hr & Hr')|[H1 H2]]; [exists r, e'; split; [lia|done]|exists k, e; split; [lia|done]].
      + intros (r & e' & Hr & Hr' & H1 & H2). destruct (decide (r = k)) as [->|]; [right|left; exists r, e'; split; [lia|done]].
        by assert (e' = e) as -> by congruence.
    - exists d. split; [done|]. split; [done|]. intros o Ho. destruct (H o Ho) as (x & Hx & Hx'). rewrite Hx. split.
      + intros [= ->]. destruct Hx' as [(r & e & _ & Hr & H1 & H2) _]; [done|]. exists e. split; [by eapply elem_of_list_lookup_2|done].
      + intros (e & [r Hr]%elem_of_list_lookup & H1 & H2). f_equal. apply Hx'. exists r, e. split; [by eapply lookup_lt_Some|done].
  Qed.

  Context (Hmos : NoDup mos) (Hlen : length mats ≤ length scales).
  Context (Hmats : ∀ a, a ∈ mats → is_str a = true).
  Context (Hscales : ∀ ai s, ai < length mats → scales !! ai = Some s → wf s ∧ distinct s ∧ ∀ m, m ∈ atts s → is_str m = true).
  Context (Hnames : NoDup (derived_names mats scales)).
  Let nm (a m : name) : name := NStr (pystr a ++ ":" ++ pystr m).
  Let ls := zip_with (fun a s => map (nm a) (atts s)) mats scales.

  Definition has_scaled (g n : name) : Prop := ∃ o ai a s m, mos !! o = Some g ∧ mats !! ai = Some a ∧ scales !! ai = Some s ∧ m ∈ atts s ∧ n = nm a m ∧ says s ai o m.
  Lemma nm_inj a m m' : is_str m = true → is_str m' = true → nm a m = nm a m' → m = m'.
  Proof.
    unfold nm. intros Hm Hm' H. injection H as H. apply str_app_inj_l in H. apply (str_app_inj_l ":") in H.
    destruct m, m'; try done. cbn in H. by subst.
  Qed.
  Lemma ls_lookup ai a s : mats !! ai = Some a → scales !! ai = Some s → ls !! ai = Some (map (nm a) (atts s)).
  Proof. intros H1 H2. unfold ls. by rewrite lookup_zip_with, H1, H2. Qed.
  Lemma has_scaled_at g ai a s m : mats !! ai = Some a → scales !! ai = Some s → m ∈ atts s →
    has_scaled g (nm a m) ↔ ∃ o, mos !! o = Some g ∧ says s ai o m.
  Proof.
    intros Ha Hs Hm. split.
    - intros (o & ai' & a' & s' & m' & Ho & Ha' & Hs' & Hm' & En & H). exists o. split; [done|].
      assert (ai = ai') as <-.
      { eapply (concat_lookup_inj ls); [exact Hnames|by apply ls_lookup|by apply ls_lookup| |].
        - apply elem_of_list_fmap. exists m. split; [exact eq_refl|done].
        - rewrite En. apply elem_of_list_fmap. by exists m'. }
      assert (a' = a) as -> by congruence. assert (s' = s) as -> by congruence.
      destruct (Hscales ai s) as (_ & _ & Hst); [by eapply lookup_lt_Some|done|].
      apply nm_inj in En as ->; [done|by apply Hst|by apply Hst].
    - intros (o & Ho & H). exists o, ai, a, s, m. done.
  Qed.
  Definition scaled_inv (done : list name) (c : context) : Prop :=
    wf c ∧ distinct c ∧ objs c = mos ∧ atts c = done ∧ ∀ g n, incident c g n ↔ n ∈ done ∧ has_scaled g n.
  Lemma scale_column_spec ai a s col m done rest c : mats !! ai = Some a → scales !! ai = Some s → atts s !! col = Some m →
    scaled_inv done c → done ++ nm a m :: rest = derived_names mats scales →
    ∃ c', scale_column ev mos mats mcell s ai col c = Ok c' ∧ scaled_inv (done ++ [nm a m]) c'.
  Proof.
    intros Ha Hs Hm (Hw & Hd & Ho & Hat & HI) Hsplit. unfold scale_column.
    destruct (Hscales ai s) as (Hws & Hds & Hst); [by eapply lookup_lt_Some|done|].
    destruct (derived_attr_spec s ai col m) as (d & E & Hl & H); [by eapply lookup_lt_Some|done|done|done|done|]. rewrite E. cbn [mbind res_bind].
    rewrite Ha. cbn [get_or mbind res_bind]. unfold aname. rewrite Hm. cbn [get_or mbind res_bind].
    assert (is_str a = true) as Hsa by (apply Hmats; by eapply elem_of_list_lookup_2).
    assert (is_str m = true) as Hsm by (apply Hst; by eapply elem_of_list_lookup_2).
    assert (join_names a m = Ok (nm a m)) as Ej by by destruct a, m. rewrite Ej. cbn [mbind res_bind].
    assert (nm a m ∉ atts c) as Hn.
    { rewrite Hat. intros Hx. rewrite <-Hsplit in Hnames. apply NoDup_app in Hnames as (_ & Hd' & _). apply (Hd' _ Hx). by left. }
    destruct (add_attribute_effect c d (nm a m) Hw Hd) as (c' & -> & Hw' & Hd' & _ & Ho' & Ha' & HI'); [by rewrite Ho|done|]. cbn [mbind res_bind].
    exists c'. split; [done|]. split; [done|]. split; [done|]. split; [congruence|]. split; [congruence|].
    intros g n. rewrite HI', HI, elem_of_app, elem_of_list_singleton, Ho.
    assert ((g, true) ∈ zip mos d ↔ has_scaled g (nm a m)) as Hz.
    { rewrite (has_scaled_at g ai a s m) by (done || by eapply elem_of_list_lookup_2). rewrite elem_of_zip. split.
      - intros (o & Hg & Hb). exists o. split; [done|]. apply H; [by eapply lookup_lt_Some|done].
      - intros (o & Hg & Hb). exists o. split; [done|]. apply H; [by eapply lookup_lt_Some|done]. }
    split; [intros [H1|[-> H1%Hz]]; tauto|]. intros [[H1| ->] H2]; [tauto|]. right. by rewrite Hz.
  Qed.
  Lemma derived_split ai a s : mats !! ai = Some a → scales !! ai = Some s →
    derived_names mats scales = concat (take ai ls) ++ map (nm a) (atts s) ++ concat (drop (S ai) ls).
  Proof. intros H1 H2. exact (concat_split ls ai _ (ls_lookup ai a s H1 H2)). Qed.
  Lemma scale_context_inv : ∃ c, scale_context ev mos mats mcell scales = Ok c ∧ scaled_inv (derived_names mats scales) c.
  Proof.
    unfold scale_context. destruct (mk_context_ok (map (λ _, []) mos) None mos []) as [c0 Hc0]; [by rewrite map_length|by intros r (? & -> & _)%elem_of_list_fmap|].
    rewrite Hc0. cbn [mbind res_bind].
    destruct (foldM_seq (scale_attribute ev mos mats mcell scales) (λ k c, scaled_inv (concat (take k ls)) c) (length mats) c0) as (c & E & H).
    - pose proof (mk_context_good _ _ _ _ _ Hc0 Hmos) as (Hg & Ho & Ha & Hn); [constructor|done|]. split; [apply Hg|]. split; [apply Hg|]. split; [done|]. split; [done|].
      intros g n. split; [|by intros [?%elem_of_nil _]]. intros (i & j & r & _ & Hj & _). by rewrite Ha in Hj.
    - intros ai c Hai Hi. destruct (lookup_lt_is_Some_2 mats ai Hai) as [a Ha]. destruct (lookup_lt_is_Some_2 scales ai) as [s Hs]; [lia|].
      unfold scale_attribute. rewrite Hs. cbn [get_or mbind res_bind].
      destruct (foldM_seq (λ col c, scale_column ev mos mats mcell s ai col c) (λ k c, scaled_inv (concat (take ai ls) ++ map (nm a) (take k (atts s))) c) (length (atts s)) c) as (c' & E & H).
      + cbn. by rewrite app_nil_r.
      + intros col c1 Hcol H1. destruct (lookup_lt_is_Some_2 (atts s) col Hcol) as [m Hm].
        destruct (scale_column_spec ai a s col m _ (map (nm a) (drop (S col) (atts s)) ++ concat (drop (S ai) ls)) c1 Ha Hs Hm H1) as (c2 & E2 & H2).
        { rewrite (derived_split ai a s Ha Hs), <-app_assoc. f_equal. rewrite <-(take_drop_middle _ _ _ Hm) at 3. rewrite map_app. cbn. by rewrite <-app_assoc. }
        exists c2. split; [done|]. rewrite (take_S_r _ _ _ Hm), map_app, app_assoc. exact H2.
      + exists c'. split; [done|]. rewrite (concat_take_S ls ai _ (ls_lookup ai a s Ha Hs)). rewrite (take_ge (atts s)) in H by lia. exact H.
    - exists c. split; [done|]. rewrite take_ge in H; [exact H|]. unfold ls. rewrite zip_with_length. lia.
  Qed.
  Lemma scale_context_spec : ∃ c, scale_context ev mos mats mcell scales = Ok c ∧ wf c ∧ distinct c ∧
    objs c = mos ∧ atts c = derived_names mats scales ∧
    ∀ o g ai a s m, mos !! o = Some g → mats !! ai = Some a → scales !! ai = Some s → m ∈ atts s →
      incident c g (NStr (pystr a ++ ":" ++ pystr m)) ↔ ∃ e, e ∈ objs s ∧ eval_name ev e (val o ai) = Ok true ∧ incident s e m.
  Proof.
    destruct scale_context_inv as (c & E & Hw & Hd & Ho & Ha & HI). exists c. split; [done|]. split; [done|]. split; [done|]. split; [done|]. split; [done|].
    intros o g ai a s m Hg Hai Hs Hm. fold (nm a m). rewrite HI, (has_scaled_at g ai a s m Hai Hs Hm). split.
    - intros (_ & o' & Ho' & H). assert (o = o') as <-; [|exact H]. exact (NoDup_lookup mos o o' g Hmos Hg Ho').
    - intros H. split; [|by exists o]. rewrite (derived_split ai a s Hai Hs). apply elem_of_app. right. apply elem_of_app. left. apply elem_of_list_fmap. eauto.
  Qed.
End scaling.

Lemma foldM_Ok {A S} (f : A → S → res S) l s s' x : foldM f l s = Ok s' → x ∈ l → ∃ s1 s2, f x s1 = Ok s2.
Proof.
  revert s. induction l as [|y l IH]; intros s H Hx; [by apply elem_of_nil in Hx|]. cbn in H. destruct (f y s) as [s1|] eqn:E; cbn in H; [|done].
  apply elem_of_cons in Hx as [->|Hx]; [eauto|]. by eapply IH.
Qed.
Lemma scale_context_few {V} (ev : string → V → res bool) mos mats mcell scales c :
  scale_context ev mos mats mcell scales = Ok c → length mats ≤ length scales.
Proof.
  unfold scale_context. destruct (mk_context _ _ _ _) as [c0|]; cbn [mbind res_bind]; [|done]. intros H.
  destruct (decide (length mats ≤ length scales)) as [|Hl]; [done|]. exfalso.
  destruct (foldM_Ok _ _ _ _ (length scales) H) as (s1 & s2 & E); [apply elem_of_seq; lia|].
  unfold scale_attribute in E. by rewrite lookup_ge_None_2 in E by lia.
Qed.

(** ** Ordinal scales *)
Lemma pystr_int_inj z w : pystr (NInt z) = pystr (NInt w) → z = w.
Proof. cbn. intros H. by apply (inj pretty) in H. Qed.
Lemma value_eq_inj z w : value_eq z = value_eq w → z = w.
Proof. unfold value_eq. intros H. injection H as H. by apply (inj pretty) in H. Qed.
Lemma op_name_inj op z w : op_name op z = op_name op w → z = w.
Proof. unfold op_name. intros H. injection H as H. apply str_app_inj_l in H. by apply (inj pretty) in H. Qed.
Lemma lookup_two {A} (x y : A) i n j : i ≤ n → j < n → (replicate i x ++ replicate (n - i) y) !! j = Some (if decide (j < i) then x else y).
Proof.
  intros Hi Hj. case_decide as H.
  - rewrite lookup_app_l by (by rewrite replicate_length). by apply lookup_replicate_2.
  - rewrite lookup_app_r by (rewrite replicate_length; lia). rewrite replicate_length. apply lookup_replicate_2. lia.
Qed.
Lemma new_scale_spec c : good c → ∃ c', new_scale c = Ok c' ∧ good c' ∧ objs c' = objs c ∧ atts c' = atts c ∧ np c' = np c.
Proof.
  intros Hg. unfold new_scale. destruct (mk_context_ok (np c) (npz c) (objs c) (atts c)) as [c' Hc'].
  - apply (wf_rows c (good_wf c Hg)).
  - intros r [i Hi]%elem_of_list_lookup. by apply (wf_cols c (good_wf c Hg) i).
  - exists c'. split; [done|]. apply (mk_context_good _ _ _ _ _ Hc'); [apply (good_distinct c Hg)..|]. exact (good_shape c Hg).
Qed.
Lemma lookup_map {A B} (f : A → B) l i : map f l !! i = match l !! i with Some x => Some (f x) | None => None end.
Proof. revert i. induction l as [|x l IH]; intros [|i]; cbn; [done..|]. apply IH. Qed.
Lemma table_scale (vals ws : list Z) (f : Z → name) (row : nat → list bool) (R : Z → Z → Prop) :
  NoDup vals → NoDup ws → (∀ z w, f z = f w → z = w) → (∀ i, i < length vals → length (row i) = length ws) →
  (∀ i j v w, vals !! i = Some v → ws !! j = Some w → row i !! j = Some true ↔ R v w) →
  ∃ c, (c ← mk_context (map row (seq 0 (length vals))) None (map value_eq vals) (map f ws); new_scale c) = Ok c ∧ good c ∧
    objs c = map value_eq vals ∧ atts c = map f ws ∧
    ∀ v w, incident c (value_eq v) (f w) ↔ v ∈ vals ∧ w ∈ ws ∧ R v w.
Proof.
  intros Hv Hws Hf Hrow HR.
  destruct (mk_context_ok (map row (seq 0 (length vals))) None (map value_eq vals) (map f ws)) as [c Hc].
  - by rewrite !map_length, seq_length.
  - intros r (i & -> & [_ Hi]%elem_of_seq)%elem_of_list_fmap. rewrite map_length. apply Hrow. lia.
  - rewrite Hc. cbn [mbind res_bind]. destruct (mk_context_good _ _ _ _ _ Hc) as (Hg & Ho & Ha & Hn).
    + apply NoDup_fmap_2_strong; [|done]. intros x y _ _. apply value_eq_inj.
    + apply NoDup_fmap_2_strong; [|done]. intros x y _ _. apply Hf.
    + done.
    + destruct (new_scale_spec c Hg) as (c' & E & Hg' & Ho' & Ha' & Hn'). exists c'. split; [done|]. split; [done|]. split; [congruence|]. split; [congruence|].
      intros v w. unfold incident. rewrite Ho', Ha', Hn', Ho, Ha, Hn. split.
      * intros (i & j & r & Hi & Hj & Hr & Hb). rewrite lookup_map in Hi. rewrite lookup_map in Hj. rewrite lookup_map in Hr.
        destruct (vals !! i) as [v'|] eqn:Ev; [|done]. destruct (ws !! j) as [w'|] eqn:Ew; [|done]. cbn in Hi, Hj.
        apply (inj Some), value_eq_inj in Hi. apply (inj Some), Hf in Hj. subst. rewrite lookup_seq_lt in Hr by by eapply lookup_lt_Some. cbn in Hr. injection Hr as <-.
        split; [by eapply elem_of_list_lookup_2|]. split; [by eapply elem_of_list_lookup_2|]. by apply (HR i j v w).
      * intros ([i Hi]%elem_of_list_lookup & [j Hj]%elem_of_list_lookup & H). exists i, j, (row i).
        rewrite !lookup_map, Hi, Hj, lookup_seq_lt by by eapply lookup_lt_Some. cbn. repeat split. by apply (HR i j v w).
Qed.
Lemma elem_of_seqZ_le lo hi v : v ∈ seqZ lo (hi + 1 - lo) ↔ (lo ≤ v ≤ hi)%Z.
Proof. rewrite elem_of_seqZ. lia. Qed.
Lemma lookup_seqZ_le lo hi i v : seqZ lo (hi + 1 - lo) !! i = Some v ↔ v = (lo + Z.of_nat i)%Z ∧ (v ≤ hi)%Z.
Proof. rewrite lookup_seqZ. lia. Qed.
Lemma ordinal_leq lo hi mode : mode ≠ "geq"%string → ∃ c, ordinal_scale lo hi mode = Ok c ∧ good c ∧
  objs c = map value_eq (seqZ lo (hi + 1 - lo)) ∧ atts c = map (op_name "<= ") (seqZ lo (hi - lo)) ∧
  ∀ v w, incident c (value_eq v) (op_name "<= " w) ↔ (lo ≤ v ≤ hi ∧ lo ≤ w < hi ∧ v ≤ w)%Z.
Proof.
  intros Hm. unfold ordinal_scale. apply String.eqb_neq in Hm. rewrite Hm. set (vals := seqZ lo (hi + 1 - lo)).
  assert (length vals = Z.to_nat (hi + 1 - lo)) as Hl by apply seqZ_length.
  assert (take (length vals - 1) vals = seqZ lo (hi - lo)) as ->.
  { apply list_eq. intros i. apply option_eq. intros v. rewrite lookup_seqZ. destruct (decide (i < length vals - 1)) as [Hi|Hi].
    - rewrite lookup_take by done. unfold vals. rewrite lookup_seqZ_le. lia.
    - rewrite lookup_take_ge by lia. split; [done|]. lia. }
  rewrite map_length. destruct (table_scale vals (seqZ lo (hi - lo)) (op_name "<= ") (λ i, replicate i false ++ replicate (length (seqZ lo (hi - lo)) - i) true) (λ v w, (v ≤ w)%Z)) as (c & E & Hg & Ho & Ha & HI).
  - apply NoDup_seqZ.
  - apply NoDup_seqZ.
  - apply op_name_inj.
  - intros i Hi. rewrite app_length, !replicate_length, seqZ_length. lia.
  - intros i j v w Hv%lookup_seqZ_le Hw%lookup_seqZ. rewrite lookup_two; [|rewrite seqZ_length; lia..]. case_decide; split; try done; lia.
  - exists c. split; [exact E|]. split; [done|]. split; [done|]. split; [done|]. intros v w. rewrite HI. unfold vals. rewrite !elem_of_seqZ. lia.
Qed.
Lemma ordinal_geq lo hi : ∃ c, ordinal_scale lo hi "geq" = Ok c ∧ good c ∧
  objs c = map value_eq (seqZ lo (hi + 1 - lo)) ∧ atts c = map (op_name ">= ") (seqZ (lo + 1) (hi - lo)) ∧
  ∀ v w, incident c (value_eq v) (op_name ">= " w) ↔ (lo ≤ v ≤ hi ∧ lo < w ≤ hi ∧ w ≤ v)%Z.
Proof.
  unfold ordinal_scale. cbn [String.eqb]. change (String.eqb "geq" "geq") with true. cbv iota. set (vals := seqZ lo (hi + 1 - lo)).
  assert (length vals = Z.to_nat (hi + 1 - lo)) as Hl by apply seqZ_length.
  assert (drop 1 vals = seqZ (lo + 1) (hi - lo)) as ->.
  { apply list_eq. intros i. apply option_eq. intros v. rewrite lookup_drop, lookup_seqZ. unfold vals. rewrite lookup_seqZ_le. lia. }
  rewrite map_length. destruct (table_scale vals (seqZ (lo + 1) (hi - lo)) (op_name ">= ") (λ i, replicate i true ++ replicate (length (seqZ (lo + 1) (hi - lo)) - i) false) (λ v w, (w ≤ v)%Z)) as (c & E & Hg & Ho & Ha & HI).
  - apply NoDup_seqZ.
  - apply NoDup_seqZ.
  - apply op_name_inj.
  - intros i Hi. rewrite app_length, !replicate_length, seqZ_length. lia.
  - intros i j v w Hv%lookup_seqZ_le Hw%lookup_seqZ. rewrite lookup_two; [|rewrite seqZ_length; lia..]. case_decide; split; try done; lia.
  - exists c. split; [exact E|]. split; [done|]. split; [done|]. split; [done|]. intros v w. rewrite HI. unfold vals. rewrite !elem_of_seqZ. lia.
Qed.

(** ** Nominal scales *)
Definition val_name (v : bool) : name := NStr ("value == " ++ float_str v).
Definition flt_name (v : bool) : name := NStr (float_str v).
Lemma val_name_inj v w : val_name v = val_name w → v = w.
Proof. by destruct v, w. Qed.
Lemma flt_name_inj v w : flt_name v = flt_name w → v = w.
Proof. by destruct v, w. Qed.
Lemma nominal_scale_spec ord a c : good c → (∀ X : gset bool, ord X ≡ₚ elements X) → is_str a = true → a ∈ atts c →
  ∃ s vals, nominal_scale ord a c = Ok s ∧ good s ∧ objs s = map val_name vals ∧ atts s = map flt_name vals ∧ NoDup vals ∧
    (∀ b, b ∈ vals ↔ ∃ g, g ∈ objs c ∧ b = bool_decide (incident c g a)) ∧
    ∀ v w, incident s (val_name v) (flt_name w) ↔ v ∈ vals ∧ v = w.
Proof.
  intros Hg Hord Hs Ha. unfold nominal_scale, scale_index. destruct a as [a|]; [|done].
  destruct (py_index_Some (NStr a) (atts c) Ha) as [j Hj]. rewrite Hj. cbn [mbind res_bind]. pose proof (py_index_Ok _ _ _ Hj) as Hja.
  set (get := λ r : list bool, get_or IndexError (r !! j)).
  assert (∀ i g, objs c !! i = Some g → ∃ r, cross c !! i = Some r ∧ get r = Ok (bool_decide (incident c g (NStr a)))) as Hcell.
  { intros i g Hi. pose proof (cellb_incident c i j g (NStr a) (good_distinct c Hg) (good_wf c Hg) Hi Hja) as H.
    apply cellb_Some in H as (r & Hr & Hb). exists r. rewrite (wf_cross c (good_wf c Hg)). split; [done|]. unfold get. by rewrite Hb. }
  assert (length (cross c) = length (objs c)) as Hl by by rewrite (wf_cross c (good_wf c Hg)), (wf_rows c (good_wf c Hg)).
  destruct (mapM_is_ok get (cross c)) as [cells Hcells].
  { intros r [i Hi]%elem_of_list_lookup. destruct (lookup_lt_is_Some_2 (objs c) i) as [g Hg']; [rewrite <-Hl; by eapply lookup_lt_Some|].
    destruct (Hcell i g Hg') as (r' & Hr' & E). exists (bool_decide (incident c g (NStr a))). congruence. }
  rewrite Hcells. cbn [mbind res_bind]. set (vals := ord (list_to_set cells)).
  assert (NoDup vals) as Hnd by (unfold vals; rewrite Hord; apply NoDup_elements).
  assert (∀ b, b ∈ vals ↔ ∃ g, g ∈ objs c ∧ b = bool_decide (incident c g (NStr a))) as Hvals.
  { intros b. unfold vals. rewrite Hord, elem_of_elements, elem_of_list_to_set. split.
    - intros [i Hi]%elem_of_list_lookup. destruct (mapM_lookup_r _ _ _ _ _ Hcells Hi) as (r & Hr & Eb).
      destruct (lookup_lt_is_Some_2 (objs c) i) as [g Hg']; [rewrite <-Hl; by eapply lookup_lt_Some|].
      destruct (Hcell i g Hg') as (r' & Hr' & E). exists g. split; [by eapply elem_of_list_lookup_2|]. congruence.
    - intros (g & [i Hi]%elem_of_list_lookup & ->). destruct (Hcell i g Hi) as (r & Hr & E).
      destruct (mapM_lookup _ _ _ _ _ Hcells Hr) as (b & Hb & Eb). eapply elem_of_list_lookup_2. rewrite Hb. congruence. }
  set (row := λ i, <[i := true]> (replicate (length vals) false)).
  destruct (mk_context_ok (map row (seq 0 (length vals))) None (map val_name vals) (map flt_name vals)) as [d Hd].
  { by rewrite !map_length, seq_length. }
  { intros r (i & -> & _)%elem_of_list_fmap. unfold row. by rewrite insert_length, replicate_length, map_length. }
  change (map (λ v, NStr ("value == " +:+ float_str v)) vals) with (map val_name vals). change (map (λ v, NStr (float_str v)) vals) with (map flt_name vals).
  rewrite Hd. cbn [mbind res_bind]. destruct (mk_context_good _ _ _ _ _ Hd) as (Hgd & Hod & Had & Hnd').
  { apply NoDup_fmap_2_strong; [|done]. intros x y _ _. apply val_name_inj. }
  { apply NoDup_fmap_2_strong; [|done]. intros x y _ _. apply flt_name_inj. }
  { done. }
  destruct (new_scale_spec d Hgd) as (s & E & Hgs & Hos & Has & Hns). exists s, vals. split; [done|]. split; [done|]. split; [congruence|]. split; [congruence|].
  split; [done|]. split; [done|]. intros v w. unfold incident. rewrite Hos, Has, Hns, Hod, Had, Hnd'. split.
  - intros (i & k & r & Hi & Hk & Hr & Hb). rewrite lookup_map in Hi. rewrite lookup_map in Hk. rewrite lookup_map in Hr.
    destruct (vals !! i) as [v'|] eqn:Ev; [|done]. destruct (vals !! k) as [w'|] eqn:Ew; [|done].
    apply (inj Some), val_name_inj in Hi. apply (inj Some), flt_name_inj in Hk. subst. rewrite lookup_seq_lt in Hr by by eapply lookup_lt_Some. cbn in Hr.
    apply (inj Some) in Hr. subst r. split; [by eapply elem_of_list_lookup_2|]. unfold row in Hb. destruct (decide (i = k)) as [->|Hne]; [congruence|].
    rewrite list_lookup_insert_ne in Hb by done. apply lookup_replicate in Hb as [? _]. done.
  - intros ([i Hi]%elem_of_list_lookup & <-). exists i, i, (row i). rewrite !lookup_map, Hi, lookup_seq_lt by by eapply lookup_lt_Some. cbn. repeat split.
    unfold row. apply list_lookup_insert. rewrite replicate_length. by eapply lookup_lt_Some.
Qed.
Lemma nominal_scale_err ord a c : is_str a = true → a ∉ atts c → nominal_scale ord a c = Err ValueError.
Proof.
  intros Hs Ha. unfold nominal_scale, scale_index. destruct a; [|done].
  assert (py_index (NStr s) (atts c) = Err ValueError) as ->; [|done]. by apply py_index_Err.
Qed.
Lemma nominal_scale_index ord s c k z : good c → atts c !! k = Some (NStr s) →
  z = Z.of_nat k ∨ z = (Z.of_nat k - Z.of_nat (length (atts c)))%Z → nominal_scale ord (NInt z) c = nominal_scale ord (NStr s) c.
Proof.
  intros Hg Hk Hz. pose proof (good_wf c Hg) as Hw. unfold nominal_scale, scale_index.
  rewrite (proj2 (py_index_NoDup (NStr s) (atts c) k (proj2 (good_distinct c Hg))) Hk). cbn [mbind res_bind].
  pose proof (lookup_lt_Some _ _ _ Hk) as Hlt.
  match goal with |- (mapM ?f _ ≫= _) = (mapM ?g _ ≫= _) => assert (mapM f (cross c) = mapM g (cross c)) as ->; [|done] end.
  apply PyFacts.mapM_ext. intros r Hr. rewrite (wf_cross c Hw) in Hr. apply elem_of_list_lookup in Hr as [i Hi]. pose proof (wf_cols c Hw i r Hi) as Hl.
  destruct (decide (0 ≤ z)%Z) as [Hz0|Hz0].
  - rewrite (proj2 (Z.leb_le 0 z) Hz0). do 2 f_equal. lia.
  - rewrite (proj2 (Z.leb_gt 0 z)) by lia. rewrite (proj2 (Z.leb_le _ _)) by lia. do 2 f_equal. lia.
Qed.
Lemma nominal_scale_range ord c z : good c → objs c ≠ [] →
  (z < - Z.of_nat (length (atts c)))%Z ∨ (Z.of_nat (length (atts c)) ≤ z)%Z → nominal_scale ord (NInt z) c = Err IndexError.
Proof.
  intros Hg Hne Hz. pose proof (good_wf c Hg) as Hw. unfold nominal_scale, scale_index. cbn [mbind res_bind].
  rewrite (wf_cross c Hw). destruct (np c) as [|r rows] eqn:E.
  { exfalso. apply Hne, length_zero_iff_nil. rewrite <-(wf_rows c Hw). by rewrite E. }
  assert (length r = length (atts c)) as Hl by (apply (wf_cols c Hw 0); by rewrite E). cbn [mapM].
  destruct (decide (0 ≤ z)%Z) as [Hz0|Hz0].
  - rewrite (proj2 (Z.leb_le 0 z) Hz0). rewrite lookup_ge_None_2 by lia. done.
  - rewrite (proj2 (Z.leb_gt 0 z)) by lia. rewrite (proj2 (Z.leb_gt _ _)) by lia. done.
Qed.

(** ** Names without a colon *)
Definition colon : Ascii.ascii := Ascii.ascii_of_nat 58.
Lemma no_colon_char s : (∀ x y, s ≠ (x +:+ ":" +:+ y)%string) → has_char colon s = false.
Proof.
  induction s as [|c s IH]; intros H; [done|]. cbn [has_char]. apply orb_false_iff. split.
  - apply bool_decide_eq_false. intros <-. by apply (H "" s).
  - apply IH. intros x y ->. by apply (H (String c x) y).
Qed.
Lemma colon_split a b x y : has_char colon a = false → has_char colon b = false →
  (a +:+ ":" +:+ x)%string = (b +:+ ":" +:+ y)%string → a = b ∧ x = y.
Proof.
  revert b. induction a as [|c a IH]; intros [|d b] Ha Hb H.
  - split; [done|]. by apply (str_app_inj_l ":") in H.
  - exfalso. change (String colon x = String d (b +:+ ":" +:+ y)) in H. injection H as <- _. cbn in Hb. done.
  - exfalso. change (String c (a +:+ ":" +:+ x) = String colon y) in H. injection H as -> _. cbn in Ha. done.
  - rewrite !string_cons_app in H. injection H as -> H. cbn [has_char] in Ha, Hb. apply orb_false_iff in Ha as [_ Ha]. apply orb_false_iff in Hb as [_ Hb].
    destruct (IH b Ha Hb H) as [-> ->]. done.
Qed.
Lemma NoDup_concat {A} (ls : list (list A)) : (∀ l, l ∈ ls → NoDup l) →
  (∀ i j l k x, ls !! i = Some l → ls !! j = Some k → x ∈ l → x ∈ k → i = j) → NoDup (concat ls).
Proof.
  induction ls as [|l ls IH]; intros H1 H2; [constructor|]. cbn. apply NoDup_app. split; [apply H1; by left|]. split.
  - intros x Hx Hc. apply elem_of_list_In, in_concat in Hc as (k & Hk%elem_of_list_In & Hxk%elem_of_list_In). apply elem_of_list_lookup in Hk as [j Hj].
    by specialize (H2 0 (S j) l k x eq_refl Hj Hx Hxk).
  - apply IH; [intros k Hk; apply H1; by right|]. intros i j k k' x Hi Hj Hx Hx'. specialize (H2 (S i) (S j) k k' x Hi Hj Hx Hx'). lia.
Qed.
Lemma derived_names_NoDup mats scales : NoDup mats → (∀ a, a ∈ mats → is_str a = true ∧ no_colon a) →
  (∀ s, s ∈ scales → NoDup (atts s) ∧ ∀ m, m ∈ atts s → is_str m = true) → NoDup (derived_names mats scales).
Proof.
  intros Hn Ha Hs. unfold derived_names. apply NoDup_concat.
  - intros l [i Hi]%elem_of_list_lookup. apply lookup_zip_with_Some in Hi as (a & s & -> & Hi & Hj).
    destruct (Hs s) as [H1 H2]; [by eapply elem_of_list_lookup_2|]. apply NoDup_fmap_2_strong; [|done].
    intros x y Hx Hy H. injection H as H. apply str_app_inj_l in H. apply (str_app_inj_l ":") in H. apply H2 in Hx, Hy. destruct x, y; try done. cbn in H. by subst.
  - intros i j l k x Hi Hj Hx Hx'. apply lookup_zip_with_Some in Hi as (a & s & -> & Hi & _). apply lookup_zip_with_Some in Hj as (b & t & -> & Hj & _).
    apply elem_of_list_fmap in Hx as (m & -> & _). apply elem_of_list_fmap in Hx' as (m' & H & _). injection H as H.
    destruct (Ha a) as [Sa Ca%no_colon_char]; [by eapply elem_of_list_lookup_2|]. destruct (Ha b) as [Sb Cb%no_colon_char]; [by eapply elem_of_list_lookup_2|].
    destruct (colon_split (pystr a) (pystr b) (pystr m) (pystr m') Ca Cb H) as [E _]. destruct a, b; try done. cbn in E. subst. by eapply NoDup_lookup.
Qed.

(** ** Scaling by nominal and ordinal scales *)
Lemma nominal_scaling ord ev c : good c → (∀ X : gset bool, ord X ≡ₚ elements X) →
  (∀ a, a ∈ atts c → is_str a = true ∧ no_colon a) →
  (∀ v w, ev ("value == " ++ float_str v)%string w = Ok (bool_decide (v = w))) →
  ∃ scales d, mapM (λ a, nominal_scale ord a c) (atts c) = Ok scales ∧ scale_mvcontext ev c scales = Ok d ∧
    wf d ∧ distinct d ∧ objs d = objs c ∧
    ∀ g a v, g ∈ objs c → a ∈ atts c → incident d g (NStr (pystr a ++ ":" ++ float_str v)) ↔ (v = true ↔ incident c g a).
Proof.
  intros Hg Hord Hat Hev. destruct (mapM_is_ok (λ a, nominal_scale ord a c) (atts c)) as [scales Hsc].
  { intros a Ha. destruct (nominal_scale_spec ord a c Hg Hord) as (s & _ & E & _); [by apply Hat|done|eauto]. }
  assert (∀ i s, scales !! i = Some s → ∃ a, atts c !! i = Some a ∧ ∃ vals, good s ∧ objs s = map val_name vals ∧ atts s = map flt_name vals ∧
    (∀ b, b ∈ vals ↔ ∃ g, g ∈ objs c ∧ b = bool_decide (incident c g a)) ∧ ∀ v w, incident s (val_name v) (flt_name w) ↔ v ∈ vals ∧ v = w) as Hs.
  { intros i s Hi. destruct (mapM_lookup_r _ _ _ _ _ Hsc Hi) as (a & Ha & E). exists a. split; [done|].
    assert (a ∈ atts c) as Ha' by by eapply elem_of_list_lookup_2.
    destruct (nominal_scale_spec ord a c Hg Hord) as (s' & vals & E' & H1 & H2 & H3 & _ & H4 & H5); [by apply Hat|done|].
    exists vals. assert (s' = s) as -> by congruence. done. }
  assert (length scales = length (atts c)) as Hl by by apply mapM_length in Hsc.
  pose proof (good_wf c Hg) as Hw. pose proof (good_distinct c Hg) as Hd.
  set (val := λ o a, match mv_cell c o a with Ok b => b | Err _ => false end).
  assert (∀ o a g m, objs c !! o = Some g → atts c !! a = Some m → mv_cell c o a = Ok (bool_decide (incident c g m))) as Hcell.
  { intros o a g m Ho Ha. rewrite mv_cell_cell by done. apply cell_Ok. by apply cellb_incident. }
  exists scales. destruct (scale_context_spec ev (objs c) (atts c) (mv_cell c) scales val) as (d & E & Hwd & Hdd & Hod & Had & HI).
  - intros o a Ho Ha. apply lookup_lt_is_Some in Ho as [g Ho]. apply lookup_lt_is_Some in Ha as [m Ha]. unfold val. by rewrite (Hcell o a g m).
  - intros a s e o _ Hsi He _. destruct (Hs a s Hsi) as (m & _ & vals & _ & Ho & _). rewrite Ho in He. apply elem_of_list_fmap in He as (v & -> & _).
    eexists. apply Hev.
  - apply Hd.
  - lia.
  - intros a Ha. by apply Hat.
  - intros ai s _ Hsi. destruct (Hs ai s Hsi) as (m & _ & vals & Hgs & _ & Ha & _). split; [apply Hgs|]. split; [apply Hgs|].
    intros x Hx. rewrite Ha in Hx. by apply elem_of_list_fmap in Hx as (v & -> & _).
  - apply derived_names_NoDup; [apply Hd|done|]. intros s [i Hi]%elem_of_list_lookup. destruct (Hs i s Hi) as (m & _ & vals & Hgs & _ & Ha & _). split; [apply Hgs|].
    intros x Hx. rewrite Ha in Hx. by apply elem_of_list_fmap in Hx as (v & -> & _).
  - exists d. split; [done|]. split; [done|]. split; [done|]. split; [done|]. split; [done|].
    intros g a v [o Ho]%elem_of_list_lookup [ai Hai]%elem_of_list_lookup.
    destruct (lookup_lt_is_Some_2 scales ai) as [s Hsi]; [rewrite Hl; by eapply lookup_lt_Some|].
    destruct (Hs ai s Hsi) as (a' & Ha' & vals & Hgs & Hos & Has & Hv & HIs). assert (a' = a) as -> by congruence.
    assert (v ∈ vals → incident d g (NStr (pystr a ++ ":" ++ float_str v)) ↔ (v = true ↔ incident c g a)) as Hin.
    { intros Hvv. change (float_str v) with (pystr (flt_name v)). rewrite (HI o g ai a s (flt_name v)); [|done|done|done|].
      2:{ rewrite Has. apply elem_of_list_fmap. eauto. }
      unfold val. rewrite (Hcell o ai g a) by done. split.
      - intros (e & He & Heq & Hinc). rewrite Hos in He. apply elem_of_list_fmap in He as (v' & -> & Hv').
        apply HIs in Hinc as [_ ->]. unfold val_name, eval_name in Heq. rewrite Hev in Heq.
        assert (bool_decide (v = bool_decide (incident c g a)) = true) as E' by congruence. apply bool_decide_eq_true in E' as ->.
        apply bool_decide_eq_true.
      - intros Hb. exists (val_name v). split; [rewrite Hos; apply elem_of_list_fmap; eauto|]. split; [|by apply HIs].
        unfold val_name, eval_name. rewrite Hev. f_equal. apply bool_decide_eq_true. destruct v.
        + symmetry. apply bool_decide_eq_true. tauto.
        + symmetry. apply bool_decide_eq_false. intros H. by apply Hb in H. }
    destruct (decide (v ∈ vals)) as [Hvv|Hvv]; [by apply Hin|]. split.
    + intros (i & j & r & _ & Hj & _). exfalso. apply Hvv. rewrite Had in Hj. apply elem_of_list_lookup_2 in Hj. unfold derived_names in Hj.
      apply elem_of_list_In, in_concat in Hj as (l & Hl'%elem_of_list_In & Hx%elem_of_list_In). apply elem_of_list_lookup in Hl' as [k Hk].
      apply lookup_zip_with_Some in Hk as (b & t & -> & Hb & Ht). apply elem_of_list_fmap in Hx as (m & H & Hm). injection H as H.
      destruct (Hat a) as [Sa Ca%no_colon_char]; [by eapply elem_of_list_lookup_2|]. destruct (Hat b) as [Sb Cb%no_colon_char]; [by eapply elem_of_list_lookup_2|].
      apply (colon_split (pystr a) (pystr b)) in H as [H1 H2]; [|done|done]. assert (b = a) as -> by (destruct a, b; try done; cbn in H1; by subst).
      assert (k = ai) as -> by (eapply NoDup_lookup; [exact (proj2 Hd)|done|done]). assert (t = s) as -> by congruence.
      rewrite Has in Hm. apply elem_of_list_fmap in Hm as (w & -> & Hw'). cbn in H2. assert (v = w) as ->; [|done]. by destruct v, w.
    + intros Hb. exfalso. apply Hvv, Hv. exists g. split; [by eapply elem_of_list_lookup_2|]. destruct v.
      * symmetry. apply bool_decide_eq_true. tauto.
      * symmetry. apply bool_decide_eq_false. intros H. by apply Hb in H.
Qed.
Lemma value_scaling {V} (num : V → Z) ev mos mats mcell (val : nat → nat → V) scales :
  NoDup mos → NoDup mats → (∀ a, a ∈ mats → is_str a = true ∧ no_colon a) →
  (∀ o a, o < length mos → a < length mats → mcell o a = Ok (val o a)) →
  (∀ z v, ev ("value == " ++ pystr (NInt z))%string v = Ok (bool_decide (num v = z))) →
  length scales = length mats →
  (∀ s, s ∈ scales → good s ∧ (∃ vals, objs s = map value_eq vals) ∧ ∀ m, m ∈ atts s → is_str m = true) →
  ∃ d, scale_context ev mos mats mcell scales = Ok d ∧ wf d ∧ distinct d ∧ objs d = mos ∧ atts d = derived_names mats scales ∧
    ∀ o g ai a s m, mos !! o = Some g → mats !! ai = Some a → scales !! ai = Some s → m ∈ atts s →
      incident d g (NStr (pystr a ++ ":" ++ pystr m)) ↔ incident s (value_eq (num (val o ai))) m.
Proof.
  intros Hmos Hmats Hstr Hval Hev Hl Hs.
  assert (∀ ai s, scales !! ai = Some s → good s ∧ (∃ vals, objs s = map value_eq vals) ∧ ∀ m, m ∈ atts s → is_str m = true) as Hs' by (intros ai s Hi; apply Hs; by eapply elem_of_list_lookup_2).
  destruct (scale_context_spec ev mos mats mcell scales val) as (d & E & Hw & Hd & Ho & Ha & HI); [done| |done|lia|intros a Ha; by apply Hstr| | |].
  - intros a s e o _ Hsi He _. destruct (Hs' a s Hsi) as (_ & (vals & Ho) & _). rewrite Ho in He. apply elem_of_list_fmap in He as (z & -> & _). eexists. apply Hev.
  - intros ai s _ Hsi. destruct (Hs' ai s Hsi) as (Hg & _ & H). split; [apply Hg|]. split; [apply Hg|done].
  - apply derived_names_NoDup; [done|done|]. intros s Hsi. destruct (Hs s Hsi) as (Hg & _ & H). split; [apply Hg|done].
  - exists d. split; [done|]. split; [done|]. split; [done|]. split; [done|]. split; [done|]. intros o g ai a s m H1 H2 H3 H4. rewrite (HI o g ai a s m H1 H2 H3 H4).
    destruct (Hs' ai s H3) as (Hg & (vals & Hos) & _). split.
    + intros (e & He & Hb & Hi). rewrite Hos in He. apply elem_of_list_fmap in He as (z & -> & _). unfold value_eq, eval_name in Hb. rewrite Hev in Hb.
      assert (bool_decide (num (val o ai) = z) = true) as E' by congruence. by apply bool_decide_eq_true in E' as ->.
    + intros Hi. exists (value_eq (num (val o ai))). split; [by destruct Hi as (i & j & r & Hi & _); eapply elem_of_list_lookup_2|]. split; [|done].
      unfold value_eq, eval_name. rewrite Hev. f_equal. by apply bool_decide_eq_true.
Qed.
Lemma ordinal_scaling_leq {V} (num : V → Z) ev mos mats mcell (val : nat → nat → V) lo hi s :
  NoDup mos → NoDup mats → (∀ a, a ∈ mats → is_str a = true ∧ no_colon a) →
  (∀ o a, o < length mos → a < length mats → mcell o a = Ok (val o a)) →
  (∀ z v, ev ("value == " ++ pystr (NInt z))%string v = Ok (bool_decide (num v = z))) →
  ordinal_scale lo hi "leq" = Ok s →
  ∃ d, scale_context ev mos mats mcell (replicate (length mats) s) = Ok d ∧ wf d ∧ distinct d ∧ objs d = mos ∧
    ∀ o g ai a w, mos !! o = Some g → mats !! ai = Some a → (lo ≤ w < hi)%Z →
      incident d g (NStr (pystr a ++ ":<= " ++ pystr (NInt w))) ↔ (lo ≤ num (val o ai) ≤ w)%Z.
Proof.
  intros Hmos Hmats Hstr Hval Hev Hs. destruct (ordinal_leq lo hi "leq") as (s' & E & Hg & Ho & Ha & HI); [done|]. assert (s' = s) as -> by congruence.
  destruct (value_scaling num ev mos mats mcell val (replicate (length mats) s) Hmos Hmats Hstr Hval Hev) as (d & Ed & Hw & Hd & Hod & _ & HId).
  - by rewrite replicate_length.
  - intros t Ht. apply elem_of_replicate in Ht as [-> _]. split; [done|]. split; [eauto|]. intros m Hm. rewrite Ha in Hm. by apply elem_of_list_fmap in Hm as (z & -> & _).
  - exists d. split; [done|]. split; [done|]. split; [done|]. split; [done|]. intros o g ai a w Hog Hai Hw'.
    rewrite (HId o g ai a s (op_name "<= " w) Hog Hai); [rewrite HI; lia| |].
    + apply lookup_replicate. split; [done|]. by eapply lookup_lt_Some.
    + rewrite Ha. apply elem_of_list_fmap. exists w. split; [done|]. apply elem_of_seqZ. lia.
Qed.
Lemma ordinal_scaling_geq {V} (num : V → Z) ev mos mats mcell (val : nat → nat → V) lo hi s :
  NoDup mos → NoDup mats → (∀ a, a ∈ mats → is_str a = true ∧ no_colon a) →
  (∀ o a, o < length mos → a < length mats → mcell o a = Ok (val o a)) →
  (∀ z v, ev ("value == " ++ pystr (NInt z))%string v = Ok (bool_decide (num v = z))) →
  ordinal_scale lo hi "geq" = Ok s →
  ∃ d, scale_context ev mos mats mcell (replicate (length mats) s) = Ok d ∧ wf d ∧ distinct d ∧ objs d = mos ∧
    ∀ o g ai a w, mos !! o = Some g → mats !! ai = Some a → (lo < w ≤ hi)%Z →
      incident d g (NStr (pystr a ++ ":>= " ++ pystr (NInt w))) ↔ (w ≤ num (val o ai) ≤ hi)%Z.
Proof.
  intros Hmos Hmats Hstr Hval Hev Hs. destruct (ordinal_geq lo hi) as (s' & E & Hg & Ho & Ha & HI). assert (s' = s) as -> by congruence.
  destruct (value_scaling num ev mos mats mcell val (replicate (length mats) s) Hmos Hmats Hstr Hval Hev) as (d & Ed & Hw & Hd & Hod & _ & HId).
  - by rewrite replicate_length.
  - intros t Ht. apply elem_of_replicate in Ht as [-> _]. split; [done|]. split; [eauto|]. intros m Hm. rewrite Ha in Hm. by apply elem_of_list_fmap in Hm as (z & -> & _).
  - exists d. split; [done|]. split; [done|]. split; [done|]. split; [done|]. intros o g ai a w Hog Hai Hw'.
    rewrite (HId o g ai a s (op_name ">= " w) Hog Hai); [rewrite HI; lia| |].
    + apply lookup_replicate. split; [done|]. by eapply lookup_lt_Some.
    + rewrite Ha. apply elem_of_list_fmap. exists w. split; [done|]. apply elem_of_seqZ. lia.
Qed.
Lemma scale_mvcontext_spec (ev : string → bool → res bool) c scales :
  good c → (∀ a s e b, a < length (atts c) → scales !! a = Some s → e ∈ objs s → ∃ b', eval_name ev e b = Ok b') →
  length (atts c) ≤ length scales → (∀ a, a ∈ atts c → is_str a = true) →
  (∀ ai s, ai < length (atts c) → scales !! ai = Some s → wf s ∧ distinct s ∧ ∀ m, m ∈ atts s → is_str m = true) →
  NoDup (derived_names (atts c) scales) →
  ∃ d, scale_mvcontext ev c scales = Ok d ∧ wf d ∧ distinct d ∧ objs d = objs c ∧ atts d = derived_names (atts c) scales ∧
    ∀ g ai a s m, g ∈ objs c → atts c !! ai = Some a → scales !! ai = Some s → m ∈ atts s →
      incident d g (NStr (pystr a ++ ":" ++ pystr m)) ↔ ∃ e, e ∈ objs s ∧ eval_name ev e (bool_decide (incident c g a)) = Ok true ∧ incident s e m.
Proof.
  intros Hg Hev Hl Hs Hsc Hn. pose proof (good_wf c Hg) as Hw. pose proof (good_distinct c Hg) as Hd.
  set (val := λ o a, match mv_cell c o a with Ok b => b | Err _ => false end).
  assert (∀ o a g m, objs c !! o = Some g → atts c !! a = Some m → mv_cell c o a = Ok (bool_decide (incident c g m))) as Hcell.
  { intros o a g m Ho Ha. rewrite mv_cell_cell by done. apply cell_Ok. by apply cellb_incident. }
  destruct (scale_context_spec ev (objs c) (atts c) (mv_cell c) scales val) as (d & E & Hwd & Hdd & Hod & Had & HI).
  - intros o a Ho Ha. apply lookup_lt_is_Some in Ho as [g Ho]. apply lookup_lt_is_Some in Ha as [m Ha]. unfold val. by rewrite (Hcell o a g m).
  - intros a s e o Ha Hsi He _. by eapply Hev.
  - apply Hd.
  - done.
  - done.
  - done.
  - done.
  - exists d. split; [done|]. split; [done|]. split; [done|]. split; [done|]. split; [done|]. intros g ai a s m [o Ho]%elem_of_list_lookup Ha Hsi Hm.
    rewrite (HI o g ai a s m Ho Ha Hsi Hm). unfold val. by rewrite (Hcell o ai g a).
Qed.
