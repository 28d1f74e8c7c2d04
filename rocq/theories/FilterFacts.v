(** * Facts about the filtering indices *)
From Coq Require Import QArith Qcanon.
From Verif Require Import Py Spec PyFacts SpecFacts ContextModel ContextSpec ContextFacts LatticeSpec LatticeModel NorrisFacts
  LatticeFacts FilterModel.
Local Open Scope nat_scope.

Definition zsum {A} (f : A → Z) (l : list A) : Z := foldr (fun x a => (f x + a)%Z) 0%Z l.
Lemma zsum_perm {A} (f : A → Z) l k : l ≡ₚ k → zsum f l = zsum f k.
Proof. induction 1; simpl; lia. Qed.
Lemma zsum_app {A} (f : A → Z) l k : zsum f (l ++ k) = (zsum f l + zsum f k)%Z.
Proof. induction l; simpl; lia. Qed.
Lemma lfilter_perm {A} (f : A → bool) l k : l ≡ₚ k → List.filter f l ≡ₚ List.filter f k.
Proof.
  induction 1 as [|x l k _ IH|x y l|l k m _ IH1 _ IH2]; simpl.
  - done.
  - destruct (f x); [by constructor|done].
  - destruct (f x), (f y); try done. by constructor.
  - by etrans.
Qed.
Lemma in_lfilter {A} (f : A → bool) l x : x ∈ List.filter f l ↔ x ∈ l ∧ f x = true.
Proof. by rewrite !elem_of_list_In, filter_In. Qed.

Section stab.
  Context (lt : fconcept → fconcept → bool) (side : fconcept → gset name) (pop : nat → gset fconcept → fconcept).
  Context (cs : list fconcept) (Hnd : NoDup cs) (N : fconcept → Z).
  Context (Hirr : ∀ x, lt x x = false) (Htr : ∀ x y z, lt x y = true → lt y z = true → lt x z = true).
  Definition below (x : fconcept) (l : list fconcept) : list fconcept := List.filter (fun y => lt y x) l.
  Context (HN : ∀ x, x ∈ cs → (2 ^ Z.of_nat (size (side x)) = N x + zsum N (below x cs))%Z).
  Context (ltc ltu : fconcept → fconcept → bool).
  Context (Hltc : ∀ x y, x ∈ cs → y ∈ cs → ltc x y = lt x y) (Hltu : ∀ x y, x ∈ cs → y ∈ cs → ltu x y = lt x y).
  Context (Hpop : ∀ k W, W ≠ ∅ → pop k W ∈ W).

  Lemma minimal_ex R : R ≠ [] → ∃ x, x ∈ R ∧ below x R = [].
  Proof.
    assert (∀ x l, (∀ y, y ∈ l → lt y x = false) → below x l = []) as Hb.
    { intros x l H. destruct (below x l) as [|y k] eqn:E; [done|]. exfalso.
      assert (y ∈ below x l) as Hy by (rewrite E; by left). apply in_lfilter in Hy as [H1 H2]. by rewrite H in H2. }
    assert (∀ x l y, below x l = [] → y ∈ l → lt y x = false) as Hb'.
    { intros x l y E Hy. destruct (lt y x) eqn:El; [|done]. assert (y ∈ below x l) as H by by apply in_lfilter.
      rewrite E in H. by apply elem_of_nil in H. }
    induction R as [|x R IH]; [done|]. intros _. destruct R as [|x' R'].
    - exists x. split; [by left|]. apply Hb. intros y ->%elem_of_list_singleton. apply Hirr.
    - destruct IH as (m & Hm & Hmin); [done|]. destruct (lt x m) eqn:E.
      + exists x. split; [by left|]. apply Hb. intros y [->|Hy]%elem_of_cons; [apply Hirr|].
        destruct (lt y x) eqn:Ey; [|done]. pose proof (Htr _ _ _ Ey E) as H. by rewrite (Hb' _ _ _ Hmin Hy) in H.
      + exists m. split; [by right|]. apply Hb. intros y [->|Hy]%elem_of_cons; [done|]. by eapply Hb'.
  Qed.
  Lemma stab_upd_spec b l : ∀ s c W, b ∈ cs → (∀ x, x ∈ l → x ∈ cs) → NoDup l →
    is_Some (dget b s) → (∀ x, x ∈ l → is_Some (dget x s) ∧ is_Some (dget x c)) →
    ∃ s' c' W', stab_upd ltu b l s c W = Ok (s', c', W') ∧
      (∀ x, dget x s' = if decide (x ∈ l ∧ lt b x = true) then Some (default 0 (dget x s) - default 0 (dget b s))%Z else dget x s) ∧
      (∀ x, dget x c' = if decide (x ∈ l ∧ lt b x = true) then Some (default 0 (dget x c) - 1)%Z else dget x c) ∧
      (∀ x, x ∈ W' ↔ x ∈ W ∨ (x ∈ l ∧ lt b x = true ∧ dget x c = Some 1%Z)).
  Proof.
    induction l as [|y l IH]; intros s c W Hb Hl Hndl Hbs Hls; cbn [stab_upd].
    { exists s, c, W. split; [done|]. split_and!; intros x.
      - rewrite decide_False; [done|]. by intros [?%elem_of_nil _].
      - rewrite decide_False; [done|]. by intros [?%elem_of_nil _].
      - rewrite elem_of_nil. tauto. }
    apply NoDup_cons in Hndl as [Hy Hndl]. rewrite Hltu by (try done; apply Hl; by left).
    assert (∀ x, x ∈ l → x ∈ cs) as Hl' by (intros x Hx; apply Hl; by right).
    assert (∀ x, x ∈ l → x ≠ y) as Hne by (intros x Hx ->; done).
    destruct (lt b y) eqn:Eb.
    - destruct (Hls y) as [[sy Hsy] [cy Hcy]]; [by left|]. destruct Hbs as [sb Hsb]. rewrite Hsy, Hsb, Hcy. cbn [mbind res_bind get_or].
      assert (b ≠ y) as Hby by (intros ->; by rewrite Hirr in Eb).
      destruct (IH (dset y (sy - sb)%Z s) (dset y (cy - 1)%Z c) (if decide (cy - 1 = 0)%Z then {[y]} ∪ W else W)) as (s' & c' & W' & E & Hs' & Hc' & HW').
      + done.
      + done.
      + done.
      + rewrite dget_dset, decide_False by done. by eexists.
      + intros x Hx. rewrite !dget_dset, !decide_False by (intros ->; done). apply Hls. by right.
      + rewrite E. exists s', c', W'. split; [done|]. split_and!; intros x.
        * rewrite Hs'. rewrite !dget_dset. rewrite (decide_False (P := y = b)) by done. rewrite Hsb.
          destruct (decide (y = x)) as [<-|Hyx].
          -- rewrite decide_False by tauto. rewrite decide_True by (split; [by left|done]). by rewrite Hsy.
          -- destruct (decide (x ∈ l ∧ lt b x = true)) as [Hd|Hd].
             ++ rewrite decide_True by (split; [by right; apply Hd|apply Hd]). done.
             ++ rewrite decide_False; [done|]. intros [[->|?]%elem_of_cons ?]; [done|]. tauto.
        * rewrite Hc'. rewrite !dget_dset. destruct (decide (y = x)) as [<-|Hyx].
          -- rewrite decide_False by tauto. rewrite decide_True by (split; [by left|done]). by rewrite Hcy.
          -- destruct (decide (x ∈ l ∧ lt b x = true)) as [Hd|Hd].
             ++ rewrite decide_True by (split; [by right; apply Hd|apply Hd]). done.
             ++ rewrite decide_False; [done|]. intros [[->|?]%elem_of_cons ?]; [done|]. tauto.
        * rewrite HW'. rewrite dget_dset, elem_of_cons.
          assert (x ∈ (if decide (cy - 1 = 0)%Z then {[y]} ∪ W else W) ↔ x ∈ W ∨ (x = y ∧ cy = 1%Z)) as ->.
          { destruct (decide (cy - 1 = 0)%Z); [rewrite elem_of_union, elem_of_singleton; intuition lia|]. intuition lia. }
          destruct (decide (y = x)) as [<-|Hyx].
          -- rewrite Hcy. split.
             ++ intros [[?|[_ ->]]|[? _]]; [by left|right; split; [by left|done]|done].
             ++ intros [?|(_ & _ & [= ->])]; [by left; left|left; by right].
          -- split; [intros [[?|[-> _]]|?]; [by left|done|right; tauto]|]. intros [?|([->|?] & ? & ?)]; [tauto|done|tauto].
    - destruct (IH s c W Hb Hl' Hndl Hbs) as (s' & c' & W' & E & Hs' & Hc' & HW').
      { intros x Hx. apply Hls. by right. }
      exists s', c', W'. split; [done|]. split_and!; intros x.
      + rewrite Hs'. destruct (decide (x ∈ l ∧ lt b x = true)) as [Hd|Hd].
        * rewrite decide_True by (split; [by right; apply Hd|apply Hd]). done.
        * rewrite decide_False; [done|]. intros [[->|?]%elem_of_cons ?]; [congruence|]. tauto.
      + rewrite Hc'. destruct (decide (x ∈ l ∧ lt b x = true)) as [Hd|Hd].
        * rewrite decide_True by (split; [by right; apply Hd|apply Hd]). done.
        * rewrite decide_False; [done|]. intros [[->|?]%elem_of_cons ?]; [congruence|]. tauto.
      + rewrite HW', elem_of_cons. split; [tauto|]. intros [?|([->|?] & ? & ?)]; [tauto|congruence|tauto].
  Qed.
  Record sinvar (D R : list fconcept) (s c : list (fconcept * Z)) (W : gset fconcept) (st : list (fconcept * Qc)) : Prop := {
    si_perm : D ++ R ≡ₚ cs;
    si_sub : ∀ x, x ∈ R → dget x s = Some (2 ^ Z.of_nat (size (side x)) - zsum N (below x D))%Z;
    si_cnt : ∀ x, x ∈ R → dget x c = Some (Z.of_nat (length (below x R)));
    si_W : ∀ x, x ∈ W ↔ x ∈ R ∧ below x R = [];
    si_st : ∀ x, x ∈ D → dget x st = Some (qdiv (N x) (2 ^ Z.of_nat (size (side x))));
    si_key : ∀ x, x ∈ map fst st → x ∈ D }.
  Lemma stab_loop_spec fuel : ∀ k D R s c W st, length R ≤ fuel → sinvar D R s c W st →
    ∃ st', stab_loop ltu side pop fuel k R s c W st = Ok st' ∧
      (∀ x, x ∈ map fst st' → x ∈ cs) ∧
      ∀ x, x ∈ cs → dget x st' = Some (qdiv (N x) (2 ^ Z.of_nat (size (side x)))).
  Proof.
    induction fuel as [|fuel IH]; intros k D R s c W st Hlen [Hp Hs Hc HW Hst Hkey].
    { destruct R; [|simpl in Hlen; lia]. exists st. split; [done|]. rewrite app_nil_r in Hp. split; intros x Hx.
      - rewrite <-Hp. by apply Hkey.
      - apply Hst. by rewrite Hp. }
    destruct R as [|r0 R0] eqn:ER.
    { exists st. split; [done|]. rewrite app_nil_r in Hp. split; intros x Hx.
      - rewrite <-Hp. by apply Hkey.
      - apply Hst. by rewrite Hp. }
    rewrite <-ER in *. assert (R ≠ []) as HR by by rewrite ER.
    assert (∀ (T : Type) (a b : T), match R with [] => a | _ => b end = b) as Hm by (intros; by rewrite ER).
    cbn [stab_loop]. rewrite Hm. clear Hm ER r0 R0.
    destruct (minimal_ex R HR) as (m & Hm1 & Hm2).
    assert (W ≠ ∅) as HWne by (intros ->; by apply (not_elem_of_empty (C := gset fconcept) m), HW).
    rewrite decide_False by done. cbv zeta.
    pose proof (Hpop k W HWne) as Hb. set (b := pop k W) in *. clearbody b. apply HW in Hb as [HbR Hbmin].
    assert (NoDup (D ++ R)) as HndDR by by rewrite Hp. apply NoDup_app in HndDR as (HndD & HDR & HndR).
    assert (∀ x, x ∈ R → x ∈ cs) as HRcs by (intros x Hx; rewrite <-Hp; apply elem_of_app; by right).
    assert (zsum N (below b D) = zsum N (below b cs)) as Hsum.
    { transitivity (zsum N (below b (D ++ R))); [|apply zsum_perm, lfilter_perm, Hp].
      assert (below b (D ++ R) = below b D ++ below b R) as -> by apply List.filter_app. by rewrite Hbmin, app_nil_r. }
    rewrite (Hs b HbR), Hsum, (HN b (HRcs b HbR)). cbn [get_or mbind res_bind].
    replace (N b + zsum N (below b cs) - zsum N (below b cs))%Z with (N b) by lia.
    rewrite <-(HN b (HRcs b HbR)).
    destruct (proj2 (list_remove_spec b R) HbR) as (R1 & R2 & ER & Hb1 & ->). cbn [mbind res_bind].
    set (R' := R1 ++ R2) in *. assert (R ≡ₚ b :: R') as HpR by (rewrite ER; unfold R'; by rewrite <-Permutation_middle).
    assert (b ∉ R' ∧ NoDup R') as [HbR' HndR'] by (rewrite HpR in HndR; by apply NoDup_cons).
    assert (∀ x, x ∈ R ↔ x = b ∨ x ∈ R') as HRR by (intros x; rewrite HpR; apply elem_of_cons).
    destruct (stab_upd_spec b R' s c (W ∖ {[b]})) as (s' & c' & W' & -> & Hs' & Hc' & HW').
    { by apply HRcs. }
    { intros x Hx. apply HRcs, HRR. by right. }
    { done. }
    { rewrite (Hs b HbR). by eexists. }
    { intros x Hx. rewrite (Hs x), (Hc x) by (apply HRR; by right). split; by eexists. }
    cbn [mbind res_bind fst snd].
    apply (IH (S k) (b :: D)).
    { apply Permutation_length in HpR. simpl in HpR. lia. }
    assert (Hbel : ∀ x, below x R ≡ₚ if lt b x then b :: below x R' else below x R').
    { intros x. unfold below. etrans; [apply lfilter_perm, HpR|]. simpl. by destruct (lt b x). }
    assert (Hblen : ∀ x, length (below x R) = (if lt b x then 1 else 0) + length (below x R')).
    { intros x. rewrite (Permutation_length (Hbel x)). by destruct (lt b x). }
    split.
    - rewrite <-Hp, HpR. by rewrite <-Permutation_middle.
    - intros x Hx. assert (x ∈ R) as HxR by (apply HRR; by right). rewrite Hs'. simpl.
      destruct (lt b x) eqn:E.
      + rewrite decide_True by done. rewrite (Hs x HxR), (Hs b HbR), Hsum, (HN b (HRcs b HbR)). simpl.
        f_equal. unfold below. simpl. lia.
      + rewrite decide_False by (intros [_ ?]; done). by rewrite (Hs x HxR).
    - intros x Hx. assert (x ∈ R) as HxR by (apply HRR; by right). rewrite Hc'. pose proof (Hblen x) as Hl.
      destruct (lt b x) eqn:E.
      + rewrite decide_True by done. rewrite (Hc x HxR). simpl. f_equal. lia.
      + rewrite decide_False by (intros [_ ?]; done). rewrite (Hc x HxR). do 2 f_equal. lia.
    - intros x. rewrite HW', elem_of_difference, elem_of_singleton, HW. pose proof (Hblen x) as Hl.
      assert (below x R' = [] ↔ length (below x R') = 0) as HH by (split; [by intros ->|apply nil_length_inv]).
      rewrite HH. clear HH.
      assert (below x R = [] ↔ length (below x R) = 0) as HH by (split; [by intros ->|apply nil_length_inv]).
      rewrite HH. clear HH. split.
      + intros [[[H1 H2] H3]|(H1 & H2 & H3)].
        * split; [by apply HRR in H1 as [?|?]|]. destruct (lt b x); lia.
        * split; [done|]. rewrite (Hc x) in H3 by (apply HRR; by right). injection H3 as H3. rewrite H2 in Hl. lia.
      + intros [H1 H2]. destruct (lt b x) eqn:E.
        * right. split; [done|]. split; [done|]. rewrite (Hc x) by (apply HRR; by right). f_equal. lia.
        * left. split; [|by intros ->]. split; [apply HRR; by right|lia].
    - intros x [->|Hx]%elem_of_cons.
      + rewrite dget_dset, decide_True by done. done.
      + rewrite dget_dset, decide_False; [by apply Hst|]. intros ->. by apply (HDR x).
    - intros x. rewrite keys_dset. destruct (decide _); [intros Hx; right; by apply Hkey|].
      rewrite elem_of_app, elem_of_list_singleton. intros [Hx| ->]; [right; by apply Hkey|by left].
  Qed.
  Lemma dget_dict_of_map {V} (f : fconcept → V) l x : x ∈ l → dget x (dict_of (map (fun x => (x, f x)) l)) = Some (f x).
  Proof.
    intros Hx. assert (is_Some (dget x (dict_of (map (fun x => (x, f x)) l)))) as [v Hv].
    { apply dget_is_Some, elem_of_keys_dict_of. rewrite map_map. simpl. by rewrite map_id. }
    rewrite Hv. apply dget_dict_of_elem in Hv. apply elem_of_list_fmap in Hv as (? & [= -> ->] & _). done.
  Qed.
  Lemma stab_spec first b : (∀ x, x ∈ cs → chash x = true) → first cs = Ok b → b ∈ cs → (∀ x, x ∈ cs → x = b ∨ lt b x = true) →
    ∃ st, stab ltc ltu side pop first cs = Ok st ∧ (∀ x, x ∈ map fst st → x ∈ cs) ∧
      ∀ x, x ∈ cs → dget x st = Some (qdiv (N x) (2 ^ Z.of_nat (size (side x)))).
  Proof.
    intros Hh Hf Hb Hmin. unfold stab. assert (forallb chash cs = true) as ->.
    { apply forallb_forall. intros x Hx. apply Hh. by apply elem_of_list_In. }
    rewrite Hf. cbn [mbind res_bind]. apply (stab_loop_spec (length cs) 0 []); [done|]. split.
    - done.
    - intros x Hx. unfold stab_subsets. rewrite (dget_dict_of_map (fun x => 2 ^ Z.of_nat (size (side x)))%Z) by done.
      f_equal. simpl. lia.
    - intros x Hx. unfold stab_count. rewrite (dget_dict_of_map (fun x => Z.of_nat (length (List.filter (λ y, ltc y x) cs)))) by done.
      do 3 f_equal. unfold below. apply filter_ext_in. intros y Hy. apply Hltc; [by apply elem_of_list_In|done].
    - intros x. rewrite elem_of_singleton. split.
      + intros ->. split; [done|]. destruct (below b cs) as [|y l] eqn:E; [done|]. exfalso.
        assert (y ∈ below b cs) as Hy by (rewrite E; by left). apply in_lfilter in Hy as [H1 H2].
        destruct (Hmin y H1) as [->|H3]; [by rewrite Hirr in H2|]. pose proof (Htr _ _ _ H2 H3) as H. by rewrite Hirr in H.
      + intros [Hx E]. destruct (Hmin x Hx) as [->|H]; [done|]. assert (b ∈ below x cs) as Hbx by by apply in_lfilter.
        rewrite E in Hbx. by apply elem_of_nil in Hbx.
    - by intros x ?%elem_of_nil.
    - by intros x ?%elem_of_nil.
  Qed.
End stab.

(** ** Counting subsets *)
Fixpoint subs_l (l : list name) : list (gset name) :=
  match l with [] => [∅] | x :: l' => subs_l l' ++ map (fun S => {[x]} ∪ S) (subs_l l') end.
Lemma elem_of_subs_l l S : S ∈ subs_l l ↔ S ⊆ list_to_set l.
Proof.
  revert S. induction l as [|x l IH]; intros S; simpl.
  - rewrite elem_of_list_singleton. set_solver.
  - rewrite elem_of_app, elem_of_list_fmap, IH. split.
    + intros [H|(T & -> & HT%IH)]; clear IH; set_solver.
    + intros H. destruct (decide (x ∈ S)) as [Hx|Hx].
      * right. exists (S ∖ {[x]}). rewrite IH. clear IH. split; [apply set_eq; intros y; destruct (decide (y = x)); set_solver|set_solver].
      * left. clear IH. set_solver.
Qed.
Lemma NoDup_subs_l l : NoDup l → NoDup (subs_l l).
Proof.
  induction l as [|x l IH]; intros H; simpl; [apply NoDup_singleton|]. apply NoDup_cons in H as [Hx Hl].
  apply NoDup_app. split; [by apply IH|]. split.
  - intros S HS (T & -> & _)%elem_of_list_fmap. apply elem_of_subs_l in HS.
    assert (x ∈ (list_to_set l : gset name)) as H by (apply HS; set_solver). by apply elem_of_list_to_set in H.
  - apply (NoDup_fmap_2_strong (fun S => {[x]} ∪ S)); [|by apply IH]. intros S T HS%elem_of_subs_l HT%elem_of_subs_l E.
    assert (x ∉ (list_to_set l : gset name)) as Hx' by by rewrite elem_of_list_to_set.
    clear IH Hx. apply set_eq. intros y. split; intros Hy.
    + assert (y ∈ {[x]} ∪ T) as [->%elem_of_singleton|?]%elem_of_union by (rewrite <-E; set_solver); [by apply HS in Hy|done].
    + assert (y ∈ {[x]} ∪ S) as [->%elem_of_singleton|?]%elem_of_union by (rewrite E; set_solver); [by apply HT in Hy|done].
Qed.
Lemma length_subs_l l : Z.of_nat (length (subs_l l)) = (2 ^ Z.of_nat (length l))%Z.
Proof.
  induction l as [|x l IH]; [done|]. cbn [subs_l]. rewrite app_length, map_length.
  replace (Z.of_nat (length (x :: l))) with (1 + Z.of_nat (length l))%Z by (simpl length; lia).
  rewrite Z.pow_add_r by lia. lia.
Qed.
Lemma partition_count {A} (key : A → fconcept) (l : list A) ks : NoDup ks → (∀ a, a ∈ l → key a ∈ ks) →
  Z.of_nat (length l) = zsum (fun k => Z.of_nat (length (List.filter (fun a => bool_decide (key a = k)) l))) ks.
Proof.
  intros Hnd. induction l as [|a l IH]; intros H; simpl.
  - clear. induction ks as [|k ks IH]; [done|]. cbn [zsum foldr]. exact IH.
  - assert (key a ∈ ks) as Ha by (apply H; by left).
    transitivity (1 + Z.of_nat (length l))%Z; [lia|]. rewrite IH by (intros b Hb; apply H; by right).
    clear IH H. induction ks as [|k ks IH]; [by apply elem_of_nil in Ha|]. apply NoDup_cons in Hnd as [Hk Hnd]. simpl.
    destruct (decide (key a = k)) as [E|E].
    + rewrite bool_decide_eq_true_2 by done. simpl.
      assert (∀ (f g : fconcept → Z) l, (∀ x, x ∈ l → f x = g x) → zsum f l = zsum g l) as Hext.
      { clear. intros f g l. induction l as [|x l IH]; intros H; [done|]. simpl. rewrite H by by left.
        rewrite IH; [done|]. intros y Hy. apply H. by right. }
      match goal with |- (1 + (_ + ?z1) = _ + ?z2)%Z => assert (z1 = z2) as Hz end; [|rewrite Hz; lia].
      apply Hext. intros x Hx. rewrite bool_decide_eq_false_2; [done|]. intros E'. congruence.
    + rewrite bool_decide_eq_false_2 by done. apply elem_of_cons in Ha as [Ha|Ha]; [done|].
      specialize (IH Hnd Ha). rewrite <-IH. lia.
Qed.
Section counting.
  Context (lt : fconcept → fconcept → bool) (side : fconcept → gset name) (key : gset name → fconcept).
  Context (cs : list fconcept) (Hnd : NoDup cs) (Hirr : ∀ x, lt x x = false).
  Context (Hkey : ∀ x S, x ∈ cs → S ⊆ side x → key S ∈ cs ∧ (key S = x ∨ lt (key S) x = true) ∧ S ⊆ side (key S)).
  Context (Hside : ∀ x y, x ∈ cs → y ∈ cs → lt y x = true → side y ⊆ side x).
  Definition kfilter (x : fconcept) (X : gset name) : list (gset name) :=
    List.filter (fun S => bool_decide (key S = x)) (subs_l (elements X)).
  Definition kcount (x : fconcept) : nat := length (kfilter x (side x)).
  Lemma elem_of_kfilter x X S : S ∈ kfilter x X ↔ S ⊆ X ∧ key S = x.
  Proof. unfold kfilter. by rewrite in_lfilter, elem_of_subs_l, list_to_set_elements_L, bool_decide_eq_true. Qed.
  Lemma NoDup_kfilter x X : NoDup (kfilter x X).
  Proof. unfold kfilter. apply NoDup_ListNoDup, List.NoDup_filter, NoDup_ListNoDup, NoDup_subs_l, NoDup_elements. Qed.
  Lemma kcount_card x : is_card (fun S => S ⊆ side x ∧ key S = x) (kcount x).
  Proof. exists (kfilter x (side x)). split; [apply NoDup_kfilter|]. split; [|done]. intros S. apply elem_of_kfilter. Qed.
  Lemma kcount_sum x : x ∈ cs →
    (2 ^ Z.of_nat (size (side x)) = Z.of_nat (kcount x) + zsum (fun y => Z.of_nat (kcount y)) (below lt x cs))%Z.
  Proof.
    intros Hx. transitivity (Z.of_nat (length (subs_l (elements (side x))))); [by rewrite length_subs_l|].
    rewrite (partition_count key _ (x :: below lt x cs)).
    - assert (∀ k, k ∈ x :: below lt x cs → Z.of_nat (length (List.filter (fun a => bool_decide (key a = k)) (subs_l (elements (side x)))))
        = Z.of_nat (kcount k)) as H.
      { intros k Hk. f_equal. apply Permutation_length. fold (kfilter k (side x)). apply NoDup_Permutation; [apply NoDup_kfilter|apply NoDup_kfilter|].
        intros S. rewrite !elem_of_kfilter. assert (side k ⊆ side x ∧ k ∈ cs) as [Hs Hkc].
        { apply elem_of_cons in Hk as [->|Hk]; [done|]. apply in_lfilter in Hk as [H1 H2]. split; [by apply Hside|done]. }
        split; intros [H1 H2]; (split; [|done]).
        - rewrite <-H2. by apply (Hkey x).
        - by etrans. }
      simpl. rewrite H by by left. f_equal.
      assert (∀ k, k ∈ below lt x cs → k ∈ x :: below lt x cs) as Hsub by (intros k ?; by right).
      revert H Hsub. generalize (x :: below lt x cs). generalize (below lt x cs). clear.
      intros l l' H Hsub. induction l as [|k l IH]; [done|]. simpl. rewrite H by (apply Hsub; by left). f_equal.
      apply IH. intros j Hj. apply Hsub. by right.
    - apply NoDup_cons. split.
      + intros [_ H]%in_lfilter. by rewrite Hirr in H.
      + unfold below. by apply NoDup_ListNoDup, List.NoDup_filter, NoDup_ListNoDup.
    - intros S HS. apply elem_of_subs_l in HS. rewrite list_to_set_elements_L in HS.
      destruct (Hkey x S Hx HS) as (H1 & [->|H2] & _); [by left|right]. by apply in_lfilter.
  Qed.
End counting.

(** ** Stability of the concepts of a context *)
Section cxt.
  Context (c : context) (Hg : good c) (Ho : comparable (objs c) = true) (Ha : comparable (atts c) = true).
  Local Notation K := (abs c).
  Context (cs : list fconcept) (Hnd : NoDup cs) (Hcs : ∀ A B, (A, B) ∈ cs ↔ is_concept K A B).
  Lemma cs_hash x : x ∈ cs → chash x = true.
  Proof. destruct x as [A B]. intros Hx. by apply (concept_hash c), Hcs. Qed.
  Lemma cs_bottom : bottom_of cs = Ok (down K (fM K), fM K) ∧ (down K (fM K), fM K) ∈ cs.
  Proof.
    destruct (mk_lattice_ok c Hg Ho Ha) as (l & Hl & _).
    split; [|apply Hcs, bot_concept]. unfold bottom_of. rewrite (head_filter _ cs (down K (fM K), fM K)).
    - done.
    - apply Hcs, bot_concept.
    - destruct (cideal cs _) as [|z l'] eqn:E; [done|]. exfalso.
      assert (z ∈ cideal cs (down K (fM K), fM K)) as Hz by (rewrite E; by left). apply in_cideal in Hz as [Hz1 Hz2].
      destruct z as [A B]. apply Hcs in Hz1 as (_ & HB & _). simpl in *. by apply Hz2.
    - intros [A B] Hx Hf. pose proof (proj1 (Hcs _ _) Hx) as Hx'. destruct (cideal cs _) as [|z l'] eqn:E; [|done].
      assert (B = fM K) as ->.
      { destruct (decide (fM K ⊆ B)) as [H|H]; [apply set_eq; intros m; split; [apply Hx'|apply H]|]. exfalso.
        assert ((down K (fM K), fM K) ∈ cideal cs (A, B)) as Hin.
        { apply in_cideal. split; [apply Hcs, bot_concept|]. simpl. split; [apply Hx'|done]. }
        rewrite E in Hin. by apply elem_of_nil in Hin. }
      destruct Hx' as (_ & _ & _ & <-). done.
  Qed.
  Lemma cs_top : top_of cs = Ok (fG K, up K (fG K)) ∧ (fG K, up K (fG K)) ∈ cs.
  Proof.
    split; [|apply Hcs, top_concept]. unfold top_of. rewrite (head_filter _ cs (fG K, up K (fG K))).
    - done.
    - apply Hcs, top_concept.
    - destruct (cfilter cs _) as [|z l] eqn:E; [done|]. exfalso.
      assert (z ∈ cfilter cs (fG K, up K (fG K))) as Hz by (rewrite E; by left). apply in_cfilter in Hz as [Hz1 Hz2].
      destruct z as [A B]. apply Hcs in Hz1. cbn [snd] in Hz2. apply Hz2.
      apply (concept_order K A B (fG K) (up K (fG K))); [exact Hz1|apply top_concept|]. apply Hz1.
    - intros [A B] Hx Hf. pose proof (proj1 (Hcs _ _) Hx) as Hx'. destruct (cfilter cs _) as [|z l] eqn:E; [|done].
      assert (A = fG K) as ->.
      { destruct (decide (fG K ⊆ A)) as [H|H]; [apply set_eq; intros m; split; [apply Hx'|apply H]|]. exfalso.
        assert ((fG K, up K (fG K)) ∈ cfilter cs (A, B)) as Hin.
        { apply in_cfilter. split; [apply Hcs, top_concept|]. simpl. apply (concept_order_strict K A B (fG K) (up K (fG K))); [done|apply top_concept|].
          split; [apply Hx'|done]. }
        rewrite E in Hin. by apply elem_of_nil in Hin. }
      destruct Hx' as (_ & _ & <- & _). done.
  Qed.
  Lemma istability_spec pop : (∀ k W, W ≠ ∅ → pop k W ∈ W) →
    ∃ st, compute_istability pop cs = Ok st ∧ (∀ x, x ∈ map fst st → x ∈ cs) ∧
      ∀ A B, (A, B) ∈ cs → ∃ n, is_card (fun S => S ⊆ A ∧ up K S = B) n ∧
        dget (A, B) st = Some (qdiv (Z.of_nat n) (2 ^ Z.of_nat (size A))).
  Proof.
    intros Hpop. set (key := fun S : gset name => (ocl K S, up K S)).
    set (lt := fun y x : fconcept => bool_decide (y.1 ⊂ x.1)).
    assert (∀ x, lt x x = false) as Hirr by (intros x; unfold lt; apply bool_decide_eq_false; by intros [??]).
    assert (∀ x y z, lt x y = true → lt y z = true → lt x z = true) as Htr.
    { intros x y z. unfold lt. rewrite !bool_decide_eq_true. intros; by etrans. }
    assert (∀ x S, x ∈ cs → S ⊆ x.1 → key S ∈ cs ∧ (key S = x ∨ lt (key S) x = true) ∧ S ⊆ (key S).1) as Hkey.
    { intros [A B] S Hx HS. apply Hcs in Hx as (HA & HB & H1 & H2). simpl in HS.
      assert (S ⊆ fG K) as HSG by by etrans. assert (ocl K S ⊆ A) as Hle.
      { rewrite <-H2, <-H1. apply (ocl_mono K); done. }
      split; [apply Hcs; by apply concept_of_objects|]. split; [|by apply (ocl_ext K)].
      destruct (decide (A ⊆ ocl K S)) as [H|H].
      - left. unfold key. assert (ocl K S = A) as E by (apply set_eq; intros g; split; [apply Hle|apply H]).
        rewrite E. f_equal. rewrite <-(up_down_up K S HSG). change (up K (ocl K S) = B). by rewrite E.
      - right. apply bool_decide_eq_true. by split. }
    destruct (stab_spec lt fst pop cs Hnd (fun x => Z.of_nat (kcount fst key x)) Hirr Htr)
      with (ltc := fun y x : fconcept => bool_decide (y.1 ⊂ x.1)) (ltu := fun b x : fconcept => bool_decide (x.2 ⊂ b.2))
           (first := bottom_of) (b := (down K (fM K), fM K)) as (st & H1 & H2 & H3).
    - intros x Hx. apply (kcount_sum lt fst key cs Hnd Hirr Hkey); [|done].
      intros [A B] [A' B'] _ _ H. unfold lt in H. apply bool_decide_eq_true in H. apply H.
    - done.
    - intros [A B] [A' B'] Hx Hy. unfold lt. apply bool_decide_ext. symmetry.
      apply (concept_order_strict K A B A' B'); by apply Hcs.
    - done.
    - apply cs_hash.
    - apply cs_bottom.
    - apply cs_bottom.
    - intros [A B] Hx. pose proof (proj1 (Hcs _ _) Hx) as Hx'.
      destruct (decide (A ⊆ down K (fM K))) as [H|H].
      + left. pose proof (proj2 (concept_order K (down K (fM K)) (fM K) A B (bot_concept K) Hx') (proj1 (proj2 Hx'))) as Hle.
        assert (A = down K (fM K)) as -> by (apply set_eq; intros g; split; [apply H|apply Hle]).
        f_equal. destruct Hx' as (_ & _ & <- & _). apply (bot_concept K).
      + right. apply bool_decide_eq_true. split; [|done]. simpl.
        apply (concept_order K (down K (fM K)) (fM K) A B); [apply bot_concept|done|]. apply Hx'.
    - exists st. split; [done|]. split; [done|]. intros A B Hx. exists (kcount fst key (A, B)). split; [|by apply H3].
      destruct (kcount_card fst key (A, B)) as (l & Hl1 & Hl2 & Hl3). exists l. split; [done|]. split; [|done].
      intros S. rewrite Hl2. unfold key. simpl. apply Hcs in Hx as (HA & HB & E1 & E2). split.
      + intros [HS [= _ E]]. done.
      + intros [HS E]. split; [done|]. unfold ocl. rewrite E, E2. done.
  Qed.
  Lemma estability_spec pop : (∀ k W, W ≠ ∅ → pop k W ∈ W) →
    ∃ st, compute_estability pop cs = Ok st ∧ (∀ x, x ∈ map fst st → x ∈ cs) ∧
      ∀ A B, (A, B) ∈ cs → ∃ n, is_card (fun T => T ⊆ B ∧ down K T = A) n ∧
        dget (A, B) st = Some (qdiv (Z.of_nat n) (2 ^ Z.of_nat (size B))).
  Proof.
    intros Hpop. set (key := fun T : gset name => (down K T, acl K T)).
    set (lt := fun y x : fconcept => bool_decide (y.2 ⊂ x.2)).
    assert (∀ x, lt x x = false) as Hirr by (intros x; unfold lt; apply bool_decide_eq_false; by intros [??]).
    assert (∀ x y z, lt x y = true → lt y z = true → lt x z = true) as Htr.
    { intros x y z. unfold lt. rewrite !bool_decide_eq_true. intros; by etrans. }
    assert (∀ x S, x ∈ cs → S ⊆ x.2 → key S ∈ cs ∧ (key S = x ∨ lt (key S) x = true) ∧ S ⊆ (key S).2) as Hkey.
    { intros [A B] S Hx HS. apply Hcs in Hx as (HA & HB & H1 & H2). simpl in HS.
      assert (S ⊆ fM K) as HSG by by etrans. assert (acl K S ⊆ B) as Hle.
      { rewrite <-H1, <-H2. apply (acl_mono K); done. }
      split; [apply Hcs; by apply concept_of_attributes|]. split; [|by apply (acl_ext K)].
      destruct (decide (B ⊆ acl K S)) as [H|H].
      - left. unfold key. assert (acl K S = B) as E by (apply set_eq; intros g; split; [apply Hle|apply H]).
        rewrite E. f_equal. rewrite <-(down_up_down K S HSG). change (down K (acl K S) = A). by rewrite E.
      - right. apply bool_decide_eq_true. by split. }
    destruct (stab_spec lt snd pop cs Hnd (fun x => Z.of_nat (kcount snd key x)) Hirr Htr)
      with (ltc := fun y x : fconcept => bool_decide (y.2 ⊂ x.2)) (ltu := fun b x : fconcept => bool_decide (b.2 ⊂ x.2))
           (first := top_of) (b := (fG K, up K (fG K))) as (st & H1 & H2 & H3).
    - intros x Hx. apply (kcount_sum lt snd key cs Hnd Hirr Hkey); [|done].
      intros [A B] [A' B'] _ _ H. unfold lt in H. apply bool_decide_eq_true in H. apply H.
    - done.
    - done.
    - done.
    - apply cs_hash.
    - apply cs_top.
    - apply cs_top.
    - intros [A B] Hx. pose proof (proj1 (Hcs _ _) Hx) as Hx'.
      pose proof (proj1 (concept_order K A B (fG K) (up K (fG K)) Hx' (top_concept K)) (proj1 Hx')) as Hle.
      destruct (decide (B ⊆ up K (fG K))) as [H|H].
      + left. assert (B = up K (fG K)) as -> by (apply set_eq; intros g; split; [apply H|apply Hle]).
        f_equal. destruct Hx' as (_ & _ & _ & <-). apply (top_concept K).
      + right. apply bool_decide_eq_true. by split.
    - exists st. split; [done|]. split; [done|]. intros A B Hx. exists (kcount snd key (A, B)). split; [|by apply H3].
      destruct (kcount_card snd key (A, B)) as (l & Hl1 & Hl2 & Hl3). exists l. split; [done|]. split; [|done].
      intros S. rewrite Hl2. unfold key. simpl. apply Hcs in Hx as (HA & HB & E1 & E2). split.
      + intros [HS [= E _]]. done.
      + intros [HS E]. split; [done|]. unfold acl. rewrite E, E1. done.
  Qed.
End cxt.
