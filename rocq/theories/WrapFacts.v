(** * Facts on bases computed through the memoising wrappers *)
From Verif Require Import Py Spec PyFacts SpecFacts ContextModel ContextSpec ContextOps ContextFacts ContextMisc
  ClosureModel ClosureFacts DgModel DgSpec DgCxt MemoModel MemoFacts CallModel CallFacts WrapModel WrapSpec.

(** ** What reads return now is what they return later, if only reads happen in between *)
Lemma memo_read_same (base : nat → res (gset name)) ls i j :
  (memo_read (base j) (memo_read (base i) ls i).2 j).1 = (memo_read (base j) ls j).1.
Proof.
  induction ls as [|l ls IH]; [done|]. cbn [memo_read]. destruct (l !! i) as [v|] eqn:Ei; [done|].
  destruct (memo_read (base i) ls i) as [[v|e] ls'] eqn:E; cbn [snd fst memo_read] in *.
  - destruct (decide (i = j)) as [<-|Hij].
    + rewrite lookup_insert, Ei. cbn [fst]. rewrite E. done.
    + rewrite lookup_insert_ne by done. destruct (l !! j) as [w|] eqn:Ej; [done|].
      destruct (memo_read (base j) ls' j) as [[]]; destruct (memo_read (base j) ls j) as [[]]; cbn in *; congruence.
  - destruct (l !! j) as [w|] eqn:Ej; [done|].
    destruct (memo_read (base j) ls' j) as [[]]; destruct (memo_read (base j) ls j) as [[]]; cbn in *; congruence.
Qed.
(** [m'] answers reads as [m] does and has the same context. *)
Definition same_view (m m' : mcxt) : Prop :=
  mc m' = mc m ∧ obasis m' = obasis m ∧
  (∀ i, (read_intent m' i).2 = (read_intent m i).2) ∧ (∀ j, (read_extent m' j).2 = (read_extent m j).2).
Lemma same_view_refl m : same_view m m.
Proof. done. Qed.
Lemma same_view_trans m1 m2 m3 : same_view m1 m2 → same_view m2 m3 → same_view m1 m3.
Proof.
  intros (H1 & H2 & H3 & H4) (G1 & G2 & G3 & G4). split; [congruence|]. split; [congruence|]. split; intros; congruence.
Qed.
Lemma read_intent_snd m i : (read_intent m i).2 = (memo_read (get_object_intent_by_index (mc m) i) (ilayers m) i).1.
Proof. unfold read_intent. by destruct (memo_read _ _ i). Qed.
Lemma read_extent_snd m i : (read_extent m i).2 = (memo_read (get_attribute_extent_by_index (mc m) i) (elayers m) i).1.
Proof. unfold read_extent. by destruct (memo_read _ _ i). Qed.
Lemma read_intent_view m i : same_view m (read_intent m i).1.
Proof.
  assert ((read_intent m i).1 = MCxt (mc m) (memo_read (get_object_intent_by_index (mc m) i) (ilayers m) i).2 (elayers m) (obasis m)) as ->.
  { unfold read_intent. by destruct (memo_read _ _ i). }
  split; [done|]. split; [done|]. split; [|intros j; by rewrite !read_extent_snd]. intros j. rewrite !read_intent_snd. cbn [mc ilayers].
  apply (memo_read_same (get_object_intent_by_index (mc m))).
Qed.
Lemma read_extent_view m i : same_view m (read_extent m i).1.
Proof.
  assert ((read_extent m i).1 = MCxt (mc m) (ilayers m) (memo_read (get_attribute_extent_by_index (mc m) i) (elayers m) i).2 (obasis m)) as ->.
  { unfold read_extent. by destruct (memo_read _ _ i). }
  split; [done|]. split; [done|]. split; [intros j; by rewrite !read_intent_snd|]. intros j. rewrite !read_extent_snd. cbn [mc elayers].
  apply (memo_read_same (get_attribute_extent_by_index (mc m))).
Qed.
Lemma push_view m : same_view m (push m).
Proof.
  split; [done|]. split; [done|]. split; intros i; rewrite ?read_intent_snd, ?read_extent_snd; cbn [push mc ilayers elayers memo_read];
    rewrite lookup_empty; by destruct (memo_read _ _ i) as [[]].
Qed.

(** A computation whose reads are answered by two functions. *)
Fixpoint answered {A} (vi ve : nat → res (gset name)) (p : prog A) : res A :=
  match p with Ret r => r | ReadI i k => answered vi ve (k (vi i)) | ReadE j k => answered vi ve (k (ve j)) end.
Lemma exec_view {A} (p : prog A) m :
  (exec p m).2 = answered (λ i, (read_intent m i).2) (λ j, (read_extent m j).2) p ∧ same_view m (exec p m).1.
Proof.
  assert (∀ vi ve vi' ve' (q : prog A), (∀ i, vi i = vi' i) → (∀ i, ve i = ve' i) → answered vi ve q = answered vi' ve' q) as Hext.
  { clear. intros vi ve vi' ve' q Hi He. induction q as [r|i k IH|j k IH]; cbn; [done| |]; rewrite IH; by rewrite ?Hi, ?He. }
  revert m. induction p as [r|i k IH|j k IH]; intros m; cbn [exec answered]; [done| |].
  - pose proof (read_intent_view m i) as Hv. destruct (read_intent m i) as [m' r] eqn:E. cbn [fst snd] in *.
    destruct (IH r m') as [H1 H2]. split; [|by eapply same_view_trans]. rewrite H1. destruct Hv as (_ & _ & Hvi & Hve). by apply Hext.
  - pose proof (read_extent_view m j) as Hv. destruct (read_extent m j) as [m' r] eqn:E. cbn [fst snd] in *.
    destruct (IH r m') as [H1 H2]. split; [|by eapply same_view_trans]. rewrite H1. destruct Hv as (_ & _ & Hvi & Hve). by apply Hext.
Qed.

(** ** The loop with an invariant on the state *)
Section inv.
  Context {St : Type} (P : St → Prop) (ms : list name) (aclose : St → gset name → St * res (gset name)) (close : closer)
          (L0 : option (list fimp)) (c0 : gset name → bool).
  Context (a0 : gset name → res (gset name)).
  Context (Ha : ∀ st X, P st → (aclose st X).2 = a0 X ∧ P (aclose st X).1).
  Lemma cdg_loop_inv fuel st R a i : P st →
    (cdg_loop ms aclose close L0 (λ st X, (st, c0 X)) fuel st R a i).2 = dg_loop ms a0 close L0 c0 fuel R a i ∧
    P (cdg_loop ms aclose close L0 (λ st X, (st, c0 X)) fuel st R a i).1.
  Proof.
    revert st R a i. induction fuel as [|fuel IH]; intros st R a i Hst; cbn [cdg_loop dg_loop]; destruct (size a <? length ms); try done.
    destruct (Ha st a Hst) as [E Hst1]. destruct (aclose st a) as [st1 [ac|e]]; cbn in E, Hst1; rewrite <-E; [|done]. cbn [mbind res_bind].
    assert ((if bool_decide (a ≠ ac) then (st1, c0 a) else (st1, false)) = (st1, bool_decide (a ≠ ac) && c0 a)) as ->.
    { by destruct (bool_decide (a ≠ ac)). }
    destruct (bool_decide ((ac ∖ a) ∩ pre ms i ≠ ∅)).
    - destruct (dg_inner _ _ _ _ _ _) as [[a2 oj]|]; [|done]. by apply IH.
    - destruct (size ac =? length ms); [done|]. destruct (dg_inner _ _ _ _ _ _) as [[a2 oj]|]; [|done]. by apply IH.
  Qed.
  Lemma calling_inv st : P st →
    (calling_dg_basis ms aclose close L0 (λ st X, (st, c0 X)) st).2 = generalized_compute_dg_basis ms a0 close L0 c0 ∧
    P (calling_dg_basis ms aclose close L0 (λ st X, (st, c0 X)) st).1.
  Proof. intros Hst. unfold calling_dg_basis, generalized_compute_dg_basis. destruct (close ∅ L0); [|done]. by apply cdg_loop_inv. Qed.
End inv.

(** ** The closure of the context seen through the wrappers *)
Lemma sees_view m m' c0 : sees m c0 → same_view m m' → sees m' c0.
Proof.
  intros (H1 & H2 & H3 & H4) (G1 & G2 & G3 & G4). unfold sees, m_object_intent, m_attribute_extent in *. rewrite G1.
  split; [done|]. split; [done|]. split.
  - intros o Ho. rewrite <-H3 by done. destruct (oind (mc m) o); [|done]. apply G3.
  - intros a Ha. rewrite <-H4 by done. destruct (aind (mc m) a); [|done]. apply G4.
Qed.
Lemma foldl_sticky {A B} (f : B → A → res B) e (l : list A) :
  foldl (fun (acc : res B) a => s ← acc; f s a) (Err e) l = Err e.
Proof. by induction l. Qed.
Section answers.
  Context (vi ve : nat → res (gset name)) (c : context).
  Lemma answered_aprime {A} acc l (k : res (gset name) → prog A) :
    answered vi ve (p_aprime c acc l k) =
    answered vi ve (k (foldl (fun acc a => s ← acc; e ← (j ← aind c a; ve j); Ok (s ∩ e)) (Ok acc) l)).
  Proof.
    revert acc. induction l as [|a l IH]; intros acc; [done|]. cbn [p_aprime foldl]. cbn [mbind res_bind].
    destruct (aind c a) as [j|e]; cbn [mbind res_bind].
    - cbn [answered]. destruct (ve j) as [v|e]; cbn [mbind res_bind]; [apply IH|].
      by rewrite (foldl_sticky (λ s a, e ← (j ← aind c a; ve j); Ok (s ∩ e))).
    - by rewrite (foldl_sticky (λ s a, e ← (j ← aind c a; ve j); Ok (s ∩ e))).
  Qed.
  Lemma answered_oprime {A} acc l (k : res (gset name) → prog A) :
    answered vi ve (p_oprime c acc l k) =
    answered vi ve (k (foldl (fun acc o => s ← acc; e ← (i ← oind c o; vi i); Ok (s ∩ e)) (Ok acc) l)).
  Proof.
    revert acc. induction l as [|a l IH]; intros acc; [done|]. cbn [p_oprime foldl]. cbn [mbind res_bind].
    destruct (oind c a) as [j|e]; cbn [mbind res_bind].
    - cbn [answered]. destruct (vi j) as [v|e]; cbn [mbind res_bind]; [apply IH|].
      by rewrite (foldl_sticky (λ s a, e ← (j ← oind c a; vi j); Ok (s ∩ e))).
    - by rewrite (foldl_sticky (λ s a, e ← (j ← oind c a; vi j); Ok (s ∩ e))).
  Qed.
End answers.
Lemma foldl_ext_in {A B} (f g : B → A → B) l b : (∀ b a, f b a = g b a) → foldl f b l = foldl g b l.
Proof. intros H. revert b. induction l as [|a l IH]; intros b; [done|]. cbn. by rewrite H. Qed.
Lemma sees_intent m c0 o : wf (mc m) → wf c0 → sees m c0 →
  (i ← oind (mc m) o; (read_intent m i).2) = get_object_intent c0 o.
Proof.
  intros Hw Hw0 (H1 & _ & H3 & _). destruct (decide (o ∈ objs c0)) as [Ho|Ho].
  - rewrite <-H3 by done. unfold m_object_intent. by destruct (oind (mc m) o).
  - unfold get_object_intent. rewrite (proj2 (oind_Err c0 Hw0 o KeyError)) by done.
    by rewrite (proj2 (oind_Err (mc m) Hw o KeyError)) by (by rewrite H1).
Qed.
Lemma sees_extent m c0 a : wf (mc m) → wf c0 → sees m c0 →
  (j ← aind (mc m) a; (read_extent m j).2) = get_attribute_extent c0 a.
Proof.
  intros Hw Hw0 (_ & H2 & _ & H4). destruct (decide (a ∈ atts c0)) as [Ho|Ho].
  - rewrite <-H4 by done. unfold m_attribute_extent. by destruct (aind (mc m) a).
  - unfold get_attribute_extent. rewrite (proj2 (aind_Err c0 Hw0 a KeyError)) by done.
    by rewrite (proj2 (aind_Err (mc m) Hw a KeyError)) by (by rewrite H2).
Qed.
Lemma answered_aclose m c0 X : wf (mc m) → wf c0 → sees m c0 →
  answered (λ i, (read_intent m i).2) (λ j, (read_extent m j).2) (p_aclose (mc m) X) = cxt_aclose c0 X.
Proof.
  intros Hw Hw0 Hs. unfold p_aclose. rewrite answered_aprime. unfold cxt_aclose, fn_aclosure.
  assert (foldl (λ (acc : res (gset name)) a, s ← acc; e ← (j ← aind (mc m) a; (read_extent m j).2); Ok (s ∩ e))
    (Ok (list_to_set (objs (mc m)))) (elements X) = fn_aprime c0 (elements X)) as ->.
  { unfold fn_aprime. rewrite (proj1 Hs). apply foldl_ext_in. intros b a. by rewrite (sees_extent m c0). }
  destruct (fn_aprime c0 (elements X)) as [g|e]; [|done]. cbn [mbind res_bind]. rewrite answered_oprime. cbn [answered].
  assert (foldl (λ (acc : res (gset name)) o, s ← acc; e ← (i ← oind (mc m) o; (read_intent m i).2); Ok (s ∩ e))
    (Ok (list_to_set (atts (mc m)))) (elements g) = fn_oprime c0 (elements g)) as ->.
  { unfold fn_oprime. rewrite (proj1 (proj2 Hs)). apply foldl_ext_in. intros b a. by rewrite (sees_intent m c0). }
  destruct (fn_oprime c0 (elements g)) as [r|e]; [|done]. cbn [mbind res_bind]. done.
Qed.

(** ** The state during and after the computation *)
(** [st] is [m] inside the decorator, after some reads. *)
Definition inside (m st : mcxt) : Prop :=
  same_view m st ∧ same_view m (pop st) ∧
  length (ilayers st) = S (length (ilayers m)) ∧ length (elayers st) = S (length (elayers m)).
Lemma inside_push m : inside m (push m).
Proof. split; [apply push_view|]. split; [|done]. by destruct m. Qed.
Lemma memo_read_length base ls i : length (memo_read base ls i).2 = length ls.
Proof.
  induction ls as [|l ls IH]; [done|]. cbn. destruct (l !! i); [done|]. destruct (memo_read base ls i) as [[]]; cbn in *; congruence.
Qed.
Lemma inside_read_intent m st i : inside m st → inside m (read_intent st i).1.
Proof.
  intros (H1 & H2 & H3 & H4). split; [eapply same_view_trans; [exact H1|apply read_intent_view]|].
  assert ((read_intent st i).1 = MCxt (mc st) (memo_read (get_object_intent_by_index (mc st) i) (ilayers st) i).2 (elayers st) (obasis st)) as E.
  { unfold read_intent. by destruct (memo_read _ _ i). }
  rewrite E. cbn [ilayers elayers]. rewrite memo_read_length. split; [|done]. unfold pop. cbn [mc ilayers elayers obasis].
  destruct (memo_read_tail (get_object_intent_by_index (mc st) i) (ilayers st) i) as [->| ->]; [done|].
  eapply same_view_trans; [exact H2|].
  assert ((read_intent (pop st) i).1 = MCxt (mc st) (memo_read (get_object_intent_by_index (mc st) i) (tail (ilayers st)) i).2 (tail (elayers st)) (obasis st)) as <-.
  { clear E. unfold read_intent, pop. cbn [mc ilayers elayers obasis]. by destruct (memo_read _ _ i). }
  apply read_intent_view.
Qed.
Lemma inside_read_extent m st i : inside m st → inside m (read_extent st i).1.
Proof.
  intros (H1 & H2 & H3 & H4). split; [eapply same_view_trans; [exact H1|apply read_extent_view]|].
  assert ((read_extent st i).1 = MCxt (mc st) (ilayers st) (memo_read (get_attribute_extent_by_index (mc st) i) (elayers st) i).2 (obasis st)) as E.
  { unfold read_extent. by destruct (memo_read _ _ i). }
  rewrite E. cbn [ilayers elayers]. rewrite memo_read_length. split; [|done]. unfold pop. cbn [mc ilayers elayers obasis].
  destruct (memo_read_tail (get_attribute_extent_by_index (mc st) i) (elayers st) i) as [->| ->]; [done|].
  eapply same_view_trans; [exact H2|].
  assert ((read_extent (pop st) i).1 = MCxt (mc st) (tail (ilayers st)) (memo_read (get_attribute_extent_by_index (mc st) i) (tail (elayers st)) i).2 (obasis st)) as <-.
  { clear E. unfold read_extent, pop. cbn [mc ilayers elayers obasis]. by destruct (memo_read _ _ i). }
  apply read_extent_view.
Qed.
Lemma inside_exec {A} (p : prog A) m st : inside m st → inside m (exec p st).1.
Proof.
  revert st. induction p as [r|i k IH|j k IH]; intros st Hst; cbn [exec]; [done| |].
  - pose proof (inside_read_intent m st i Hst) as H. destruct (read_intent st i) as [st' r]. by apply IH.
  - pose proof (inside_read_extent m st j Hst) as H. destruct (read_extent st j) as [st' r]. by apply IH.
Qed.

(** ** get_attribute_implications *)
Lemma attribute_implications_sees m c0 ords L0 cond : wf (mc m) → wf c0 → sees m c0 →
  (get_attribute_implications m ords L0 cond).2 = compute_dg_basis c0 ords L0 cond ∧
  same_view m (get_attribute_implications m ords L0 cond).1 ∧
  ∃ n, n = (if is_ok (compute_dg_basis c0 ords L0 cond) then 0 else 1) ∧
    length (ilayers (get_attribute_implications m ords L0 cond).1) = n + length (ilayers m) ∧
    length (elayers (get_attribute_implications m ords L0 cond).1) = n + length (elayers m).
Proof.
  intros Hw Hw0 Hs. unfold get_attribute_implications, basis_computation, compute_dg_basis.
  destruct (calling_inv (inside m) (atts (mc (push m))) (λ st X, exec (p_aclose (mc st) X) st) (lin_close ords) L0 cond (cxt_aclose c0)
    ltac:(intros st X Hst; split; [|by apply inside_exec]; destruct Hst as (Hv & _);
          rewrite (proj1 (exec_view (p_aclose (mc st) X) st)); apply answered_aclose;
          [by rewrite (proj1 Hv)|done|by eapply sees_view]) (push m) (inside_push m)) as [E Hin].
  destruct (calling_dg_basis _ _ _ _ _ (push m)) as [m' r]. cbn [fst snd] in E, Hin. cbn [push mc] in E. rewrite (proj1 (proj2 Hs)) in E.
  rewrite <-E. destruct Hin as (H1 & H2 & H3 & H4). destruct r as [R|e]; cbn [fst snd is_ok].
  - split; [done|]. split; [done|]. exists 0. split; [done|]. cbn. destruct (ilayers m'), (elayers m'); cbn in *; lia.
  - split; [done|]. split; [done|]. exists 1. split; [done|]. lia.
Qed.
Lemma bare_sees m : bare m → sees m (mc m).
Proof.
  intros [H1 H2]. split; [done|]. split; [done|]. unfold m_object_intent, m_attribute_extent, get_object_intent, get_attribute_extent.
  split; intros x _; [destruct (oind (mc m) x)|destruct (aind (mc m) x)]; try done; cbn [mbind res_bind];
    rewrite ?read_intent_snd, ?read_extent_snd, ?H1, ?H2; done.
Qed.
Lemma attribute_implications_bare m ords L0 cond : wf (mc m) → bare m →
  (get_attribute_implications m ords L0 cond).2 = compute_dg_basis (mc m) ords L0 cond ∧
  (is_ok (compute_dg_basis (mc m) ords L0 cond) = true → (get_attribute_implications m ords L0 cond).1 = m).
Proof.
  intros Hw Hb. destruct (attribute_implications_sees m (mc m) ords L0 cond Hw Hw (bare_sees m Hb)) as (H1 & H2 & n & -> & H3 & H4).
  split; [done|]. intros Hok. rewrite Hok in H3, H4. destruct H2 as (E1 & E2 & _). destruct Hb as [B1 B2].
  destruct (get_attribute_implications m ords L0 cond) as [[c1 il el ob] r]. cbn in *. rewrite B1 in H3. rewrite B2 in H4.
  destruct m; cbn in *; subst. destruct il, el; cbn in *; congruence.
Qed.

(** ** What has been read once is shown for ever *)
Lemma read_intents_pin m l i v : ilayers m ≠ [] → (read_intent m i).2 = Ok v → i ∈ l →
  pinned (ilayers (mrun m (map MReadI l))) i v.
Proof.
  intros Hne Hr Hi. revert m Hne Hr. induction l as [|k l IH]; intros m Hne Hr; [by apply elem_of_nil in Hi|].
  cbn [map mrun]. assert ((mstep m (MReadI k)).1 = (read_intent m k).1) as -> by (cbn; by destruct (read_intent m k)).
  apply elem_of_cons in Hi as [<-|Hi].
  - apply (proj1 (mrun_pin i v (read_intent m i).1 _)). rewrite read_intent_snd in Hr.
    pose proof (memo_read_pins (get_object_intent_by_index (mc m) i) (ilayers m) i v Hne Hr) as H.
    unfold read_intent. by destruct (memo_read _ _ i).
  - apply IH; [done| |].
    + intros E. pose proof (memo_read_length (get_object_intent_by_index (mc m) k) (ilayers m) k) as Hl.
      unfold read_intent in E. destruct (memo_read _ _ k) as [r ls]. cbn in *. rewrite E in Hl. by destruct (ilayers m).
    + by rewrite (proj1 (proj2 (proj2 (read_intent_view m k)))).
Qed.
Lemma read_extents_pin m l i v : elayers m ≠ [] → (read_extent m i).2 = Ok v → i ∈ l →
  pinned (elayers (mrun m (map MReadE l))) i v.
Proof.
  intros Hne Hr Hi. revert m Hne Hr. induction l as [|k l IH]; intros m Hne Hr; [by apply elem_of_nil in Hi|].
  cbn [map mrun]. assert ((mstep m (MReadE k)).1 = (read_extent m k).1) as -> by (cbn; by destruct (read_extent m k)).
  apply elem_of_cons in Hi as [<-|Hi].
  - apply (proj2 (mrun_pin i v (read_extent m i).1 _)). rewrite read_extent_snd in Hr.
    pose proof (memo_read_pins (get_attribute_extent_by_index (mc m) i) (elayers m) i v Hne Hr) as H.
    unfold read_extent. by destruct (memo_read _ _ i).
  - apply IH; [done| |].
    + intros E. pose proof (memo_read_length (get_attribute_extent_by_index (mc m) k) (elayers m) k) as Hl.
      unfold read_extent in E. destruct (memo_read _ _ k) as [r ls]. cbn in *. rewrite E in Hl. by destruct (elayers m).
    + by rewrite (proj2 (proj2 (proj2 (read_extent_view m k)))).
Qed.
Lemma read_intents_view m l : same_view m (mrun m (map MReadI l)) ∧ elayers (mrun m (map MReadI l)) = elayers m.
Proof.
  revert m. induction l as [|k l IH]; intros m; [done|]. cbn [map mrun].
  assert ((mstep m (MReadI k)).1 = (read_intent m k).1) as -> by (cbn; by destruct (read_intent m k)).
  destruct (IH (read_intent m k).1) as [H1 H2]. split; [eapply same_view_trans; [apply read_intent_view|exact H1]|].
  rewrite H2. unfold read_intent. by destruct (memo_read _ _ k).
Qed.
Lemma sees_for_ever m c0 l : wf (mc m) → good c0 → objs c0 ≠ [] → sees m c0 → ilayers m ≠ [] → elayers m ≠ [] →
  let m' := mrun m (read_all (length (objs c0)) (length (atts c0)) ++ l) in
  wf (mc m') → objs (mc m') = objs c0 → atts (mc m') = atts c0 → distinct (mc m) → sees m' c0.
Proof.
  intros Hw Hg Hne (S1 & S2 & S3 & S4) Hil Hel m' Hw' Ho Ha Hd. unfold m', read_all in *. rewrite !mrun_app in *.
  set (m1 := mrun m (map MReadI _)) in *. set (m2 := mrun m1 (map MReadE _)) in *. set (m3 := mrun m2 l) in *.
  destruct (read_intents_view m (seq 0 (length (objs c0)))) as [Hv1 He1]. fold m1 in Hv1, He1.
  split; [done|]. split; [done|]. split.
  - intros o Hin. unfold m_object_intent. destruct (oind_Ok (mc m3) Hw' o) as [i Hi]; [by rewrite Ho|]. rewrite Hi.
    apply (oind_lt (mc m3) Hw') in Hi as Hi'. rewrite Ho in Hi'.
    rewrite get_object_intent_spec by (done || apply Hg).
    assert (oind (mc m) o = Ok i) as Hoi.
    { destruct (oind_Ok (mc m) Hw o) as [i' E]; [by rewrite S1|]. rewrite E. apply (oind_lt (mc m) Hw) in E.
      f_equal. apply (NoDup_lookup (objs (mc m)) i' i o); [apply Hd|done|by rewrite S1]. }
    assert ((read_intent m i).2 = Ok (up (abs c0) {[o]})) as Hr.
    { pose proof (S3 o Hin) as E. unfold m_object_intent in E. rewrite Hoi in E. rewrite E. apply get_object_intent_spec; [apply Hg|done]. }
    assert (pinned (ilayers m3) i (up (abs c0) {[o]})) as Hp.
    { do 2 apply (proj1 (mrun_pin _ _ _ _)). apply read_intents_pin; [done..|]. apply elem_of_seq. apply lookup_lt_Some in Hi'. lia. }
    rewrite read_intent_snd. by rewrite (Hp _).
  - intros a Hin. unfold m_attribute_extent. destruct (aind_Ok (mc m3) Hw' a) as [i Hi]; [by rewrite Ha|]. rewrite Hi.
    apply (aind_lt (mc m3) Hw') in Hi as Hi'. rewrite Ha in Hi'.
    assert (aind (mc m) a = Ok i) as Hoi.
    { destruct (aind_Ok (mc m) Hw a) as [i' E]; [by rewrite S2|]. rewrite E. apply (aind_lt (mc m) Hw) in E.
      f_equal. apply (NoDup_lookup (atts (mc m)) i' i a); [apply Hd|done|by rewrite S2]. }
    assert (∃ v, get_attribute_extent c0 a = Ok v) as [v Hgv].
    { eexists. apply get_attribute_extent_spec; [apply Hg| |done]. intros E. apply Hne. apply length_zero_iff_nil.
      rewrite <-(wf_rows c0) by apply Hg. by rewrite E. }
    assert ((read_extent m1 i).2 = Ok v) as Hr.
    { rewrite (proj2 (proj2 (proj2 Hv1))). pose proof (S4 a Hin) as E. unfold m_attribute_extent in E. rewrite Hoi in E. congruence. }
    assert (pinned (elayers m3) i v) as Hp.
    { apply (proj2 (mrun_pin _ _ _ _)). apply read_extents_pin; [by rewrite He1|done|]. apply elem_of_seq. apply lookup_lt_Some in Hi'. lia. }
    rewrite read_extent_snd, Hgv. by rewrite (Hp _).
Qed.
Lemma read_all_mc m n k : mc (mrun m (read_all n k)) = mc m.
Proof.
  unfold read_all. rewrite mrun_app. destruct (read_intents_view m (seq 0 n)) as [[<- _] _]. generalize (mrun m (map MReadI (seq 0 n))).
  clear. induction (seq 0 k) as [|j l IH]; intros m; [done|]. cbn [map mrun]. rewrite IH.
  cbn. unfold read_extent. by destruct (memo_read _ _ j).
Qed.
