(** * Changes that undo each other, and contexts built step by step: the final statements (C138) *)
From Verif Require Import Py Spec ContextModel ContextSpec ContextOps PyFacts SpecFacts ContextFacts ContextInit
  ContextMut ContextEffects ContextMisc ContextReduce ContextEq ContextFinal MulFacts UndoSpec UndoFacts Properties_Context.

(** ** C138 *)
(** Deleting what was added restores the context. *)
Theorem C138_add_delete c J o : good c → o ∉ objs c →
  ∃ d, andthen (add_object_with_intent c J o) (λ c', delete_object c' o) = (d, Ok tt) ∧ good d ∧ shows c d.
Proof.
  intros Hg Ho. destruct (C04_add_object_with_intent c J o (good_wf _ Hg) (good_distinct _ Hg) Ho) as (c1 & E1 & Hg1 & Ho1 & Ha1 & Hi1).
  destruct (C04_delete_object c1 o (good_wf _ Hg1) (good_distinct _ Hg1)) as (c2 & E2 & Hg2 & Ho2 & Ha2 & Hi2); [rewrite Ho1; set_solver|].
  exists c2. rewrite E1. split; [done|]. split; [done|]. apply shows_of; [done..| |congruence|].
  - rewrite Ho2, Ho1. by apply filter_snoc_fresh.
  - intros g m. rewrite Hi2, Hi1. split; [tauto|]. intros H. split; [|by left]. intros ->. by apply incident_att in H as [H _].
Qed.
Print Assumptions C138_add_delete.
Theorem C138_add_delete_attribute c X a : good c → objs c ≠ [] → a ∉ atts c →
  ∃ d, andthen (add_attribute_with_extent c X a) (λ c', delete_attribute c' a) = (d, Ok tt) ∧ good d ∧ shows c d.
Proof.
  intros Hg Hne Ho. destruct (C04_add_attribute_with_extent c X a (good_wf _ Hg) (good_distinct _ Hg) Ho) as (c1 & E1 & _ & _ & Hg1 & Ho1 & Ha1 & Hi1).
  specialize (Hg1 Hne).
  destruct (C04_delete_attribute c1 a (good_wf _ Hg1) (good_distinct _ Hg1)) as (c2 & E2 & Hg2 & Ho2 & Ha2 & Hi2); [by rewrite Ho1|rewrite Ha1; set_solver|].
  exists c2. rewrite E1. split; [done|]. split; [done|]. apply shows_of; [done..|congruence| |].
  - rewrite Ha2, Ha1. by apply filter_snoc_fresh.
  - intros g m. rewrite Hi2, Hi1. split; [tauto|]. intros H. split; [|by left]. intros ->. by apply incident_att in H as [_ H].
Qed.
Print Assumptions C138_add_delete_attribute.
(** Deleting an object and adding it again with the intent it had moves it to the end; the context
    still compares equal. *)
Theorem C138_delete_add c J o : good c → get_object_intent c o = Ok J →
  ∃ d, andthen (delete_object c o) (λ c', add_object_with_intent c' J o) = (d, Ok tt) ∧ good d ∧
    objs d = filter (λ x, x ≠ o) (objs c) ++ [o] ∧ atts d = atts c ∧ context_eq c d = Ok true ∧ (last (objs c) = Some o → shows c d).
Proof.
  intros Hg HJ.
  assert (o ∈ objs c) as Ho.
  { unfold get_object_intent in HJ. destruct (oind c o) as [i|e] eqn:E; [|done]. destruct (decide (o ∈ objs c)); [done|].
    assert (oind c o = Err KeyError) as E' by (by apply (oind_Err c (good_wf _ Hg) o)). congruence. }
  rewrite (get_object_intent_spec c Hg o Ho) in HJ. assert (J = up (abs c) {[o]}) as -> by congruence.
  destruct (C04_delete_object c o (good_wf _ Hg) (good_distinct _ Hg) Ho) as (c1 & E1 & Hg1 & Ho1 & Ha1 & Hi1).
  destruct (C04_add_object_with_intent c1 (up (abs c) {[o]}) o (good_wf _ Hg1) (good_distinct _ Hg1)) as (c2 & E2 & Hg2 & Ho2 & Ha2 & Hi2).
  { rewrite Ho1, elem_of_list_filter. tauto. }
  exists c2. rewrite E1. split; [done|]. split; [done|]. split; [by rewrite Ho2, Ho1|]. split; [congruence|].
  assert (∀ g m, incident c2 g m ↔ incident c g m) as Hi.
  { intros g m. rewrite Hi2, Hi1, Ha1, up1_incident by done. split.
    - intros [[_ H]|(-> & _ & H)]; done.
    - intros H. destruct (decide (g = o)) as [->|]; [right|by left]. split; [done|]. split; [|done]. by apply incident_att in H as [_ H]. }
  split.
  - apply C11_eq_complete; [done..|]. split; [|split].
    + intros g. rewrite Ho2, Ho1, elem_of_app, elem_of_list_filter, elem_of_list_singleton. destruct (decide (g = o)) as [->|]; tauto.
    + intros m. by rewrite Ha2, Ha1.
    + intros g m. by rewrite Hi.
  - intros Hl. apply shows_of; [done..| |congruence|done]. rewrite Ho2, Ho1. apply last_Some in Hl as [l Hl].
    assert (o ∉ l) as Hnl. { destruct (good_distinct _ Hg) as [Hn _]. rewrite Hl in Hn. apply NoDup_app in Hn as (_ & Hn & _). intros H. apply (Hn o H). left. }
    rewrite Hl at 1. rewrite (filter_snoc_fresh l o Hnl). by rewrite Hl.
Qed.
Print Assumptions C138_delete_add.
(** Renaming there and back. *)
Theorem C138_rename c o o' : good c → o ∈ objs c → o' ∉ objs c →
  ∃ d, andthen (rename_object c o o') (λ c', rename_object c' o' o) = (d, Ok tt) ∧ good d ∧ shows c d.
Proof.
  intros Hg Ho Hn.
  destruct (C04_rename_object c o o' (good_wf _ Hg) (good_distinct _ Hg) (good_shape _ Hg) Ho (or_introl Hn)) as (c1 & E1 & Hg1 & Ho1 & Ha1 & Hi1).
  assert (o ≠ o') as Hoo by (by intros ->).
  destruct (C04_rename_object c1 o' o (good_wf _ Hg1) (good_distinct _ Hg1) (good_shape _ Hg1)) as (c2 & E2 & Hg2 & Ho2 & Ha2 & Hi2).
  { rewrite Ho1. apply elem_of_list_fmap. exists o. by rewrite decide_True. }
  { left. rewrite Ho1. intros (x & Hx & _)%elem_of_list_fmap. destruct (decide (x = o)); congruence. }
  exists c2. rewrite E1. split; [done|]. split; [done|]. apply shows_of; [done..| |congruence|].
  - rewrite Ho2, Ho1. by apply rename_back.
  - intros g m. rewrite Hi2, !Hi1.
    assert (incident c g m → g ≠ o') as H1. { intros H ->. by apply incident_att in H as [H _]. }
    destruct (decide (g = o)) as [->|]; [|tauto]. tauto.
Qed.
Print Assumptions C138_rename.
Theorem C138_rename_attribute c a a' : good c → a ∈ atts c → a' ∉ atts c →
  ∃ d, andthen (rename_attribute c a a') (λ c', rename_attribute c' a' a) = (d, Ok tt) ∧ good d ∧ shows c d.
Proof.
  intros Hg Ho Hn.
  destruct (C04_rename_attribute c a a' (good_wf _ Hg) (good_distinct _ Hg) (good_shape _ Hg) Ho (or_introl Hn)) as (c1 & E1 & Hg1 & Ho1 & Ha1 & Hi1).
  assert (a ≠ a') as Hoo by (by intros ->).
  destruct (C04_rename_attribute c1 a' a (good_wf _ Hg1) (good_distinct _ Hg1) (good_shape _ Hg1)) as (c2 & E2 & Hg2 & Ho2 & Ha2 & Hi2).
  { rewrite Ha1. apply elem_of_list_fmap. exists a. by rewrite decide_True. }
  { left. rewrite Ha1. intros (x & Hx & _)%elem_of_list_fmap. destruct (decide (x = a)); congruence. }
  exists c2. rewrite E1. split; [done|]. split; [done|]. apply shows_of; [done..|congruence| |].
  - rewrite Ha2, Ha1. by apply rename_back.
  - intros g m. rewrite Hi2, !Hi1.
    assert (incident c g m → m ≠ a') as H1. { intros H ->. by apply incident_att in H as [_ H]. }
    destruct (decide (m = a)) as [->|]; [|tauto]. tauto.
Qed.
Print Assumptions C138_rename_attribute.
(** A row set twice has the second value; setting it to what it was restores the context. *)
Theorem C138_set c o X Y : good c → o ∈ objs c → (∀ a, a ∈ X → a ∈ atts c) → (∀ a, a ∈ Y → a ∈ atts c) →
  ∃ d d', andthen (set_object_intent c X o) (λ c', set_object_intent c' Y o) = (d, Ok tt) ∧
    set_object_intent c Y o = (d', Ok tt) ∧ shows d' d ∧
    (get_object_intent c o = Ok (list_to_set Y) → shows c d).
Proof.
  intros Hg Ho HX HY.
  destruct (C04_set_object_intent c X o (good_wf _ Hg) (good_distinct _ Hg) Ho HX) as (c1 & E1 & Hg1 & Ho1 & Ha1 & Hi1).
  destruct (C04_set_object_intent c1 Y o (good_wf _ Hg1) (good_distinct _ Hg1)) as (c2 & E2 & Hg2 & Ho2 & Ha2 & Hi2); [by rewrite Ho1|by rewrite Ha1|].
  destruct (C04_set_object_intent c Y o (good_wf _ Hg) (good_distinct _ Hg) Ho HY) as (c3 & E3 & Hg3 & Ho3 & Ha3 & Hi3).
  exists c2, c3. rewrite E1. split; [done|]. split; [done|]. split.
  - apply shows_of; [done..|congruence|congruence|]. intros g m. rewrite Hi2, Hi3, Hi1. tauto.
  - intros HJ. apply shows_of; [done..|congruence|congruence|]. intros g m. rewrite Hi2, Hi1.
    rewrite (get_object_intent_spec c Hg o Ho) in HJ.
    assert (m ∈ Y ↔ incident c o m) as Hm.
    { rewrite <-(up1_incident c o m Hg Ho). assert (up (abs c) {[o]} = list_to_set Y) as -> by congruence. by rewrite elem_of_list_to_set. }
    destruct (decide (g = o)) as [->|]; rewrite ?Hm; tauto.
Qed.
Print Assumptions C138_set.
(** Every context is built by adding its rows one by one to a context without objects, in any
    order up to the order of the objects. *)
Theorem C138_rebuild c os : good c → os ≡ₚ objs c →
  ∃ e l d, mk_context [] None [] (atts c) = Ok e ∧ mapM (λ o, J ← get_object_intent c o; Ok (o, J)) os = Ok l ∧
    add_rows e l = (d, Ok tt) ∧ good d ∧ objs d = os ∧ context_eq c d = Ok true ∧ (os = objs c → shows c d).
Proof.
  intros Hg Hp. destruct (good_distinct _ Hg) as [Hno Hna].
  destruct (C01_constructor [] [] (atts c)) as [H1 _]. destruct H1 as (e & He & Hoe & Hae & Hie); [constructor|done|done|intros r H; by apply elem_of_nil in H|].
  assert (good e) as Hge. { eapply mk_context_good; [exact He|constructor|done|done]. }
  exists e, (map (λ o, (o, up (abs c) {[o]})) os).
  assert (∀ o, o ∈ os → o ∈ objs c) as Hos by (intros o; by rewrite Hp).
  destruct (add_rows_spec e (map (λ o, (o, up (abs c) {[o]})) os) Hge) as (d & Ed & Hgd & Hod & Had & Hid).
  { rewrite Hoe, map_map. cbn. by rewrite map_id, Hp. }
  rewrite Hoe, map_map in Hod. cbn in Hod. rewrite map_id in Hod.
  assert (∀ g m, incident d g m ↔ incident c g m) as Hi.
  { intros g m. rewrite Hid, Hae. split.
    - intros [H|(J & (o & E & Ho)%elem_of_list_fmap & H2 & H3)].
      + apply incident_att in H as [H _]. rewrite Hoe in H. by apply elem_of_nil in H.
      + assert (g = o ∧ J = up (abs c) {[o]}) as [-> ->] by (split; congruence). by rewrite up1_incident in H3 by auto.
    - intros H. pose proof (incident_att c g m H) as [H1 H2]. right. exists (up (abs c) {[g]}). rewrite up1_incident by done.
      split; [|done]. apply elem_of_list_fmap. exists g. by rewrite Hp. }
  exists d. split; [done|]. split.
  { clear -Hos Hg. induction os as [|o os IH]; [done|]. cbn [mapM map]. rewrite (get_object_intent_spec c Hg o) by (apply Hos; left).
    cbn [mbind res_bind]. rewrite IH; [done|]. intros o' H. apply Hos. by right. }
  split; [done|]. split; [done|]. split; [done|]. split.
  - apply C11_eq_complete; [done..|]. split; [|split]; [intros g; by rewrite Hod, Hp|intros m; by rewrite Had, Hae|intros g m; by rewrite Hi].
  - intros ->. apply shows_of; [done..|congruence|done].
Qed.
Print Assumptions C138_rebuild.

(** The example: object 2 deleted and added again, renamed there and back, rebuilt backwards. *)
Example C138_case :
  objs (andthen (delete_object ex o2) (λ c', add_object_with_intent c' {[sa; sc]} o2)).1 = [o1; o3; o4; o2] ∧
  np (andthen (delete_object ex o2) (λ c', add_object_with_intent c' {[sa; sc]} o2)).1 =
    [[true; true; false]; [true; false; false]; [false; false; false]; [true; false; true]] ∧
  np (andthen (rename_object ex o2 (NStr "d")) (λ c', rename_object c' (NStr "d") o2)).1 = np ex ∧
  np (add_rows (get_ok empty_cxt (mk_context [] None [] [sa; sb; sc])) [(o4, ∅); (o3, {[sa]}); (o2, {[sa; sc]}); (o1, {[sa; sb]})]).1 =
    [[false; false; false]; [true; false; false]; [true; false; true]; [true; true; false]].
Proof. split; [dec|]. split; [dec|]. split; dec. Qed.
