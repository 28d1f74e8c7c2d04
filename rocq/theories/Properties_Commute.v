(** * Changes in different orders, and of the transposed context: the final statements (C139) *)
From Verif Require Import Py Spec ContextModel ContextSpec ContextOps PyFacts SpecFacts ContextFacts ContextInit
  ContextMut ContextEffects ContextMisc ContextReduce ContextEq ContextFinal MulFacts UndoSpec UndoFacts Properties_Context.

(** ** C139 *)
(** A new object and a new attribute: the order matters exactly if the two arguments disagree about
    the new cell. *)
Theorem C139_add_add c J o X a : good c → objs c ≠ [] → o ∉ objs c → a ∉ atts c →
  ∃ d d', andthen (add_object_with_intent c J o) (λ c', add_attribute_with_extent c' X a) = (d, Ok tt) ∧
    andthen (add_attribute_with_extent c X a) (λ c', add_object_with_intent c' J o) = (d', Ok tt) ∧
    (shows d d' ↔ (o ∈ X ↔ a ∈ J)).
Proof.
  intros Hg Hne Ho Ha.
  destruct (C04_add_object_with_intent c J o (good_wf _ Hg) (good_distinct _ Hg) Ho) as (c1 & E1 & Hg1 & Ho1 & Ha1 & Hi1).
  destruct (C04_add_attribute_with_extent c1 X a (good_wf _ Hg1) (good_distinct _ Hg1)) as (c2 & E2 & _ & _ & Hg2 & Ho2 & Ha2 & Hi2); [by rewrite Ha1|].
  assert (good c2) as Hg2'. { apply Hg2. rewrite Ho1. by destruct (objs c). }
  destruct (C04_add_attribute_with_extent c X a (good_wf _ Hg) (good_distinct _ Hg) Ha) as (c3 & E3 & _ & _ & Hg3 & Ho3 & Ha3 & Hi3). specialize (Hg3 Hne).
  destruct (C04_add_object_with_intent c3 J o (good_wf _ Hg3) (good_distinct _ Hg3)) as (c4 & E4 & Hg4 & Ho4 & Ha4 & Hi4); [by rewrite Ho3|].
  exists c2, c4. rewrite E1, E3. split; [done|]. split; [done|].
  assert (∀ g m, incident c2 g m ↔ incident c g m ∨ (g = o ∧ m ∈ atts c ∧ m ∈ J) ∨ (m = a ∧ g ∈ objs c ∧ g ∈ X) ∨ (g = o ∧ m = a ∧ o ∈ X)) as Hd.
  { intros g m. rewrite Hi2, Hi1, Ho1, elem_of_app, elem_of_list_singleton. split; [|intros [?|[?|[?|(-> & -> & ?)]]]; tauto].
    intros [[?|?]|(-> & [?| ->] & ?)]; tauto. }
  assert (∀ g m, incident c4 g m ↔ incident c g m ∨ (g = o ∧ m ∈ atts c ∧ m ∈ J) ∨ (m = a ∧ g ∈ objs c ∧ g ∈ X) ∨ (g = o ∧ m = a ∧ a ∈ J)) as Hd'.
  { intros g m. rewrite Hi4, Hi3, Ha3, elem_of_app, elem_of_list_singleton. split; [|intros [?|[?|[?|(-> & -> & ?)]]]; tauto].
    intros [[?|?]|(-> & [?| ->] & ?)]; tauto. }
  split.
  - intros (_ & _ & Hnp). specialize (Hd o a). specialize (Hd' o a).
    assert (¬ incident c o a) as Hn. { intros H. by apply incident_att in H as [H _]. }
    assert (incident c2 o a ↔ incident c4 o a) as Heq by (apply incident_lists; congruence).
    assert (incident c2 o a ↔ o ∈ X) as H1.
    { rewrite Hd. split; [|by right; right; right]. intros [?|[(_ & ? & _)|[(_ & ? & _)|(_ & _ & ?)]]]; done. }
    assert (incident c4 o a ↔ a ∈ J) as H2.
    { rewrite Hd'. split; [|by right; right; right]. intros [?|[(_ & ? & _)|[(_ & ? & _)|(_ & _ & ?)]]]; done. }
    by rewrite <-H1, <-H2.
  - intros H. apply shows_of; [done..|congruence|congruence|]. intros g m. rewrite Hd, Hd', H. done.
Qed.
Print Assumptions C139_add_add.
(** Two new objects: the order is seen in the order of the objects only. *)
Theorem C139_add_objects c J o K p : good c → o ∉ objs c → p ∉ objs c → o ≠ p →
  ∃ d d', andthen (add_object_with_intent c J o) (λ c', add_object_with_intent c' K p) = (d, Ok tt) ∧
    andthen (add_object_with_intent c K p) (λ c', add_object_with_intent c' J o) = (d', Ok tt) ∧
    objs d = objs c ++ [o; p] ∧ objs d' = objs c ++ [p; o] ∧ context_eq d d' = Ok true.
Proof.
  intros Hg Ho Hp Hop.
  destruct (C04_add_object_with_intent c J o (good_wf _ Hg) (good_distinct _ Hg) Ho) as (c1 & E1 & Hg1 & Ho1 & Ha1 & Hi1).
  destruct (C04_add_object_with_intent c1 K p (good_wf _ Hg1) (good_distinct _ Hg1)) as (c2 & E2 & Hg2 & Ho2 & Ha2 & Hi2).
  { rewrite Ho1, elem_of_app, elem_of_list_singleton. intros [?| ->]; done. }
  destruct (C04_add_object_with_intent c K p (good_wf _ Hg) (good_distinct _ Hg) Hp) as (c3 & E3 & Hg3 & Ho3 & Ha3 & Hi3).
  destruct (C04_add_object_with_intent c3 J o (good_wf _ Hg3) (good_distinct _ Hg3)) as (c4 & E4 & Hg4 & Ho4 & Ha4 & Hi4).
  { rewrite Ho3, elem_of_app, elem_of_list_singleton. intros [?| ->]; done. }
  exists c2, c4. rewrite E1, E3. split; [done|]. split; [done|]. split; [by rewrite Ho2, Ho1, <-app_assoc|]. split; [by rewrite Ho4, Ho3, <-app_assoc|].
  apply C11_eq_complete; [done..|]. split; [|split].
  - intros g. rewrite Ho2, Ho1, Ho4, Ho3, !elem_of_app, !elem_of_list_singleton. tauto.
  - intros m. by rewrite Ha2, Ha1, Ha4, Ha3.
  - intros g m. rewrite Hi2, Hi1, Ha1, Hi4, Hi3, Ha3. tauto.
Qed.
Print Assumptions C139_add_objects.
(** Rows of different objects set in either order; a row and a column: the later one decides their
    common cell. *)
Theorem C139_set_set c o X p Y : good c → o ∈ objs c → p ∈ objs c → o ≠ p →
  (∀ m, m ∈ X → m ∈ atts c) → (∀ m, m ∈ Y → m ∈ atts c) →
  ∃ d d', andthen (set_object_intent c X o) (λ c', set_object_intent c' Y p) = (d, Ok tt) ∧
    andthen (set_object_intent c Y p) (λ c', set_object_intent c' X o) = (d', Ok tt) ∧ shows d d'.
Proof.
  intros Hg Ho Hp Hop HX HY.
  destruct (C04_set_object_intent c X o (good_wf _ Hg) (good_distinct _ Hg) Ho HX) as (c1 & E1 & Hg1 & Ho1 & Ha1 & Hi1).
  destruct (C04_set_object_intent c1 Y p (good_wf _ Hg1) (good_distinct _ Hg1)) as (c2 & E2 & Hg2 & Ho2 & Ha2 & Hi2); [by rewrite Ho1|by rewrite Ha1|].
  destruct (C04_set_object_intent c Y p (good_wf _ Hg) (good_distinct _ Hg) Hp HY) as (c3 & E3 & Hg3 & Ho3 & Ha3 & Hi3).
  destruct (C04_set_object_intent c3 X o (good_wf _ Hg3) (good_distinct _ Hg3)) as (c4 & E4 & Hg4 & Ho4 & Ha4 & Hi4); [by rewrite Ho3|by rewrite Ha3|].
  exists c2, c4. rewrite E1, E3. split; [done|]. split; [done|]. apply shows_of; [done..|congruence|congruence|].
  intros g m. rewrite Hi2, Hi1, Hi4, Hi3. destruct (decide (g = o)) as [->|]; [tauto|]. destruct (decide (g = p)) as [->|]; tauto.
Qed.
Print Assumptions C139_set_set.
Theorem C139_set_cell c o J a X : good c → o ∈ objs c → a ∈ atts c → (∀ m, m ∈ J → m ∈ atts c) → (∀ g, g ∈ X → g ∈ objs c) →
  ∃ d d', andthen (set_object_intent c J o) (λ c', set_attribute_extent c' X a) = (d, Ok tt) ∧
    andthen (set_attribute_extent c X a) (λ c', set_object_intent c' J o) = (d', Ok tt) ∧
    (shows d d' ↔ (o ∈ X ↔ a ∈ J)).
Proof.
  intros Hg Ho Ha HJ HX. assert (objs c ≠ []) as Hne. { intros E. rewrite E in Ho. by apply elem_of_nil in Ho. }
  destruct (C04_set_object_intent c J o (good_wf _ Hg) (good_distinct _ Hg) Ho HJ) as (c1 & E1 & Hg1 & Ho1 & Ha1 & Hi1).
  destruct (C04_set_attribute_extent c1 X a (good_wf _ Hg1) (good_distinct _ Hg1)) as (c2 & E2 & Hg2 & Ho2 & Ha2 & Hi2); [by rewrite Ho1|by rewrite Ha1|by rewrite Ho1|].
  destruct (C04_set_attribute_extent c X a (good_wf _ Hg) (good_distinct _ Hg) Hne Ha HX) as (c3 & E3 & Hg3 & Ho3 & Ha3 & Hi3).
  destruct (C04_set_object_intent c3 J o (good_wf _ Hg3) (good_distinct _ Hg3)) as (c4 & E4 & Hg4 & Ho4 & Ha4 & Hi4); [by rewrite Ho3|by rewrite Ha3|].
  exists c2, c4. rewrite E1, E3. split; [done|]. split; [done|]. split.
  - intros (_ & _ & Hnp). assert (incident c2 o a ↔ incident c4 o a) as Heq by (apply incident_lists; congruence).
    rewrite Hi2, Hi4 in Heq. tauto.
  - intros H. apply shows_of; [done..|congruence|congruence|]. intros g m. rewrite Hi2, Hi1, Hi4, Hi3.
    destruct (decide (g = o)) as [->|], (decide (m = a)) as [->|]; tauto.
Qed.
Print Assumptions C139_set_cell.
(** Changing an object and transposing is transposing and changing the attribute. *)
Definition exchanged (c : context) (f f' : context → context * res unit) : Prop :=
  ∃ c1 t t1 d, f c = (c1, Ok tt) ∧ transpose c = Ok t ∧ transpose c1 = Ok t1 ∧ f' t = (d, Ok tt) ∧ shows t1 d.
Theorem C139_transpose c o : good c → atts c ≠ [] →
  (o ∉ objs c → ∀ J, exchanged c (λ c, add_object_with_intent c J o) (λ c, add_attribute_with_extent c J o)) ∧
  (o ∈ objs c →
     exchanged c (λ c, delete_object c o) (λ c, delete_attribute c o) ∧
     (∀ J, (∀ m, m ∈ J → m ∈ atts c) → exchanged c (λ c, set_object_intent c J o) (λ c, set_attribute_extent c J o)) ∧
     (∀ p, p ∉ objs c → exchanged c (λ c, rename_object c o p) (λ c, rename_attribute c o p))).
Proof.
  intros Hg Hne. destruct (C09_transpose c (good_wf _ Hg) (good_distinct _ Hg)) as (t & Et & Hgt & Hot & Hat & _ & Hit).
  split; [intros Ho J|intros Ho; split; [|split; [intros J HJ|intros p Hp]]].
  - destruct (C04_add_object_with_intent c J o (good_wf _ Hg) (good_distinct _ Hg) Ho) as (c1 & E1 & Hg1 & Ho1 & Ha1 & Hi1).
    destruct (C09_transpose c1 (good_wf _ Hg1) (good_distinct _ Hg1)) as (t1 & Et1 & Hgt1 & Hot1 & Hat1 & _ & Hit1).
    destruct (C04_add_attribute_with_extent t J o (good_wf _ Hgt) (good_distinct _ Hgt)) as (d & Ed & _ & _ & Hgd & Hod & Had & Hid); [by rewrite Hat|].
    assert (good d) as Hgd' by (apply Hgd; by rewrite Hot).
    exists c1, t, t1, d. do 4 (split; [done|]). apply shows_of; [done..|congruence|congruence|].
    intros g m. rewrite Hid, Hit, Hit1, Hi1, Hot. tauto.
  - destruct (C04_delete_object c o (good_wf _ Hg) (good_distinct _ Hg) Ho) as (c1 & E1 & Hg1 & Ho1 & Ha1 & Hi1).
    destruct (C09_transpose c1 (good_wf _ Hg1) (good_distinct _ Hg1)) as (t1 & Et1 & Hgt1 & Hot1 & Hat1 & _ & Hit1).
    destruct (C04_delete_attribute t o (good_wf _ Hgt) (good_distinct _ Hgt)) as (d & Ed & Hgd & Hod & Had & Hid); [by rewrite Hot|by rewrite Hat|].
    exists c1, t, t1, d. do 4 (split; [done|]). apply shows_of; [done..|congruence|congruence|].
    intros g m. rewrite Hid, Hit, Hit1, Hi1. tauto.
  - destruct (C04_set_object_intent c J o (good_wf _ Hg) (good_distinct _ Hg) Ho HJ) as (c1 & E1 & Hg1 & Ho1 & Ha1 & Hi1).
    destruct (C09_transpose c1 (good_wf _ Hg1) (good_distinct _ Hg1)) as (t1 & Et1 & Hgt1 & Hot1 & Hat1 & _ & Hit1).
    destruct (C04_set_attribute_extent t J o (good_wf _ Hgt) (good_distinct _ Hgt)) as (d & Ed & Hgd & Hod & Had & Hid); [by rewrite Hot|by rewrite Hat|by rewrite Hot|].
    exists c1, t, t1, d. do 4 (split; [done|]). apply shows_of; [done..|congruence|congruence|].
    intros g m. rewrite Hid, Hit, Hit1, Hi1. tauto.
  - destruct (C04_rename_object c o p (good_wf _ Hg) (good_distinct _ Hg) (good_shape _ Hg) Ho (or_introl Hp)) as (c1 & E1 & Hg1 & Ho1 & Ha1 & Hi1).
    destruct (C09_transpose c1 (good_wf _ Hg1) (good_distinct _ Hg1)) as (t1 & Et1 & Hgt1 & Hot1 & Hat1 & _ & Hit1).
    destruct (C04_rename_attribute t o p (good_wf _ Hgt) (good_distinct _ Hgt) (good_shape _ Hgt)) as (d & Ed & Hgd & Hod & Had & Hid); [by rewrite Hat|left; by rewrite Hat|].
    exists c1, t, t1, d. do 4 (split; [done|]). apply shows_of; [done..|congruence|congruence|].
    intros g m. rewrite Hid, !Hit, Hit1, Hi1. tauto.
Qed.
Print Assumptions C139_transpose.

(** A new object without the new attribute d, which is said to have the new object. *)
Example C139_case :
  let f c := add_object_with_intent c {[sa]} (NInt 5) in
  let h c := add_attribute_with_extent c {[o1; NInt 5]} (NStr "d") in
  np (andthen (f ex) h).1 = [[true; true; false; true]; [true; false; true; false]; [true; false; false; false]; [false; false; false; false]; [true; false; false; true]] ∧
  np (andthen (h ex) f).1 = [[true; true; false; true]; [true; false; true; false]; [true; false; false; false]; [false; false; false; false]; [true; false; false; false]].
Proof. cbv zeta. split; dec. Qed.
