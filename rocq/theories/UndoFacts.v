(** * Facts on changes made one after the other *)
From Verif Require Import Py Spec ContextModel ContextSpec ContextOps PyFacts SpecFacts ContextFacts ContextInit
  ContextMut ContextEffects ContextMisc ContextReduce ContextEq ContextFinal MulFacts UndoSpec.

Lemma shows_of c d : good c → good d → objs d = objs c → atts d = atts c → (∀ g m, incident d g m ↔ incident c g m) → shows c d.
Proof. intros Hc Hd Ho Ha H. split; [done|]. split; [done|]. by apply table_of_incidence. Qed.
Lemma filter_snoc_fresh (l : list name) x : x ∉ l → filter (λ y, y ≠ x) (l ++ [x]) = l.
Proof.
  intros H. rewrite filter_app. assert (filter (λ y, y ≠ x) [x] = []) as -> by (rewrite filter_cons_False by auto; done).
  rewrite app_nil_r. induction l as [|a l IH]; [done|]. apply not_elem_of_cons in H as [H1 H2].
  rewrite filter_cons_True by auto. by rewrite IH.
Qed.
Lemma rename_back (l : list name) x y : y ∉ l →
  map (λ z, if decide (z = y) then x else z) (map (λ z, if decide (z = x) then y else z) l) = l.
Proof.
  intros H. rewrite map_map. rewrite <-(map_id l) at 2. apply map_ext_in. intros z Hz%elem_of_list_In.
  destruct (decide (z = x)) as [->|]; [by rewrite decide_True|]. rewrite decide_False; [done|]. by intros ->.
Qed.
Lemma add_rows_spec d l : good d → NoDup (objs d ++ map fst l) →
  ∃ d', add_rows d l = (d', Ok tt) ∧ good d' ∧ objs d' = objs d ++ map fst l ∧ atts d' = atts d ∧
    ∀ g m, incident d' g m ↔ incident d g m ∨ ∃ J, (g, J) ∈ l ∧ m ∈ atts d ∧ m ∈ J.
Proof.
  revert d. induction l as [|[o J] l IH]; intros d Hd Hn.
  - exists d. cbn. rewrite app_nil_r. split; [done|]. split; [done|]. split; [done|]. split; [done|]. intros g m. split; [by left|].
    intros [H|(J & H & _)]; [done|]. by apply elem_of_nil in H.
  - cbn [map fst] in Hn. assert (o ∉ objs d) as Ho. { apply NoDup_app in Hn as (_ & Hn & _). intros H. apply (Hn o H). left. }
    destruct (add_object_with_intent_effect d J o) as (d1 & E & Hd1 & Ho1 & Ha1 & Hi1); [apply Hd..|done|].
    destruct (IH d1 Hd1) as (d2 & E2 & Hd2 & Ho2 & Ha2 & Hi2). { by rewrite Ho1, <-app_assoc. }
    exists d2. cbn [add_rows map fst]. rewrite E. cbn [andthen]. split; [done|]. split; [done|]. split; [by rewrite Ho2, Ho1, <-app_assoc|].
    split; [by rewrite Ha2|]. intros g m. rewrite Hi2, Hi1, Ha1. split.
    + intros [[H|(-> & H1 & H2)]|(J' & H1 & H2 & H3)]; [by left|right; exists J; split; [left|done]|right; exists J'; split; [by right|done]].
    + intros [H|(J' & [H1|H1]%elem_of_cons & H2 & H3)]; [by left; left| |right; by exists J'].
      left; right. assert (g = o ∧ J' = J) as [-> ->] by (split; congruence). done.
Qed.
