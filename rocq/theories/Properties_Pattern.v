(** * Pattern exploration: the final statements (C61, C76, C77) *)
From Verif Require Import Py Spec PyFacts SpecFacts ContextModel ContextSpec ContextOps ContextFacts ContextInit ContextFinal
  LatticeModel PatternModel PatternSpec PatternFacts Properties_Context.

(** The example.  Positive: 1 {a, b, c}, 2 {a}, 3 {b}; negative: 4 {c}. *)
Definition px := get_ok empty_cxt (mk_context [[true; true; true]; [true; false; false]; [false; true; false]] None [o1; o2; o3] [sa; sb; sc]).
Definition nx := get_ok empty_cxt (mk_context [[true; false; false]] None [o4] [sc; sb; sa]).
Example px_good : good px ∧ good nx.
Proof.
  split.
  - eapply (mk_context_good [[true; true; true]; [true; false; false]; [false; true; false]] None [o1; o2; o3] [sa; sb; sc]); [reflexivity| | |done]; by apply (bool_decide_unpack _).
  - eapply (mk_context_good [[true; false; false]] None [o4] [sc; sb; sa]); [reflexivity| | |done]; by apply (bool_decide_unpack _).
Qed.

(** ** C61 *)
(** The two contexts need the same attributes. *)
Theorem C61_start cp cn : good cp → good cn →
  ((list_to_set (atts cp) : gset name) ≠ list_to_set (atts cn) ∧ new_patterns cp cn = Err AttributeMismatch) ∨
  ((list_to_set (atts cp) : gset name) = list_to_set (atts cn) ∧
   ∃ s, new_patterns cp cn = Ok s ∧ pconf s = [] ∧ abs (ppos s) = abs cp ∧ abs (pneg s) = abs cn).
Proof.
  intros Hp Hn. destruct (new_patterns_ok cp cn Hp Hn) as [H|(s & H1 & Hi & H2 & H3 & H4)]; [by left|]. right.
  split; [|by exists s]. pose proof (q_atts s Hi) as E. change (fM (abs (ppos s)) = fM (abs (pneg s))) in E. by rewrite H3, H4 in E.
Qed.
Print Assumptions C61_start.
(** Exactly when a pattern is confirmed, and what is raised otherwise. *)
Theorem C61_confirm cp cn s p : good cp → good cn → preach cp cn s →
  ((∃ x, x ∈ p ∧ x ∉ atts (ppos s)) ∧ pstep (PConfirm p) s = (s, Err KeyError)) ∨
  ((∀ x, x ∈ p → x ∈ atts (ppos s)) ∧ ¬ occurs (ppos s) (list_to_set p) ∧ pstep (PConfirm p) s = (s, Err NotAPositivePattern)) ∨
  ((∀ x, x ∈ p → x ∈ atts (ppos s)) ∧ occurs (ppos s) (list_to_set p) ∧ occurs (pneg s) (list_to_set p) ∧
     pstep (PConfirm p) s = (s, Err NotANegativePattern)) ∨
  ((∀ x, x ∈ p → x ∈ atts (ppos s)) ∧ occurs (ppos s) (list_to_set p) ∧ ¬ occurs (pneg s) (list_to_set p) ∧
     pstep (PConfirm p) s = (PExp (ppos s) (pneg s) (pconf s ++ [list_to_set p]), Ok tt)).
Proof. intros Hp Hn H. exact (confirm_cases p s (preach_inv cp cn s Hp Hn H)). Qed.
Print Assumptions C61_confirm.
(** Whatever happens later, some positive object that is not full has the pattern. *)
Theorem C61_occurs cp cn s P : good cp → good cn → preach cp cn s → P ∈ pconf s →
  P ⊆ list_to_set (atts (ppos s)) ∧ occurs (ppos s) P.
Proof. intros Hp Hn H. exact (q_conf s (preach_inv cp cn s Hp Hn H) P). Qed.
Print Assumptions C61_occurs.
(** Negative examples are checked against the pattern given with them and nothing else. *)
Theorem C61_negative cp cn s o X pat : good cp → good cn → preach cp cn s → o ∉ objs (pneg s) →
  ((∃ p, pat = Some p ∧ ¬ (list_to_set p : gset name) ⊆ X) ∧ pstep (PNegative o X pat) s = (s, Err NotNegativeExample)) ∨
  ((∀ p, pat = Some p → (list_to_set p : gset name) ⊆ X) ∧ ∃ c', pstep (PNegative o X pat) s = (PExp (ppos s) c' (pconf s), Ok tt) ∧
    good c' ∧ objs c' = objs (pneg s) ++ [o] ∧ atts c' = atts (pneg s) ∧
    ∀ g m, incident c' g m ↔ incident (pneg s) g m ∨ (g = o ∧ m ∈ atts (pneg s) ∧ m ∈ X)).
Proof. intros Hp Hn H. exact (add_negative_cases o X pat s (preach_inv cp cn s Hp Hn H)). Qed.
Print Assumptions C61_negative.
Theorem C61_positive cp cn s o X : good cp → good cn → preach cp cn s → o ∉ objs (ppos s) →
  ∃ c', pstep (PPositive o X) s = (PExp c' (pneg s) (pconf s), Ok tt) ∧
    good c' ∧ objs c' = objs (ppos s) ++ [o] ∧ atts c' = atts (ppos s) ∧
    ∀ g m, incident c' g m ↔ incident (ppos s) g m ∨ (g = o ∧ m ∈ atts (ppos s) ∧ m ∈ X).
Proof. intros Hp Hn H. exact (add_positive_effect o X s (preach_inv cp cn s Hp Hn H)). Qed.
Print Assumptions C61_positive.
(** A negative example that is not full refutes the pattern given with it, and every smaller one. *)
Theorem C61_refuted_pattern cp cn s s' o X p : good cp → good cn → preach cp cn s → o ∉ objs (pneg s) →
  (∃ m, m ∈ atts (pneg s) ∧ m ∉ X) → (∀ m, m ∈ p → m ∈ atts (pneg s)) →
  pstep (PNegative o X (Some p)) s = (s', Ok tt) →
  ∀ q, list_to_set q ⊆ (list_to_set p : gset name) → ∃ e, pstep (PConfirm q) s' = (s', Err e).
Proof. intros Hp Hn H. exact (negative_refutes o X p s s' (preach_inv cp cn s Hp Hn H)). Qed.
Print Assumptions C61_refuted_pattern.
(** The examples shown for a pattern, and those no confirmed pattern explains. *)
Theorem C61_examples cp cn s ord p : good cp → good cn → preach cp cn s → (∀ X : gset name, ord X ≡ₚ elements X) →
  (∀ x, x ∈ p → x ∈ atts (ppos s)) →
  ∃ l, pattern_examples ord p s = Ok l ∧ NoDup (map fst l) ∧
    ∀ o X, (o, X) ∈ l ↔ o ∈ objs (ppos s) ∧ has_all (ppos s) o (list_to_set p) ∧ ∀ m, m ∈ X ↔ incident (ppos s) o m.
Proof. intros Hp Hn H. exact (pattern_examples_spec ord p s (q_pos s (preach_inv cp cn s Hp Hn H))). Qed.
Print Assumptions C61_examples.
Theorem C61_unexplained cp cn s : good cp → good cn → preach cp cn s →
  ∃ l, unexplained_examples s = Ok l ∧ map fst l `sublist_of` objs (ppos s) ∧
    ∀ o X, (o, X) ∈ l ↔ o ∈ objs (ppos s) ∧ ¬ (∃ P, P ∈ pconf s ∧ has_all (ppos s) o P) ∧ ∀ m, m ∈ X ↔ incident (ppos s) o m.
Proof. intros Hp Hn H. exact (unexplained_spec s (q_pos s (preach_inv cp cn s Hp Hn H))). Qed.
Print Assumptions C61_unexplained.

Definition s0 := get_ok (PExp empty_cxt empty_cxt []) (new_patterns px nx).
Lemma s0_built : new_patterns px nx = Ok s0.
Proof. apply get_ok_eq. vm_compute. reflexivity. Qed.
Lemma preach_s0 : preach px nx s0.
Proof. exact (preach_new px nx s0 s0_built). Qed.
Definition pnext (o : pop) (s : pexp) : pexp := (pstep o s).1.
Lemma incident_dec c g m : good c → (g, m) ∈ fI (abs c) ↔ incident c g m.
Proof. intros _. apply elem_of_fI. Qed.
(** A negative example that has a confirmed pattern, and misses an attribute, is accepted. *)
Theorem C61_protected_refuted : ∃ cp cn s P g, good cp ∧ good cn ∧ preach cp cn s ∧ P ∈ pconf s ∧
  g ∈ objs (pneg s) ∧ has_all (pneg s) g P ∧ ¬ is_full (pneg s) g.
Proof.
  exists px, nx, (pnext (PNegative o1 {[sa]} None) (pnext (PConfirm [sa]) s0)), {[sa]}, o1.
  split; [apply px_good|]. split; [apply px_good|]. split.
  { apply preach_step; [apply preach_step; [exact preach_s0|done]|]. cbn [pattern_call]. dec. }
  split; [dec|]. split; [dec|]. split.
  - intros m ->%elem_of_singleton. apply elem_of_fI. dec.
  - intros H. assert (incident (pneg (pnext (PNegative o1 {[sa]} None) (pnext (PConfirm [sa]) s0))) o1 sb) as Hi by (apply H; dec).
    apply elem_of_fI in Hi. revert Hi. change (¬ (o1, sb) ∈ fI (abs (pneg (pnext (PNegative o1 {[sa]} None) (pnext (PConfirm [sa]) s0))))). dec.
Qed.
Print Assumptions C61_protected_refuted.
(** A pattern is confirmed although a negative object, one with all attributes, has it. *)
Theorem C61_full_negative_refuted : ∃ cp cn s s' p g, good cp ∧ good cn ∧ preach cp cn s ∧
  pstep (PConfirm p) s = (s', Ok tt) ∧ g ∈ objs (pneg s) ∧ has_all (pneg s) g (list_to_set p).
Proof.
  set (s1 := pnext (PNegative o1 {[sa; sb; sc]} None) s0). set (r := pstep (PConfirm [sa]) s1).
  exists px, nx, s1, r.1, [sa], o1.
  split; [apply px_good|]. split; [apply px_good|]. split; [apply preach_step; [exact preach_s0|]; cbn [pattern_call]; dec|].
  assert (r.2 = Ok tt) as Hr by dec. split; [change (r = (r.1, Ok tt)); destruct r as [? ?]; cbn in *; by subst|].
  split; [dec|]. intros m Hm. apply elem_of_list_to_set, elem_of_list_singleton in Hm as ->. apply elem_of_fI. dec.
Qed.
Print Assumptions C61_full_negative_refuted.
Example C61_case : pconf (pnext (PConfirm [sa; sb]) (pnext (PConfirm [sa]) s0)) = [{[sa]}] ∧
  (pstep (PConfirm [sa; sb]) s0).2 = Err NotAPositivePattern ∧ (pstep (PConfirm []) s0).2 = Err NotANegativePattern ∧
  (pstep (PConfirm [NStr "z"]) s0).2 = Err KeyError ∧ (pstep (PNegative o1 {[sb]} (Some [sa])) s0).2 = Err NotNegativeExample ∧
  unexplained_examples (pnext (PConfirm [sa]) s0) = Ok [(o3, {[sb]})].
Proof. split; [dec|]. split; [dec|]. split; [dec|]. split; [dec|]. split; dec. Qed.

(** ** C76 *)
(** The default generator: the concepts of the positive context, cut to irreducible
    attributes and objects, whose intent no negative object has unless it is full. *)
Theorem C76_positive_concepts ord cp cn : good cp → good cn → (list_to_set (atts cp) : gset name) = list_to_set (atts cn) →
  length (objs cp) ≤ 63 → length (atts cp) ≤ 63 → (∀ X : gset name, ord X ≡ₚ elements X) →
  ∃ c1 c2 l, reduce_attributes cp = Ok c1 ∧ reduce_objects c1 = Ok c2 ∧ positive_concepts ord cp cn = Ok l ∧ NoDup l ∧
    ∀ A B, (A, B) ∈ l ↔
      (∃ A' B', is_concept (abs cp) A' B' ∧ A = A' ∩ list_to_set (objs c2) ∧ B = B' ∩ list_to_set (atts c1)) ∧ ¬ occurs cn B.
Proof.
  intros Hp Hn Ha H1 H2 Ho. destruct (positive_concepts_spec ord cp cn Hp Hn Ha H1 H2 Ho) as (c1 & c2 & cs & l & E1 & E2 & _ & E4 & _ & E5 & E6 & _).
  exists c1, c2, l. exact (conj E1 (conj E2 (conj E4 (conj E5 E6)))).
Qed.
Print Assumptions C76_positive_concepts.
(** Cutting loses patterns: {a, b, c} is the intent of a positive concept and no
    negative object has it, but c is reducible and some negative object has {a, b}. *)
Definition nx2 := get_ok empty_cxt (mk_context [[true; true; false]] None [o4] [sa; sb; sc]).
Theorem C76_missed_refuted : ∃ ord cp cn A B l, good cp ∧ good cn ∧ atts cp = atts cn ∧ (∀ X : gset name, ord X ≡ₚ elements X) ∧
  is_concept (abs cp) A B ∧ (∀ g, g ∈ objs cn → ¬ has_all cn g B) ∧
  positive_concepts ord cp cn = Ok l ∧ ∀ X Y, (X, Y) ∈ l → X ≠ A ∧ Y ≠ B.
Proof.
  exists elements, px, nx2, {[o1]}, {[sa; sb; sc]}, []. split; [apply px_good|]. split.
  { eapply (mk_context_good [[true; true; false]] None [o4] [sa; sb; sc]); [reflexivity| | |done]; by apply (bool_decide_unpack _). }
  split; [reflexivity|]. split; [done|]. split; [split; [dec|split; [dec|split; dec]]|]. split.
  { intros g Hg. assert (g = o4) as -> by by apply elem_of_list_singleton in Hg. intros H.
    assert (incident nx2 o4 sc) as Hi by (apply H; dec). apply elem_of_fI in Hi. revert Hi. change (¬ (o4, sc) ∈ fI (abs nx2)). dec. }
  split; [dec|]. by intros X Y H%not_elem_of_nil.
Qed.
Print Assumptions C76_missed_refuted.
Example C76_case : ∃ l, positive_concepts elements px nx = Ok l ∧ list_to_set l =@{gset fconcept} {[ ({[o1]}, {[sa; sb]}); ({[o1; o2]}, {[sa]}); ({[o1; o3]}, {[sb]}) ]}.
Proof. exists (get_ok [] (positive_concepts elements px nx)). split; [apply get_ok_eq; vm_compute; reflexivity|dec]. Qed.

(** ** C77 *)
(** With a generator of pairs: the unexplained patterns, each with the number of
    unexplained examples having it, most frequent first; patterns with the same
    number stay in the order generated. *)
Theorem C77_unconfirmed {F} cp cn s (gen : list (gset name * F)) : good cp → good cn → preach cp cn s →
  ∃ ex l, unexplained_examples s = Ok ex ∧ unconfirmed_patterns gen s = Ok l ∧
    map fst l ≡ₚ map fst (filter (λ q : gset name * F, Forall (λ P, ¬ P ⊆ q.1) (pconf s)) gen) ∧
    (∀ P n, (P, n) ∈ l → n = length (filter (λ e : name * gset name, P ⊆ e.2) ex)) ∧
    StronglySorted (λ x y, y.2 ≤ x.2) l ∧
    ∀ k, map fst (filter (λ x : gset name * nat, x.2 = k) l) `sublist_of` map fst gen.
Proof. intros Hp Hn H. exact (unconfirmed_spec gen s (preach_inv cp cn s Hp Hn H)). Qed.
Print Assumptions C77_unconfirmed.
(** With the default generator there is never a list of patterns: it is empty, or the
    call fails. *)
Theorem C77_default cp cn s ord : good cp → good cn → preach cp cn s →
  length (objs (ppos s)) ≤ 63 → length (atts (ppos s)) ≤ 63 → (∀ X : gset name, ord X ≡ₚ elements X) →
  ∃ l, positive_concepts ord (ppos s) (pneg s) = Ok l ∧
    ((l = [] ∧ unconfirmed_patterns_default ord s = Ok []) ∨ (l ≠ [] ∧ unconfirmed_patterns_default ord s = Err TypeError)).
Proof.
  intros Hp Hn H H1 H2 Ho. destruct (unconfirmed_default_spec ord s (preach_inv cp cn s Hp Hn H) H1 H2 Ho) as (l & E & E').
  exists l. split; [done|]. destruct l; [by left|by right].
Qed.
Print Assumptions C77_default.
Example C77_case : unconfirmed_patterns [({[sa]}, 7); ({[sb]}, 1); ({[sa; sb]}, 1); ({[sc]}, 0); (∅, 2)] s0 =
    Ok [(∅, 3); ({[sa]}, 2); ({[sb]}, 2); ({[sa; sb]}, 1); ({[sc]}, 1)] ∧
  unconfirmed_patterns [({[sa]}, 7); ({[sb]}, 1); ({[sa; sb]}, 1); ({[sc]}, 0)] (pnext (PConfirm [sa]) s0) =
    Ok [({[sb]}, 1); ({[sc]}, 0)] ∧
  unconfirmed_patterns_default elements s0 = Err TypeError.
Proof. split; [dec|]. split; dec. Qed.
