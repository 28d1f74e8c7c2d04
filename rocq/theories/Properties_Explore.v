(** * Exploration loops with an expert: the final statements (C84-C87) *)
From Verif Require Import Py Spec PyFacts SpecFacts DgSpec ContextModel ContextSpec ContextOps ContextFacts ContextInit ContextFinal
  ClosureModel ClosureFacts DgModel DgMain DgCxt DgFinal AiModel ExplModel ExplSpec ExplFacts ExplDb ExplFinal
  ExploreModel ExploreSpec ExploreFacts ExploreFinal NumFacts
  Properties_Context Properties_Closure Properties_Dg Properties_Ai Properties_Expl.
From Coq Require Import Znumtheory.
Local Open Scope nat_scope.

(** ** C84 *)
(** Whatever a truthful expert answers, the loop ends after at most [2 * 2 ^ n] answers
    for [n] attributes.  Then the context has exactly the closures of the domain, and the
    confirmed implications are the Duquenne-Guigues basis of the domain relative to
    the initial background, in lectic order. *)
Theorem C84_truthful c0 L0 cl expert ords0 ords : good c0 → comparable (atts c0) = true → objs c0 ≠ [] ∨ L0 = [] →
  closure_op (fM (abs c0)) cl → (∀ g, g ∈ objs c0 → cl (up (abs c0) {[g]}) = up (abs c0) {[g]}) →
  (∀ i, i ∈ L0 → i.1 ⊆ fM (abs c0) ∧ i.2 ⊆ fM (abs c0)) → (∀ i, i ∈ L0 → i.2 ⊆ cl i.1) → no_repeats L0 →
  truthful (fM (abs c0)) cl expert → lists_sets ords0 → (∀ k n, lists_sets (ords k n)) →
  ∃ d d' R, new_db ords0 c0 L0 always = Ok d ∧
    (∀ fuel, 2 * 2 ^ length (atts c0) ≤ fuel → explore fuel 0 expert ords d = (d', Ok tt)) ∧
    dopen d' = [] ∧
    (∃ es, objs (dcxt d') = objs c0 ++ es ∧ ∀ g, g ∈ objs c0 → up (abs (dcxt d')) {[g]} = up (abs c0) {[g]}) ∧
    good (dcxt d') ∧ atts (dcxt d') = atts c0 ∧ (∀ X, X ⊆ fM (abs c0) → acl (abs (dcxt d')) X = cl X) ∧
    dimps d' = L0 ++ R ∧ (∀ i, i ∈ R → i.2 = cl i.1) ∧
    pseudo_family (fM (abs c0)) cl L0 (λ P, P ∈ map fst R) ∧ StronglySorted (lectic (atts c0)) (map fst R) ∧
    compute_dg_basis_simple (dcxt d') (Some L0) always = Ok R.
Proof.
  intros Hg Hc Hob Hcl Hr HL HLs Hn Ht Ho0 Ho.
  exact (expert_exploration c0 Hg Hc cl Hcl Hr L0 HL HLs Hn Hob ords0 ords expert Ho0 Ho Ht).
Qed.
Print Assumptions C84_truthful.
(** The expert that knows a list of implications: afterwards exactly what follows from
    the list holds in the context and follows from the background, and no shorter
    list of confirmed implications would do. *)
Theorem C84_generic_expert c0 E L0 nm ords0 ords : good c0 → comparable (atts c0) = true → objs c0 ≠ [] ∨ L0 = [] →
  (∀ i, i ∈ E → i.1 ⊆ fM (abs c0) ∧ i.2 ⊆ fM (abs c0)) → (∀ i, i ∈ E → holds (abs c0) i) →
  (∀ i, i ∈ L0 → i.1 ⊆ fM (abs c0) ∧ i.2 ⊆ fM (abs c0)) → (∀ i, i ∈ L0 → entails E i) → no_repeats L0 →
  (∀ k k' X X', X ⊆ fM (abs c0) → X' ⊆ fM (abs c0) → nm k X = nm k' X' → X = X') → (∀ k X, X ⊆ fM (abs c0) → nm k X ∉ objs c0) →
  lists_sets ords0 → (∀ k n, lists_sets (ords k n)) →
  ∃ d d' R, new_db ords0 c0 L0 always = Ok d ∧
    (∀ fuel, 2 * 2 ^ length (atts c0) ≤ fuel → explore fuel 0 (generic_expert nm E) ords d = (d', Ok tt)) ∧
    dopen d' = [] ∧
    (∃ es, objs (dcxt d') = objs c0 ++ es ∧ ∀ g, g ∈ objs c0 → up (abs (dcxt d')) {[g]} = up (abs c0) {[g]}) ∧
    good (dcxt d') ∧ atts (dcxt d') = atts c0 ∧ dimps d' = L0 ++ R ∧
    (∀ i, i.1 ⊆ fM (abs c0) → i.2 ⊆ fM (abs c0) → (holds (abs (dcxt d')) i ↔ entails E i) ∧ (entails (dimps d') i ↔ entails E i)) ∧
    (∀ S, (∀ i, i ∈ S → i.1 ⊆ fM (abs c0) ∧ i.2 ⊆ fM (abs c0) ∧ entails E i) →
       (∀ i, i ∈ E → entails (S ++ L0) i) → length R ≤ length S).
Proof. exact (generic_expert_exploration c0 E L0 nm ords0 ords). Qed.
Print Assumptions C84_generic_expert.
(** Answering a question with an example that has premise and conclusion is refused. *)
Theorem C84_foolish ords i o d : ae_reject ords i [o] [i.1 ∪ i.2] d = (d, Err NotCounterexample).
Proof.
  unfold ae_reject. destruct (is_respected i (i.1 ∪ i.2)) eqn:E; [done|]. exfalso. apply not_true_iff_false in E. apply E.
  apply is_respected_spec. intros _. set_solver.
Qed.
Print Assumptions C84_foolish.
(** The triangles of the library's own test: three objects, two implications. *)
Definition tri_table := [[false; true; false; false]; [false; false; true; false]; [false; false; false; true]].
Definition tri := get_ok empty_cxt (mk_context tri_table None [sb; sc; sd] [sa; sb; sc; sd]).
Definition tri_E : list fimp := [({[sc; sd]}, {[sa; sb]}); ({[sa]}, {[sb; sc]})].
Definition tri_nm (k : nat) (X : gset name) : name := NInt (Zpos (encode X)).
Definition tri_d := get_ok (EDB empty_cxt [] always [] true) (new_db elts tri [] always).
Definition tri_end := explore 32 0 (generic_expert tri_nm tri_E) (λ _ _, elts) tri_d.
Example C84_case : good tri ∧ comparable (atts tri) = true ∧ objs tri ≠ [] ∧
  (∀ i, i ∈ tri_E → i.1 ⊆ fM (abs tri) ∧ i.2 ⊆ fM (abs tri)) ∧ (∀ i, i ∈ tri_E → holds (abs tri) i) ∧
  (∀ k k' X X', tri_nm k X = tri_nm k' X' → X = X') ∧ (∀ k X, tri_nm k X ∉ objs tri) ∧
  (∀ k n : nat, lists_sets ((λ _ _, elts) k n)) ∧ tri_end.2 = Ok tt ∧ length (objs (dcxt tri_end.1)) = 6 ∧ length (dimps tri_end.1) = 2.
Proof.
  assert (mk_context tri_table None [sb; sc; sd] [sa; sb; sc; sd] = Ok tri) as Hb by reflexivity.
  split; [eapply (mk_context_good tri_table None); [exact Hb| | |done]; by apply (bool_decide_unpack _)|].
  split; [done|]. split; [done|]. split.
  { assert (Forall (λ i : fimp, i.1 ⊆ fM (abs tri) ∧ i.2 ⊆ fM (abs tri)) tri_E) as H by dec. by rewrite Forall_forall in H. }
  split.
  { assert (Forall (λ i : fimp, holds (abs tri) i) tri_E) as H; [|by rewrite Forall_forall in H].
    repeat constructor; rewrite holds_forall; dec. }
  split; [intros k k' X X' [= H%encode_inj]; done|]. split; [intros k X H; unfold tri_nm in H; vm_compute in H; set_solver|].
  split; [intros _ _; exact elts_lists|]. split; [dec|]. split; dec.
Qed.
(** A truthful expert for any domain: new examples are numbered. *)
Definition next_number (l : list name) : name := NInt (1 + foldr (λ o n, (match o with NInt z => Z.abs z | NStr _ => 0 end + n)%Z) 0%Z l).
Lemma next_number_fresh l : next_number l ∉ l.
Proof.
  set (f := foldr (λ o n, (match o with NInt z => Z.abs z | NStr _ => 0 end + n)%Z) 0%Z).
  assert (∀ l, (0 ≤ f l)%Z) as H0 by (intros l'; induction l' as [|[|z] l' IH]; cbn; unfold f in *; lia).
  assert (∀ l z, NInt z ∈ l → (Z.abs z ≤ f l)%Z) as H.
  { intros l' z Hz. induction l' as [|o l' IH]; [by apply elem_of_nil in Hz|]. pose proof (H0 l'). apply elem_of_cons in Hz as [<-|Hz].
    - cbn. unfold f in *. lia.
    - specialize (IH Hz). cbn. unfold f in *. destruct o; lia. }
  intros Hl%H. pose proof (H0 l). fold f in Hl. lia.
Qed.
Definition knows (cl : gset name → gset name) (k : nat) (d : edb) (i : fimp) : res answer :=
  Ok (if bool_decide (i.2 ⊆ cl i.1) then Valid else Counter [next_number (objs (dcxt d))] [cl i.1]).
Example C84_truthful_case M cl : closure_op M cl → truthful M cl (knows cl).
Proof.
  intros Hcl k d i H1 H2. eexists. split; [done|]. destruct (bool_decide (i.2 ⊆ cl i.1)) eqn:B; [by apply bool_decide_eq_true in B|].
  apply bool_decide_eq_false in B. pose proof (cl_sub _ _ Hcl i.1 H1). assert (cl i.1 ∩ M = cl i.1) as E by set_solver.
  split; [apply NoDup_singleton|]. split; [intros o ->%elem_of_list_singleton; apply next_number_fresh|]. split; [done|]. split.
  - intros X ->%elem_of_list_singleton. rewrite E. by apply (cl_idem _ _ Hcl).
  - eexists _, []. split; [done|]. intros Hr. by apply B, Hr, (cl_ext _ _ Hcl).
Qed.

(** ** C85 *)
(** The same for a session of exploration2, when it is the current one. *)
Theorem C85_session x s L0 cl person intent ords : good (xcxt x) → comparable (atts (xcxt x)) = true →
  xcur x = Some s → xbases x !! s = Some L0 → objs (xcxt x) ≠ [] ∨ L0 = [] →
  closure_op (fM (abs (xcxt x))) cl → (∀ g, g ∈ objs (xcxt x) → cl (up (abs (xcxt x)) {[g]}) = up (abs (xcxt x)) {[g]}) →
  (∀ i, i ∈ L0 → i.1 ⊆ fM (abs (xcxt x)) ∧ i.2 ⊆ fM (abs (xcxt x))) → (∀ i, i ∈ L0 → i.2 ⊆ cl i.1) → no_repeats L0 →
  truthful_person (fM (abs (xcxt x))) cl intent person → (∀ k n, lists_sets (ords k n)) →
  ∃ x' R, (∀ fuel, 2 * 2 ^ length (atts (xcxt x)) ≤ fuel → x_explore fuel 0 person intent ords s x = (x', Ok tt)) ∧
    (∀ ords, lists_sets ords → x_candidates ords s x' = Ok []) ∧
    (∃ es, objs (xcxt x') = objs (xcxt x) ++ es ∧ ∀ g, g ∈ objs (xcxt x) → up (abs (xcxt x')) {[g]} = up (abs (xcxt x)) {[g]}) ∧
    (∀ t, t ≠ s → xbases x' !! t = xbases x !! t) ∧
    good (xcxt x') ∧ atts (xcxt x') = atts (xcxt x) ∧ (∀ X, X ⊆ fM (abs (xcxt x)) → acl (abs (xcxt x')) X = cl X) ∧
    xbases x' !! s = Some (L0 ++ R) ∧ (∀ i, i ∈ R → i.2 = cl i.1) ∧
    pseudo_family (fM (abs (xcxt x))) cl L0 (λ P, P ∈ map fst R) ∧ StronglySorted (lectic (atts (xcxt x))) (map fst R) ∧
    compute_dg_basis_simple (xcxt x') (Some L0) always = Ok R.
Proof.
  intros Hg Hc Hcur Hb Hob Hcl Hr HL HLs Hn Ht Ho.
  exact (session_exploration (xcxt x) Hg Hc cl Hcl Hr L0 HL HLs Hn Hob x s person intent ords eq_refl Hcur Hb Ho Ht).
Qed.
Print Assumptions C85_session.
(** A truthful person for any domain: an example is named by its intent and a counter. *)
Definition code (X : gset name) (n : nat) : name := NInt (Zpos (encode (X, n))).
Definition decoded (o : name) : gset name * nat := match o with NInt (Zpos p) => default (∅, 0) (decode p) | _ => (∅, 0) end.
Definition person (cl : gset name → gset name) (k : nat) (x : xpl) (i : fimp) : res (option name) :=
  Ok (if bool_decide (i.2 ⊆ cl i.1) then None else Some (code (cl i.1) (S (foldr (λ o n, (decoded o).2 + n) 0 (objs (xcxt x)))))).
Example C85_truthful_case M cl : closure_op M cl → truthful_person M cl (λ o, (decoded o).1) (person cl).
Proof.
  intros Hcl k x i H1 H2. eexists. split; [done|]. destruct (bool_decide (i.2 ⊆ cl i.1)) eqn:B; [by apply bool_decide_eq_true in B|].
  apply bool_decide_eq_false in B. assert (∀ X n, decoded (code X n) = (X, n)) as Hd by (intros; unfold decoded, code; by rewrite decode_encode).
  rewrite Hd. cbn [fst]. pose proof (cl_sub _ _ Hcl i.1 H1). assert (cl i.1 ∩ M = cl i.1) as E by set_solver. split; [|split].
  - intros Hin. assert (∀ l o, o ∈ l → (decoded o).2 ≤ foldr (λ o n, (decoded o).2 + n) 0 l) as Hle.
    { intros l o Ho. induction l as [|o' l IH]; [by apply elem_of_nil in Ho|]. cbn [foldr]. apply elem_of_cons in Ho as [<-|Ho]; [lia|].
      specialize (IH Ho). lia. }
    apply Hle in Hin. rewrite Hd in Hin. cbn [snd] in Hin. lia.
  - rewrite E. by apply (cl_idem _ _ Hcl).
  - intros Hr. by apply B, Hr, (cl_ext _ _ Hcl).
Qed.
Definition tri_x := xrun [XCreate] (new_xpl tri).
Definition tri_xend := x_explore 32 0 (person (cl_of tri_E)) (λ o, (decoded o).1) (λ _ _, elts) 0 tri_x.
Example C85_case : good (xcxt tri_x) ∧ xcur tri_x = Some 0 ∧ xbases tri_x !! 0 = Some [] ∧ closure_op (fM (abs (xcxt tri_x))) (cl_of tri_E) ∧
  (∀ g, g ∈ objs (xcxt tri_x) → cl_of tri_E (up (abs (xcxt tri_x)) {[g]}) = up (abs (xcxt tri_x)) {[g]}) ∧
  tri_xend.2 = Ok tt ∧ length (objs (xcxt tri_xend.1)) = 6 ∧ map length (xbases tri_xend.1) = [2].
Proof.
  destruct C84_case as (H1 & _ & _ & H2 & _). split; [exact H1|]. split; [reflexivity|]. split; [reflexivity|]. split.
  { apply cl_of_op; [exact H2|]. assert (Forall (λ i : fimp, hashable i = true) tri_E) as H by dec. by rewrite Forall_forall in H. }
  split.
  { assert (Forall (λ g, cl_of tri_E (up (abs (xcxt tri_x)) {[g]}) = up (abs (xcxt tri_x)) {[g]}) (objs (xcxt tri_x))) as H by dec.
    by rewrite Forall_forall in H. }
  split; [dec|]. split; dec.
Qed.

(** ** C86 *)
(** [is_prime] is right from 2 on and true of everything below. *)
Theorem C86_is_prime n : is_prime n = true ↔ (n ≤ 1)%Z ∨ prime n.
Proof. exact (is_prime_spec n). Qed.
Print Assumptions C86_is_prime.
Theorem C86_is_prime_refuted : is_prime 1 = true ∧ ¬ prime 1 ∧ is_prime (-4) = true ∧ ¬ prime (-4).
Proof. split; [done|]. split; [exact not_prime_1|]. split; [done|]. intros [H _]. lia. Qed.
Print Assumptions C86_is_prime_refuted.
(** [is_factorial] is right for positive numbers and returns [None] for the others. *)
Theorem C86_is_factorial n : ((n ≤ 0)%Z → is_factorial n = None) ∧
  ((0 < n)%Z → ∃ b, is_factorial n = Some b ∧ (b = true ↔ ∃ j, 1 ≤ j ∧ factorial_of j = n)).
Proof. exact (is_factorial_spec n). Qed.
Print Assumptions C86_is_factorial.
Example C86_case : is_prime 13 = true ∧ is_prime 15 = false ∧ is_factorial 24 = Some true ∧ is_factorial 25 = Some false ∧ factorial_of 4 = 24%Z.
Proof. done. Qed.

(** ** C87 *)
(** Confirming the same implication twice (as CommandLineExpert does with an implication
    that is its own mirror image) can end the exploration too early: a question that was
    open disappears unanswered although the answer does not follow from what was
    confirmed. *)
Definition tw := get_ok empty_cxt (mk_context
  [[false; true; true; true; false]; [false; true; false; true; true]; [false; false; true; true; true]; [true; true; true; true; true]; [true; true; true; true; false]]
  None [o1; o2; o3; o4; NStr "5"] [sa; sb; sc; sd; se]).
Definition tw_d := get_ok (EDB empty_cxt [] always [] true) (new_db elts tw [] always).
Definition tw_i : fimp := ({[sa; sd]}, {[sa; sb; sc; sd]}).
Definition tw_j : fimp := (∅, {[sd]}).
Definition tw_lost : fimp := ({[sb; sc; sd; se]}, {[sa; sb; sc; sd; se]}).
Definition tw_d1 := (ae_confirm (λ _, elts) [tw_i; tw_i] tw_d).1.
Definition tw_d2 := (ae_confirm (λ _, elts) [tw_j] tw_d1).1.
Theorem C87_twice_refuted : ∃ c d i j k d1 d2, good c ∧ new_db elts c [] always = Ok d ∧ dopen d = [j; k; i] ∧
  dopen (ae_confirm (λ _, elts) [i] d).1 = [j; k] ∧ ae_confirm (λ _, elts) [i; i] d = (d1, Ok tt) ∧ dopen d1 = [j] ∧
  ae_confirm (λ _, elts) [j] d1 = (d2, Ok tt) ∧ dopen d2 = [] ∧
  holds (abs c) k ∧ ¬ entails (dimps d2) k.
Proof.
  exists tw, tw_d, tw_i, tw_j, tw_lost, tw_d1, tw_d2. split; [|split; [|split; [|split; [|split; [|split; [|split; [|split; [|split]]]]]]]].
  - eapply mk_context_good; [apply get_ok_eq; vm_compute; reflexivity|by apply (bool_decide_unpack _)..].
  - apply get_ok_eq. vm_compute. reflexivity.
  - dec.
  - dec.
  - unfold tw_d1. assert ((ae_confirm (λ _, elts) [tw_i; tw_i] tw_d).2 = Ok tt) as <- by dec. by destruct (ae_confirm _ _ _).
  - dec.
  - unfold tw_d2. assert ((ae_confirm (λ _, elts) [tw_j] tw_d1).2 = Ok tt) as <- by dec. by destruct (ae_confirm _ _ _).
  - dec.
  - dec.
  - intros H. assert (dimps tw_d2 = [tw_i; tw_i; tw_j]) as E by dec. rewrite E in H.
    assert (bool_decide (respects {[sb; sc; sd; se]} tw_lost) = false) as Hn by (vm_compute; reflexivity). apply bool_decide_eq_false in Hn. apply Hn, H.
    apply Forall_forall. dec.
Qed.
Print Assumptions C87_twice_refuted.
