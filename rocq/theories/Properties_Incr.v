(** * Object-incremental algorithms: the final statements (C136) *)
From stdpp Require Import pretty.
From Verif Require Import Py Spec PyFacts SpecFacts ContextModel ContextSpec ContextFacts ContextEffects ClosureModel ClosureFacts
  LatticeModel NorrisFacts CoverModel CoverFacts IncrModel IncrSpec IncrFacts Properties_Context Properties_Closure Properties_Dg Properties_Cover.

(** ** C136 *)
(** After adding an object the cover is the old cover, updated with the row of the new object. *)
Theorem C136_cover c I o c' ord : good c → o ∉ objs c → add_object_with_intent c I o = (c', Ok tt) →
  compute_implication_cover c' ord =
    (R ← compute_implication_cover c ord;
     updated_basis (ord (length (objs c))) (list_to_set (atts c) ∩ I) R (list_to_set (atts c))).
Proof. apply cover_added. Qed.
Print Assumptions C136_cover.
(** After adding an object [norris] returns the old concepts, in their order, with the object added
    to those whose intent it has, followed by concepts with new intents, each cut out of an old
    concept by the new row. *)
Theorem C136_norris c I o c' cs : good c → o ∉ objs c → add_object_with_intent c I o = (c', Ok tt) → norris c = Ok cs →
  ∃ new, norris c' = Ok (map (λ x : fconcept, if bool_decide (x.2 ⊆ list_to_set (atts c) ∩ I) then (x.1 ∪ {[o]}, x.2) else x) cs ++ new) ∧
    (∀ y, y ∈ new → y.2 ∉ map snd cs ∧ ∃ x, x ∈ cs ∧ y = ({[o]} ∪ x.1, x.2 ∩ (list_to_set (atts c) ∩ I))) ∧
    length new ≤ length cs.
Proof.
  intros Hg Ho E Hcs. destruct (norris_added c I o c' cs Hg Ho E Hcs) as (new & H1 & H2 & H3). exists new.
  split; [exact H1|]. split; [|exact H3]. intros y Hy. destruct (H2 y Hy) as (_ & H4 & H5). done.
Qed.
Print Assumptions C136_norris.
(** Printing changes no result. *)
Theorem C136_printed_result c ord : (compute_implication_cover_printed c ord).1 = compute_implication_cover c ord.
Proof.
  unfold compute_implication_cover_printed, compute_implication_cover. destruct (examples c) as [exs|e]; [|done]. apply printed_result.
Qed.
Print Assumptions C136_printed_result.
(** Two lines for each object: its number, and the size of the cover of the context that has only
    the objects up to it. *)
Theorem C136_printed c ord R : good c → compute_implication_cover c ord = Ok R →
  length (compute_implication_cover_printed c ord).2 = 2 * length (objs c) ∧
  ∀ j cj, j < length (objs c) → good cj → objs cj = take (S j) (objs c) → atts cj = atts c →
    (∀ g m, g ∈ objs cj → incident cj g m ↔ incident c g m) →
    ∀ Rj, compute_implication_cover cj ord = Ok Rj →
      (compute_implication_cover_printed c ord).2 !! (2 * j) = Some ("object  " ++ pretty (S j))%string ∧
      (compute_implication_cover_printed c ord).2 !! (S (2 * j)) = Some (pretty (length Rj) ++ " implications")%string.
Proof.
  intros Hg HR.
  assert (∃ exs, examples c = Ok exs ∧ length exs = length (objs c)) as (exs & E & Hl).
  { eexists. split; [by apply examples_eq|]. by rewrite map_length. }
  unfold compute_implication_cover in HR. unfold compute_implication_cover_printed. rewrite E in *. cbn [mbind res_bind] in HR.
  destruct (printed_lines ord 0 _ exs _ 0 R HR) as [H1 H2]. rewrite Hl in *. split; [exact H1|].
  intros j cj Hj Hgj Hoj Haj Hinc Rj HRj. destruct (examples_initial c cj (S j) Hg Hgj Hoj Haj Hinc) as (exs' & E1 & E2 & _).
  assert (exs' = exs) as -> by congruence.
  unfold compute_implication_cover in HRj. rewrite E2, Haj in HRj. cbn [mbind res_bind] in HRj. by apply H2.
Qed.
Print Assumptions C136_printed.
(** [minimize] prints two lines for each implication: its number, and the size of the list after
    its turn, which stays or goes down by one, down to the size of the result. *)
Theorem C136_minimize cover h :
  (minimize_printed cover h).1 = minimize cover h ∧
  ∀ cover' h', minimize cover h = Ok (cover', h') →
    ∃ ns, (minimize_printed cover h).2 = minimize_lines 0 ns ∧ length ns = length cover ∧
      going_down (length cover) ns ∧ last (length cover :: ns) = Some (length cover').
Proof. split; [apply minimize_printed_result|]. intros cover' h'. apply minimize_printed_lines. Qed.
Print Assumptions C136_minimize.
(** [print_basis] prints the implications between two lines; if one cannot be printed, those before
    it and not the last line. *)
Theorem C136_print_basis l1 ss : mapM imp_repr l1 = Ok ss →
  print_basis l1 = (Ok tt, "***" :: ss ++ ["+++"])%string ∧
  ∀ i l2 e, imp_repr i = Err e → print_basis (l1 ++ i :: l2) = (Err e, "***" :: ss)%string.
Proof.
  intros E. unfold print_basis. split; [by rewrite (print_imps_ok _ _ E)|]. intros i l2 e Hi. by rewrite (print_imps_err _ _ _ _ _ E Hi).
Qed.
Print Assumptions C136_print_basis.

(** The table with rows 110, 101, 100, 000, then a fifth object with row 010; two implications, the
    second of which cannot be printed. *)
Example C136_case :
  let c' := (add_object_with_intent ex {[sb]} sd).1 in
  compute_implication_cover_printed ex (λ _ _, elements) =
    (Ok [({[sb]}, {[sa; sb]}); ({[sc]}, {[sa; sc]})],
     ["object  1"; "1 implications"; "object  2"; "1 implications"; "object  3"; "1 implications"; "object  4"; "2 implications"]%string) ∧
  (add_object_with_intent ex {[sb]} sd).2 = Ok tt ∧ compute_implication_cover c' (λ _ _, elements) = Ok [({[sc]}, {[sa; sc]})] ∧
  norris ex = Ok [(∅, {[sa; sb; sc]}); ({[o1]}, {[sa; sb]}); ({[o2]}, {[sa; sc]}); ({[o1; o2; o3]}, {[sa]}); ({[o1; o2; o3; o4]}, ∅)] ∧
  norris c' = Ok [(∅, {[sa; sb; sc]}); ({[o1]}, {[sa; sb]}); ({[o2]}, {[sa; sc]}); ({[o1; o2; o3]}, {[sa]}); ({[o1; o2; o3; o4; sd]}, ∅);
                  ({[o1; sd]}, {[sb]})] ∧
  print_basis [({[sa]}, {[sa; sb]}); ({[o1; sa]}, ∅)] = (Err TypeError, ["***"; "a => b"]%string) ∧
  (minimize_printed [0; 1; 2] (heap [({[sa; sb]}, {[sc]}); ({[sb]}, {[sc]}); ({[sa]}, {[sc]})])).2 =
    ["maximizing premise  1"; "(2, 'implications')"; "maximizing premise  2"; "(2, 'implications')";
     "maximizing premise  3"; "(2, 'implications')"]%string.
Proof. cbv zeta. split; [dec|]. split; [dec|]. split; [dec|]. split; [dec|]. split; [dec|]. split; dec. Qed.
