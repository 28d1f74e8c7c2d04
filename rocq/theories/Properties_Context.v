(** * Contexts: the final statements (C01-C19) *)
From Coq Require Import Ascii.
From Verif Require Import Py Spec ContextModel ContextSpec ContextOps PyFacts SpecFacts ContextFacts ContextInit
  ContextMut ContextEffects ContextMisc ContextReduce ContextEq ContextFinal.

(** A concrete context used to show that hypotheses are satisfiable:
<<
        a  b  c
    1   X  X  .
    2   X  .  X
    3   X  .  .
    4   .  .  .
>> *)
Definition sa := NStr "a". Definition sb := NStr "b". Definition sc := NStr "c".
Definition o1 := NInt 1. Definition o2 := NInt 2. Definition o3 := NInt 3. Definition o4 := NInt 4.
Definition ex_table := [[true; true; false]; [true; false; true]; [true; false; false]; [false; false; false]].
Definition get_ok {A} (d : A) (r : res A) : A := match r with Ok a => a | Err _ => d end.
Lemma get_ok_eq {A} (d : A) r : is_ok r = true → r = Ok (get_ok d r).
Proof. by destruct r. Qed.
Definition empty_cxt : context := Cxt [] [] [] None [] ∅ ∅.
Definition ex := get_ok empty_cxt (mk_context ex_table None [o1; o2; o3; o4] [sa; sb; sc]).
Example ex_built : mk_context ex_table None [o1; o2; o3; o4] [sa; sb; sc] = Ok ex.
Proof. reflexivity. Qed.
Example ex_good : good ex.
Proof.
  eapply (mk_context_good ex_table None); [apply ex_built| | |done].
  - by apply (bool_decide_unpack _).
  - by apply (bool_decide_unpack _).
Qed.

Ltac dec := apply (bool_decide_unpack _); vm_compute; exact I.
Ltac dec_inc := rewrite <-elem_of_fI; dec.

(** ** C01: constructor *)
Theorem C01_constructor t os ats :
  (NoDup os → NoDup ats → length t = length os → (∀ r, r ∈ t → length r = length ats) →
     ∃ c, mk_context t None os ats = Ok c ∧ objs c = os ∧ atts c = ats ∧
       ∀ i j g m, os !! i = Some g → ats !! j = Some m →
         (incident c g m ↔ ∃ r, t !! i = Some r ∧ r !! j = Some true)) ∧
  (is_ok (mk_context t None os ats) = true ↔ length t = length os ∧ ∀ r, r ∈ t → length r = length ats) ∧
  (¬ (length t = length os ∧ ∀ r, r ∈ t → length r = length ats) → mk_context t None os ats = Err ValueError).
Proof. exact (mk_context_final t os ats). Qed.
Print Assumptions C01_constructor.
Example C01_case : ∃ c, mk_context ex_table None [o1; o2; o3; o4] [sa; sb; sc] = Ok c ∧ incident c o1 sb ∧ ¬ incident c o3 sb.
Proof. exists ex. split; [reflexivity|]. split; dec_inc. Qed.
Example C01_case_err : mk_context [[true]; [true; false]] None [o1; o2] [sa] = Err ValueError.
Proof. reflexivity. Qed.

(** ** C02: repeated names *)
Theorem C02_unique_names t os ats c :
  mk_context t None os ats = Ok c → no_clash os → no_clash ats →
  distinct c ∧ length (objs c) = length os ∧ length (atts c) = length ats ∧
  (∀ i x, os !! i = Some x → objs c !! i = Some (if (1 <? py_count x os)%nat then NStr (pystr x ++ "_" ++ pretty i) else x)) ∧
  (∀ i x, ats !! i = Some x → atts c !! i = Some (if (1 <? py_count x ats)%nat then NStr (pystr x ++ "_" ++ pretty i) else x)).
Proof. exact (mk_context_names t os ats c). Qed.
Print Assumptions C02_unique_names.
Example C02_case : ∃ c, mk_context [[]; []; []] None [o1; sa; o1] [] = Ok c ∧ objs c = [NStr "1_0"; sa; NStr "1_2"].
Proof. eexists. split; reflexivity. Qed.

(** Without [no_clash]: the generated name 'a_2' is already taken, and is not renamed again. *)
Theorem C02_unique_names_refuted :
  ∃ os c, mk_context [[]; []; []; []] None os [] = Ok c ∧ ¬ NoDup (objs c).
Proof.
  exists [NStr "a_2"; NStr "x"; NStr "a"; NStr "a"]. eexists. split; [reflexivity|].
  intros H. apply (bool_decide_pack _) in H. vm_compute in H. exact H.
Qed.
Print Assumptions C02_unique_names_refuted.

(** ** C03: every history keeps the context consistent *)
Theorem C03_history t z os ats c l :
  mk_context t z os ats = Ok c → Forall op_ok l → wf (run c l).
Proof. exact (λ H, run_wf c l (mk_context_wf t z os ats c H)). Qed.
Print Assumptions C03_history.
Example C03_case :
  let c := run ex [OpAddAttribute [true; true; true; true] (NStr "d"); OpDeleteAttributes [sa; sb]; OpAddObject [true] (NInt 9);
                   OpDeleteObject o1; OpRenameObject o2 (NStr "two"); OpSetObjectIntent [sc] o3] in
  objs c = [NStr "two"; o3; o4] ∧ atts c = [sc; NStr "d"] ∧ np c = [[true; true]; [true; false]; [false; true]].
Proof. done. Qed.

(** The excluded call: a repeated name makes the attribute list and the table disagree. *)
Theorem C03_delete_attributes_repeated_refuted :
  ∃ c ns, good c ∧ ¬ wf (delete_attributes c ns).1 ∧ (delete_attributes c ns).2 = Err ValueError.
Proof.
  exists ex, [sa; sa]. split; [apply ex_good|]. split; [|reflexivity].
  intros H. pose proof (wf_cols _ H 0 [true; false] eq_refl) as Hl. vm_compute in Hl. discriminate Hl.
Qed.
Print Assumptions C03_delete_attributes_repeated_refuted.

(** ** C04: effects of the mutators *)
Theorem C04_add_object c row o :
  wf c → distinct c → length row = length (atts c) → o ∉ objs c →
  ∃ c', add_object c row o = (c', Ok tt) ∧ good c' ∧
    objs c' = objs c ++ [o] ∧ atts c' = atts c ∧
    ∀ g m, incident c' g m ↔ incident c g m ∨ (g = o ∧ (m, true) ∈ zip (atts c) row).
Proof. exact (add_object_effect c row o). Qed.
Print Assumptions C04_add_object.
Example C04_add_object_case : ∃ c, add_object ex [true; false; true] (NInt 5) = (c, Ok tt) ∧ incident c (NInt 5) sc ∧ ¬ incident c (NInt 5) sb.
Proof. eexists. split; [reflexivity|]. split; dec_inc. Qed.

Theorem C04_add_object_with_intent c intent o :
  wf c → distinct c → o ∉ objs c →
  ∃ c', add_object_with_intent c intent o = (c', Ok tt) ∧ good c' ∧
    objs c' = objs c ++ [o] ∧ atts c' = atts c ∧
    ∀ g m, incident c' g m ↔ incident c g m ∨ (g = o ∧ m ∈ atts c ∧ m ∈ intent).
Proof. exact (add_object_with_intent_effect c intent o). Qed.
Print Assumptions C04_add_object_with_intent.
Example C04_add_object_with_intent_case : (add_object_with_intent ex {[sa; NStr "unknown"]} (NInt 5)).2 = Ok tt.
Proof. reflexivity. Qed.

Theorem C04_add_attribute c col a :
  wf c → distinct c → length col = length (objs c) → a ∉ atts c →
  ∃ c', add_attribute c col a = (c', Ok tt) ∧ wf c' ∧ distinct c' ∧ (objs c ≠ [] → good c') ∧
    objs c' = objs c ∧ atts c' = atts c ++ [a] ∧
    ∀ g m, incident c' g m ↔ incident c g m ∨ (m = a ∧ (g, true) ∈ zip (objs c) col).
Proof. exact (add_attribute_effect c col a). Qed.
Print Assumptions C04_add_attribute.
Example C04_add_attribute_case : np (add_attribute ex [true; true; false; true] (NStr "d")).1 = [[true; true; false; true]; [true; false; true; true]; [true; false; false; false]; [false; false; false; true]].
Proof. reflexivity. Qed.

Theorem C04_add_attribute_with_extent c extent a :
  wf c → distinct c → a ∉ atts c →
  ∃ c', add_attribute_with_extent c extent a = (c', Ok tt) ∧ wf c' ∧ distinct c' ∧ (objs c ≠ [] → good c') ∧
    objs c' = objs c ∧ atts c' = atts c ++ [a] ∧
    ∀ g m, incident c' g m ↔ incident c g m ∨ (m = a ∧ g ∈ objs c ∧ g ∈ extent).
Proof. exact (add_attribute_with_extent_effect c extent a). Qed.
Print Assumptions C04_add_attribute_with_extent.
Example C04_add_attribute_with_extent_case : (add_attribute_with_extent ex {[o1]} (NStr "d")).2 = Ok tt.
Proof. reflexivity. Qed.

Theorem C04_set_object_intent c intent o :
  wf c → distinct c → o ∈ objs c → (∀ a, a ∈ intent → a ∈ atts c) →
  ∃ c', set_object_intent c intent o = (c', Ok tt) ∧ good c' ∧
    objs c' = objs c ∧ atts c' = atts c ∧
    ∀ g m, incident c' g m ↔ (g ≠ o ∧ incident c g m) ∨ (g = o ∧ m ∈ intent).
Proof. exact (set_object_intent_effect c intent o). Qed.
Print Assumptions C04_set_object_intent.
Example C04_set_object_intent_case : np (set_object_intent ex [sc; sc] o1).1 = [[false; false; true]; [true; false; true]; [true; false; false]; [false; false; false]].
Proof. reflexivity. Qed.

Theorem C04_set_attribute_extent c extent a :
  wf c → distinct c → objs c ≠ [] → a ∈ atts c → (∀ g, g ∈ extent → g ∈ objs c) →
  ∃ c', set_attribute_extent c extent a = (c', Ok tt) ∧ good c' ∧
    objs c' = objs c ∧ atts c' = atts c ∧
    ∀ g m, incident c' g m ↔ (m ≠ a ∧ incident c g m) ∨ (m = a ∧ g ∈ extent).
Proof. exact (set_attribute_extent_effect c extent a). Qed.
Print Assumptions C04_set_attribute_extent.
Example C04_set_attribute_extent_case : np (set_attribute_extent ex [o4] sa).1 = [[false; true; false]; [false; false; true]; [false; false; false]; [true; false; false]].
Proof. reflexivity. Qed.

Theorem C04_delete_object c o :
  wf c → distinct c → o ∈ objs c →
  ∃ c', delete_object c o = (c', Ok tt) ∧ good c' ∧
    objs c' = filter (λ x, x ≠ o) (objs c) ∧ atts c' = atts c ∧
    ∀ g m, incident c' g m ↔ g ≠ o ∧ incident c g m.
Proof. exact (delete_object_effect c o). Qed.
Print Assumptions C04_delete_object.
Example C04_delete_object_case : objs (delete_object ex o2).1 = [o1; o3; o4] ∧ np (delete_object ex o2).1 = [[true; true; false]; [true; false; false]; [false; false; false]].
Proof. done. Qed.

Theorem C04_delete_attribute c a :
  wf c → distinct c → objs c ≠ [] → a ∈ atts c →
  ∃ c', delete_attribute c a = (c', Ok tt) ∧ good c' ∧
    objs c' = objs c ∧ atts c' = filter (λ x, x ≠ a) (atts c) ∧
    ∀ g m, incident c' g m ↔ m ≠ a ∧ incident c g m.
Proof. exact (delete_attribute_effect c a). Qed.
Print Assumptions C04_delete_attribute.
Example C04_delete_attribute_case : np (delete_attribute ex sb).1 = [[true; false]; [true; true]; [true; false]; [false; false]].
Proof. reflexivity. Qed.

Theorem C04_delete_attributes c ns :
  wf c → distinct c → objs c ≠ [] → NoDup ns → (∀ a, a ∈ ns → a ∈ atts c) →
  ∃ c', delete_attributes c ns = (c', Ok tt) ∧ good c' ∧
    objs c' = objs c ∧ atts c' = filter (λ x, x ∉ ns) (atts c) ∧
    ∀ g m, incident c' g m ↔ m ∉ ns ∧ incident c g m.
Proof. exact (delete_attributes_effect c ns). Qed.
Print Assumptions C04_delete_attributes.
Example C04_delete_attributes_case : atts (delete_attributes ex [sc; sa]).1 = [sb].
Proof. reflexivity. Qed.

Theorem C04_rename_object c old new :
  wf c → distinct c → shape_ok c → old ∈ objs c → new ∉ objs c ∨ new = old →
  ∃ c', rename_object c old new = (c', Ok tt) ∧ good c' ∧
    objs c' = map (λ x, if decide (x = old) then new else x) (objs c) ∧ atts c' = atts c ∧
    ∀ g m, incident c' g m ↔ (g = new ∧ incident c old m) ∨ (g ≠ new ∧ g ≠ old ∧ incident c g m).
Proof. exact (rename_object_effect c old new). Qed.
Print Assumptions C04_rename_object.
Example C04_rename_object_case : objs (rename_object ex o2 (NStr "two")).1 = [o1; NStr "two"; o3; o4].
Proof. reflexivity. Qed.

Theorem C04_rename_attribute c old new :
  wf c → distinct c → shape_ok c → old ∈ atts c → new ∉ atts c ∨ new = old →
  ∃ c', rename_attribute c old new = (c', Ok tt) ∧ good c' ∧
    objs c' = objs c ∧ atts c' = map (λ x, if decide (x = old) then new else x) (atts c) ∧
    ∀ g m, incident c' g m ↔ (m = new ∧ incident c g old) ∨ (m ≠ new ∧ m ≠ old ∧ incident c g m).
Proof. exact (rename_attribute_effect c old new). Qed.
Print Assumptions C04_rename_attribute.
Example C04_rename_attribute_case : atts (rename_attribute ex sb (NStr "bb")).1 = [sa; NStr "bb"; sc].
Proof. reflexivity. Qed.

(** Renaming to a name that is in use renames both objects. *)
Theorem C04_rename_to_existing_refuted :
  ∃ c old new c', good c ∧ old ∈ objs c ∧ rename_object c old new = (c', Ok tt) ∧ new ∉ objs c'.
Proof.
  exists ex, o1, o2. eexists. split; [apply ex_good|]. split; [left|]. split; [reflexivity|].
  dec.
Qed.
Print Assumptions C04_rename_to_existing_refuted.

(** ** C05: failing mutators leave the context unchanged *)
Theorem C05_atomic c o c' e : wf c → op_ok o → o ≠ OpRemoveEmptyObjects →
  step c o = (c', Err e) → c' = c.
Proof. exact (step_atomic c o c' e). Qed.
Print Assumptions C05_atomic.
Example C05_case : step ex (OpAddObject [true] o1) = (ex, Err ValueError) ∧ step ex (OpDeleteAttribute (NStr "zz")) = (ex, Err KeyError).
Proof. split; reflexivity. Qed.

Theorem C05_delete_attributes_repeated_refuted :
  ∃ c ns e, good c ∧ (delete_attributes c ns).2 = Err e ∧ atts (delete_attributes c ns).1 ≠ atts c
    ∧ np (delete_attributes c ns).1 ≠ np c.
Proof. exists ex, [sa; sa], ValueError. split; [apply ex_good|]. by vm_compute. Qed.
Print Assumptions C05_delete_attributes_repeated_refuted.

(** ** C06: derivation operators (methods) *)
Theorem C06_oprime c A : good c →
  ((∀ g, g ∈ A → g ∈ objs c) → ∃ X, oprime c A = Ok X ∧
     ∀ m, m ∈ X ↔ m ∈ atts c ∧ ∀ g, g ∈ A → incident c g m) ∧
  ((∃ g, g ∈ A ∧ g ∉ objs c) → oprime c A = Err KeyError).
Proof. exact (oprime_exact c A). Qed.
Print Assumptions C06_oprime.
Example C06_oprime_case : oprime ex [o2; o1; o2] = Ok {[sa]} ∧ oprime ex [] = Ok {[sa; sb; sc]}.
Proof. split; dec. Qed.

Theorem C06_aprime c B : good c →
  ((∀ m, m ∈ B → m ∈ atts c) → ∃ X, aprime c B = Ok X ∧
     ∀ g, g ∈ X ↔ g ∈ objs c ∧ ∀ m, m ∈ B → incident c g m) ∧
  ((∃ m, m ∈ B ∧ m ∉ atts c) → aprime c B = Err KeyError).
Proof. exact (aprime_exact c B). Qed.
Print Assumptions C06_aprime.
Example C06_aprime_case : aprime ex [sa] = Ok {[o1; o2; o3]} ∧ aprime ex [sa; NStr "zz"] = Err KeyError.
Proof. split; dec. Qed.

(** ** C07: Galois connection and closure operators (methods) *)
Theorem C07_galois c A B : good c → (∀ g, g ∈ A → g ∈ objs c) → (∀ m, m ∈ B → m ∈ atts c) →
  ∃ XA XB, oprime c A = Ok XA ∧ aprime c B = Ok XB ∧
    ((∀ g, g ∈ A → g ∈ XB) ↔ (∀ m, m ∈ B → m ∈ XA)).
Proof. exact (derivation_galois c A B). Qed.
Print Assumptions C07_galois.

Theorem C07_aclosure c B : good c → (∀ m, m ∈ B → m ∈ atts c) →
  ∃ X Y, aclosure c B = Ok X ∧ aprime c B = Ok Y ∧ oprime c (elements Y) = Ok X ∧
    (∀ m, m ∈ B → m ∈ X) ∧ (∀ m, m ∈ X → m ∈ atts c) ∧ aclosure c (elements X) = Ok X ∧
    ∀ B' X', (∀ m, m ∈ B → m ∈ B') → aclosure c B' = Ok X' → X ⊆ X'.
Proof. exact (aclosure_laws c B). Qed.
Print Assumptions C07_aclosure.
Example C07_aclosure_case : aclosure ex [sb] = Ok {[sa; sb]} ∧ aclosure ex [sb; sc] = Ok {[sa; sb; sc]}.
Proof. split; dec. Qed.

Theorem C07_oclosure c A : good c → (∀ g, g ∈ A → g ∈ objs c) →
  ∃ X Y, oclosure c A = Ok X ∧ oprime c A = Ok Y ∧ aprime c (elements Y) = Ok X ∧
    (∀ g, g ∈ A → g ∈ X) ∧ (∀ g, g ∈ X → g ∈ objs c) ∧ oclosure c (elements X) = Ok X ∧
    ∀ A' X', (∀ g, g ∈ A → g ∈ A') → oclosure c A' = Ok X' → X ⊆ X'.
Proof. exact (oclosure_laws c A). Qed.
Print Assumptions C07_oclosure.
Example C07_oclosure_case : oclosure ex [o3] = Ok {[o1; o2; o3]}.
Proof. dec. Qed.

(** ** C08: supports *)
Theorem C08_associative_aclosure c B : good c → (∀ m, m ∈ B → m ∈ atts c) →
  ∃ d n X, associative_aclosure c B = Ok (d, n) ∧ aprime c B = Ok X ∧ n = size X ∧
    (∀ m k, d !! m = Some k → m ∈ atts c ∧ k = size (filter (λ g, incident c g m) X)) ∧
    (∀ m, is_Some (d !! m) ↔ m ∈ atts c ∧ (X = ∅ ∨ ∃ g, g ∈ X ∧ incident c g m)) ∧
    ∃ Y, aclosure c B = Ok Y ∧ ∀ m, m ∈ Y ↔ d !! m = Some n.
Proof. exact (associative_final c B). Qed.
Print Assumptions C08_associative_aclosure.
Example C08_case : associative_aclosure ex [sa] = Ok (list_to_map [(sa, 3); (sb, 1); (sc, 1)], 3).
Proof. dec. Qed.

(** ** C09: transposition *)
Theorem C09_transpose c : wf c → distinct c →
  ∃ c', transpose c = Ok c' ∧ good c' ∧ objs c' = atts c ∧ atts c' = objs c ∧
    (∀ i j, cellb c' j i = cellb c i j) ∧
    ∀ g m, incident c' m g ↔ incident c g m.
Proof. exact (transpose_spec c). Qed.
Print Assumptions C09_transpose.

Theorem C09_transpose_twice c : wf c → distinct c →
  ∃ c' c'', transpose c = Ok c' ∧ transpose c' = Ok c'' ∧
    objs c'' = objs c ∧ atts c'' = atts c ∧ np c'' = np c.
Proof. exact (transpose_twice c). Qed.
Print Assumptions C09_transpose_twice.
Example C09_case : ∃ c, transpose ex = Ok c ∧ np c = [[true; true; true; false]; [true; false; false; false]; [false; true; false; false]].
Proof. eexists. split; reflexivity. Qed.

(** ** C10: subcontexts *)
Theorem C10_extract_subcontext c ns :
  wf c → distinct c → NoDup ns → (∀ a, a ∈ ns → a ∈ atts c) →
  ∃ c', extract_subcontext c ns = Ok c' ∧ good c' ∧ objs c' = objs c ∧ atts c' = ns ∧
    ∀ g m, incident c' g m ↔ m ∈ ns ∧ incident c g m.
Proof. exact (extract_subcontext_spec c ns). Qed.
Print Assumptions C10_extract_subcontext.
Example C10_case : ∃ c, extract_subcontext ex [sc; sa] = Ok c ∧ np c = [[false; true]; [true; true]; [false; true]; [false; false]].
Proof. eexists. split; reflexivity. Qed.

Theorem C10_extract_subcontext_err c ns a :
  a ∈ ns → a ∉ atts c → extract_subcontext c ns = Err ValueError.
Proof. exact (extract_subcontext_err c ns a). Qed.
Print Assumptions C10_extract_subcontext_err.

Theorem C10_extract_filtered c ns (conj : bool) :
  wf c → distinct c → (∀ a, a ∈ ns → a ∈ atts c) →
  ∃ c', extract_subcontext_filtered_by_attributes c ns (if conj then "and" else "or") = Ok c' ∧
    good c' ∧ atts c' = atts c ∧ objs c' `sublist_of` objs c ∧
    (∀ g, g ∈ objs c' ↔ g ∈ objs c ∧
       if conj then ∀ a, a ∈ ns → incident c g a else ∃ a, a ∈ ns ∧ incident c g a) ∧
    ∀ g m, incident c' g m ↔ g ∈ objs c' ∧ incident c g m.
Proof. exact (extract_filtered_spec c ns conj). Qed.
Print Assumptions C10_extract_filtered.
Example C10_filtered_case : ∃ c d, extract_subcontext_filtered_by_attributes ex [sb; sc] "or" = Ok c ∧ objs c = [o1; o2]
  ∧ extract_subcontext_filtered_by_attributes ex [sa; sc] "and" = Ok d ∧ objs d = [o2].
Proof. eexists _, _. repeat split; reflexivity. Qed.

Theorem C10_extract_filtered_err c ns mode a :
  a ∈ ns → a ∉ atts c →
  extract_subcontext_filtered_by_attributes c ns mode = Err ValueError.
Proof. exact (extract_filtered_err c ns mode a). Qed.
Print Assumptions C10_extract_filtered_err.

Theorem C10_extract_filtered_mode c ns mode :
  (∀ a, a ∈ ns → a ∈ atts c) → mode ≠ "and"%string → mode ≠ "or"%string →
  extract_subcontext_filtered_by_attributes c ns mode = Err UnboundLocalError.
Proof. exact (extract_filtered_mode c ns mode). Qed.
Print Assumptions C10_extract_filtered_mode.

(** ** C11: equality *)
Theorem C11_eq_complete c d : good c → good d → same_relation c d → context_eq c d = Ok true.
Proof. exact (context_eq_complete c d). Qed.
Print Assumptions C11_eq_complete.
Example C11_case : ∃ d, mk_context [[true; false; false]; [false; false; false]; [true; false; true]; [true; true; false]] None
    [o3; o4; o2; o1] [sa; sb; sc] = Ok d ∧ context_eq ex d = Ok true ∧ repr ex ≠ repr d.
Proof. eexists. split; [reflexivity|]. split; [reflexivity|]. dec. Qed.

Theorem C11_eq_sound c d : good c → good d → printable c d →
  context_eq c d = Ok true → same_relation c d.
Proof. exact (context_eq_sound c d). Qed.
Print Assumptions C11_eq_sound.
Example C11_sound_case : printable ex ex.
Proof.
  assert (∀ l : list name, Forall (λ a, Forall (λ b, pystr a = pystr b → a = b) l) l → ∀ a b, a ∈ l → b ∈ l → pystr a = pystr b → a = b) as H.
  { intros l Hl a b Ha Hb. rewrite Forall_forall in Hl. specialize (Hl a Ha). rewrite Forall_forall in Hl. by apply Hl. }
  split; [apply H; dec|]. split; [apply H; dec|]. split; apply Forall_forall; repeat constructor; intros E; discriminate E.
Qed.

Theorem C11_eq_total c d : good c → good d → ∃ b, context_eq c d = Ok b.
Proof. exact (context_eq_total c d). Qed.
Print Assumptions C11_eq_total.

(** Names that print alike: 1 and '1'; and the attribute lists ['a, b'] and ['a', 'b'] of contexts without objects. *)
Theorem C11_eq_sound_refuted :
  ∃ c d e f, good c ∧ good d ∧ good e ∧ good f ∧
    context_eq c d = Ok true ∧ objs c ≠ objs d ∧ context_eq e f = Ok true ∧ length (atts e) ≠ length (atts f).
Proof.
  destruct (mk_context_ok [[true]] None [NInt 1] [sa]) as [c Hc]; [done|by intros r ->%elem_of_list_singleton|].
  destruct (mk_context_ok [[true]] None [NStr "1"] [sa]) as [d Hd]; [done|by intros r ->%elem_of_list_singleton|].
  destruct (mk_context_ok [] None [] [NStr "a, b"]) as [e He]; [done|by intros r ?%elem_of_nil|].
  destruct (mk_context_ok [] None [] [sa; sb]) as [f Hf]; [done|by intros r ?%elem_of_nil|].
  exists c, d, e, f.
  split; [eapply mk_context_good in Hc as [? _]; [done|dec|dec|done]|].
  split; [eapply mk_context_good in Hd as [? _]; [done|dec|dec|done]|].
  split; [eapply mk_context_good in He as [? _]; [done|dec|dec|done]|].
  split; [eapply mk_context_good in Hf as [? _]; [done|dec|dec|done]|].
  injection Hc as <-. injection Hd as <-. injection He as <-. injection Hf as <-.
  split; [reflexivity|]. split; [done|]. split; [reflexivity|]. done.
Qed.
Print Assumptions C11_eq_sound_refuted.

(** ** C12: product *)
Theorem C12_product c d :
  wf c → distinct c → wf d → distinct d → objs c ≠ [] → objs d ≠ [] → atts c = objs d →
  ∃ e, context_mul c d = Ok e ∧ good e ∧ objs e = objs c ∧ atts e = atts d ∧
    ∀ g m, incident e g m ↔ ∃ f, incident c g f ∧ incident d f m.
Proof. exact (mul_spec c d). Qed.
Print Assumptions C12_product.
Example C12_case : ∃ d e, mk_context [[true]; [false]; [true]] None [sa; sb; sc] [NStr "z"] = Ok d ∧
  context_mul ex d = Ok e ∧ np e = [[true]; [true]; [true]; [false]].
Proof. eexists _, _. repeat split; reflexivity. Qed.

Theorem C12_product_mismatch c d : atts c ≠ objs d → context_mul c d = Err MultiplicationException.
Proof. exact (mul_mismatch c d). Qed.
Print Assumptions C12_product_mismatch.

(** ** C13: clarification *)
Theorem C13_clarify c : good c →
  ∃ c', clarify_objects c = Ok c' ∧ good c' ∧ atts c' = atts c ∧
    (∀ g, g ∈ objs c' → g ∈ objs c) ∧
    (∀ g m, incident c' g m ↔ g ∈ objs c' ∧ incident c g m) ∧
    (∀ g, g ∈ objs c → ∃ h, h ∈ objs c' ∧ ∀ m, incident c h m ↔ incident c g m) ∧
    (∀ g h, g ∈ objs c' → h ∈ objs c' → (∀ m, incident c' g m ↔ incident c' h m) → g = h) ∧
    (∀ B X, aclosure c B = Ok X → aclosure c' B = Ok X).
Proof. exact (clarify_final c). Qed.
Print Assumptions C13_clarify.
Example C13_case : ∃ c c', mk_context [[true; false]; [true; false]; [false; true]] None [o1; o2; o3] [sa; sb] = Ok c ∧
  clarify_objects c = Ok c' ∧ np c' = [[true; false]; [false; true]] ∧ objs c' = [o2; o3].
Proof. eexists _, _. repeat split; reflexivity. Qed.

(** ** C14: object reduction preserves closures *)
Theorem C14_reduce_objects c : good c → length (atts c) ≤ 63 →
  ∃ c', reduce_objects c = Ok c' ∧ good c' ∧ atts c' = atts c ∧ objs c' `sublist_of` objs c ∧
    (∀ g m, incident c' g m ↔ g ∈ objs c' ∧ incident c g m) ∧
    (∀ B X, aclosure c B = Ok X → aclosure c' B = Ok X) ∧
    ((∃ g, g ∈ objs c ∧ ∀ m, m ∈ atts c → incident c g m) →
     ∃ g, g ∈ objs c' ∧ ∀ m, m ∈ atts c → incident c g m).
Proof. exact (reduce_final c). Qed.
Print Assumptions C14_reduce_objects.
Example C14_case : ∃ c', reduce_objects ex = Ok c' ∧ objs c' = [o1; o2; o4].
Proof. eexists. split; [apply (get_ok_eq empty_cxt); vm_compute; reflexivity|]. vm_compute. reflexivity. Qed.

(** ** C15: what object reduction leaves *)
Theorem C15_reduce_complete c c' : wf c → distinct c → length (atts c) ≤ 63 → reduce_objects c = Ok c' →
  (∀ i g r, objs c !! i = Some g → np c !! i = Some r → reducible_object c g →
     (Z.of_nat (length (objs c)) <= bits_value r)%Z) →
  ∀ g, g ∈ objs c' → ¬ reducible_object c' g.
Proof. exact (λ Hw Hd Hl, reduce_complete c Hw Hd Hl c'). Qed.
Print Assumptions C15_reduce_complete.

(** The hypothesis holds for [ex15], where object 3 is reducible and removed. *)
Definition ex15 := get_ok empty_cxt (mk_context [[false; false; true; true]; [false; true; false; true]; [false; false; false; true]] None [o1; o2; o3] [sa; sb; sc; NStr "d"]).
Example C15_case : (∀ i g r, objs ex15 !! i = Some g → np ex15 !! i = Some r → (3 <= bits_value r)%Z) ∧
  reducible_object ex15 o3 ∧ ∃ c', reduce_objects ex15 = Ok c' ∧ objs c' = [o1; o2].
Proof.
  split; [|split].
  - intros [|[|[|i]]] g r; intros [= <-] [= <-]; by vm_compute.
  - apply (reducibleb_sound _ _ [o1; o2]). vm_compute. reflexivity.
  - eexists. split; [apply (get_ok_eq empty_cxt); vm_compute; reflexivity|]. vm_compute. reflexivity.
Qed.
(** Index/pattern collision: rows {a}, {b}, {a,b}, {a,c}, {b,c}.  After the pattern 1 = {a} is removed the
    key at index 1, {b} = {a,b} ∩ {b,c}, is skipped. *)
Theorem C15_irreducible_refuted :
  ∃ c c', good c ∧ length (atts c) = 3 ∧ reduce_objects c = Ok c' ∧ ∃ g, g ∈ objs c' ∧ reducible_object c' g.
Proof.
  destruct (mk_context_ok [[true; false; false]; [false; true; false]; [true; true; false]; [true; false; true]; [false; true; true]] None
     [o1; o2; o3; o4; NInt 5] [sa; sb; sc]) as [c Hc]; [done|by apply Forall_forall; repeat constructor|].
  eexists c, (get_ok empty_cxt (reduce_objects c)). split; [eapply mk_context_good in Hc as [? _]; [done|dec|dec|done]|].
  injection Hc as <-. split; [done|]. split; [apply get_ok_eq; vm_compute; reflexivity|]. exists o2. split; [dec|].
  apply (reducibleb_sound _ _ [o3; NInt 5]). vm_compute. reflexivity.
Qed.
Print Assumptions C15_irreducible_refuted.
(** 65 attributes: the row numbers wrap around at 64 bits; an object with no attribute and one with only the
    last attribute are merged and a closure changes. *)
Theorem C15_closures_beyond_64_refuted :
  ∃ c c' B X X', good c ∧ length (atts c) = 65 ∧ reduce_objects c = Ok c' ∧
    aclosure c B = Ok X ∧ aclosure c' B = Ok X' ∧ X ≠ X'.
Proof.
  set (names := map (λ i : nat, NInt (Z.of_nat i)) (seq 0 65)).
  destruct (mk_context_ok [repeat false 65; repeat false 64 ++ [true]] None [sa; sb] names) as [c Hc];
    [done|by apply Forall_forall; repeat constructor|].
  eexists c, (get_ok empty_cxt (reduce_objects c)), [], (get_ok ∅ (aclosure c [])), (get_ok ∅ (aclosure (get_ok empty_cxt (reduce_objects c)) [])).
  split; [eapply mk_context_good in Hc as [? _]; [done|dec|dec|done]|].
  injection Hc as <-. split; [reflexivity|]. split; [apply get_ok_eq; vm_compute; reflexivity|]. split; [apply get_ok_eq; vm_compute; reflexivity|]. split; [apply get_ok_eq; vm_compute; reflexivity|]. dec.
Qed.
Print Assumptions C15_closures_beyond_64_refuted.

(** ** C16: attribute reduction preserves object closures *)
Theorem C16_reduce_attributes c : good c → length (objs c) ≤ 63 →
  ∃ c', reduce_attributes c = Ok c' ∧ good c' ∧ objs c' = objs c ∧ atts c' `sublist_of` atts c ∧
    (∀ g m, incident c' g m ↔ m ∈ atts c' ∧ incident c g m) ∧
    (∀ A X, oclosure c A = Ok X → oclosure c' A = Ok X) ∧
    ((∃ m, m ∈ atts c ∧ ∀ g, g ∈ objs c → incident c g m) →
     ∃ m, m ∈ atts c' ∧ ∀ g, g ∈ objs c → incident c g m).
Proof. exact (reduce_attributes_final c). Qed.
Print Assumptions C16_reduce_attributes.
Definition ex16 := get_ok empty_cxt (mk_context [[true; true; true]; [true; false; true]; [false; true; false]] None [o1; o2; o3] [sa; sb; sc]).
Example C16_case : ∃ c', reduce_attributes ex16 = Ok c' ∧ atts c' = [sb; sc].
Proof. eexists. split; [apply (get_ok_eq empty_cxt); vm_compute; reflexivity|]. vm_compute. reflexivity. Qed.

(** ** C17: complement; compound *)
Theorem C17_complementary c :
  wf c → distinct c → (∀ a, a ∈ atts c → ∃ s, a = NStr s) →
  ∃ c', complementary c = Ok c' ∧ good c' ∧ objs c' = objs c ∧
    atts c' = map (λ a, NStr ("not " +:+ pystr a)) (atts c) ∧
    ∀ g m, g ∈ objs c → m ∈ atts c →
      incident c' g (NStr ("not " +:+ pystr m)) ↔ ¬ incident c g m.
Proof. exact (complementary_spec c). Qed.
Print Assumptions C17_complementary.
Example C17_case : ∃ c', complementary ex = Ok c' ∧ np c' = map (map negb) (np ex) ∧ atts c' = [NStr "not a"; NStr "not b"; NStr "not c"].
Proof. eexists. repeat split; reflexivity. Qed.

Theorem C17_compound_fails c :
  wf c → objs c ≠ [] → atts c ≠ [] → (∀ a, a ∈ atts c → ∃ s, a = NStr s) →
  compound c = Err ValueError.
Proof. exact (compound_fails c). Qed.
Print Assumptions C17_compound_fails.
Example C17_compound_case : compound ex = Err ValueError.
Proof. reflexivity. Qed.

(** ** C18: removing empty objects *)
Theorem C18_remove_empty_objects c :
  good c →
  ∃ c', remove_empty_objects c = (c', Ok tt) ∧ good c' ∧ atts c' = atts c ∧
    objs c' `sublist_of` objs c ∧
    (∀ g, g ∈ objs c' ↔ g ∈ objs c ∧ ∃ m, incident c g m) ∧
    ∀ g m, incident c' g m ↔ incident c g m.
Proof. exact (remove_empty_objects_effect c). Qed.
Print Assumptions C18_remove_empty_objects.
Example C18_case : objs (remove_empty_objects ex).1 = [o1; o2; o3].
Proof. reflexivity. Qed.

(** ** C19: incidence pairs and cell access *)
Theorem C19_pairs c :
  wf c → distinct c →
  ∃ l, get_object_attribute_pairs c = Ok l ∧ NoDup l ∧ ∀ g m, (g, m) ∈ l ↔ incident c g m.
Proof. exact (pairs_spec c). Qed.
Print Assumptions C19_pairs.
Example C19_case : get_object_attribute_pairs ex = Ok [(o1, sa); (o1, sb); (o2, sa); (o2, sc); (o3, sa)].
Proof. reflexivity. Qed.

Theorem C19_get_value c g m :
  wf c → distinct c → g ∈ objs c → m ∈ atts c →
  ∃ b, get_value c g m = Ok b ∧ (b = true ↔ incident c g m).
Proof. exact (get_value_spec c g m). Qed.
Print Assumptions C19_get_value.
Example C19_get_value_case : get_value ex o2 sc = Ok true ∧ get_value ex o3 sc = Ok false.
Proof. split; reflexivity. Qed.

Theorem C19_get_value_unknown c g m : g ∉ objs c ∨ m ∉ atts c → get_value c g m = Err ValueError.
Proof. exact (get_value_unknown c g m). Qed.
Print Assumptions C19_get_value_unknown.

