(** * Contexts as objects with state: the final statements (C97-C99) *)
From Verif Require Import Py Spec ContextModel ContextSpec ContextOps HeapModel HeapSpec HeapFacts Properties_Context.

(** ** C97: variables behave like values *)
(** Whatever a program does with lists, tables and contexts of its own, it sees what it
    would see if every variable held a value of its own: the same values in the end, and
    the same exceptions on the way. *)
Theorem C97_values p :
  v_run (Values [] [] []) p = (seen (w_run start p).1, (w_run start p).2).
Proof. exact (run_values p). Qed.
Print Assumptions C97_values.
(** A mutator changes the context it is called on and nothing else. *)
Theorem C97_mutation_is_local p x o :
  let w := (w_run start p).1 in
  let w' := (w_cmd w (CMut x o)).1 in
  v_lists (seen w') = v_lists (seen w) ∧ v_tables (seen w') = v_tables (seen w) ∧
  ∀ y, y ≠ x → v_cxts (seen w') !! y = v_cxts (seen w) !! y.
Proof. exact (mutation_local p x o). Qed.
Print Assumptions C97_mutation_is_local.
(** Changing a list or a table that was passed to a constructor or a method has no effect
    on any context. *)
Theorem C97_writes_are_local p v l t :
  let w := (w_run start p).1 in
  v_cxts (seen (w_cmd w (CPutList v l)).1) = v_cxts (seen w) ∧
  v_cxts (seen (w_cmd w (CPutTable v t)).1) = v_cxts (seen w).
Proof. exact (writes_local p v l t). Qed.
Print Assumptions C97_writes_are_local.
(** A method that returns a context leaves everything there is as it was. *)
Theorem C97_derivation_is_fresh p x d :
  let w := (w_run start p).1 in
  let w' := (w_cmd w (CDerive x d)).1 in
  v_lists (seen w') = v_lists (seen w) ∧ v_tables (seen w') = v_tables (seen w) ∧
  ∃ l, v_cxts (seen w') = (v_cxts (seen w) ++ l)%list.
Proof. exact (derivation_fresh p x d). Qed.
Print Assumptions C97_derivation_is_fresh.

(** [o = [1, 2]; a = ['a', 'b']; t = [[1, 0], [1, 1]]; c = Context(t, o, a);
    d = c.extract_subcontext(a); d.delete_attribute('b'); a[:] = []; o[:] = [];
    t[:] = []; c.rename_object(1, 3)]. *)
Definition heap_prog : list cmd :=
  [CList [o1; o2]; CList [sa; sb]; CTable [[true; false]; [true; true]]; CNew 0 0 1;
   CDerive 0 (DSub 1); CMut 1 (OpDeleteAttribute sb); CPutList 1 []; CPutList 0 []; CPutTable 0 [];
   CMut 0 (OpRenameObject o1 o3)].
Example C97_case :
  (w_run start heap_prog).2 = [Ok tt; Ok tt; Ok tt; Ok tt; Ok tt; Ok tt; Ok tt; Ok tt; Ok tt; Ok tt] ∧
  map (fun c => (objs c, atts c, np c)) (v_cxts (seen (w_run start heap_prog).1)) =
    [([o3; o2], [sa; sb], [[true; false]; [true; true]]); ([o1; o2], [sa], [[true]; [true]])] ∧
  v_lists (seen (w_run start heap_prog).1) = [[]; []].
Proof. split_and!; vm_compute; reflexivity. Qed.

(** ** C98: consistency in every program, and copies *)
Theorem C98_consistent p :
  Forall cmd_ok p → Forall wf (v_cxts (seen (w_run start p).1)).
Proof. exact (run_wf_all p). Qed.
Print Assumptions C98_consistent.
(** [copy.deepcopy(c)] has the same names, table and look-up tables; by C97 it shares
    nothing with [c]. *)
Theorem C98_deepcopy c :
  wf c → distinct c →
  ∃ d, v_derive c DDeepcopy = Ok d ∧ objs d = objs c ∧ atts d = atts c ∧ np d = np c ∧ cross d = cross c
    ∧ oidx d = oidx c ∧ aidx d = aidx c.
Proof. exact (deepcopy_same c). Qed.
Print Assumptions C98_deepcopy.
Example C98_case :
  Forall cmd_ok heap_prog ∧
  map (fun c => (objs c, np c)) (v_cxts (seen (w_run start (heap_prog ++ [CDerive 0 DDeepcopy; CMut 2 (OpDeleteObject o2)])%list).1)) =
    [([o3; o2], [[true; false]; [true; true]]); ([o1; o2], [[true]; [true]]); ([o3], [[true; false]])].
Proof. split; [repeat constructor|vm_compute; reflexivity]. Qed.

(** ** C99: what [objects], [attributes] and [table] hand out *)
(** They are the lists and the array of the context itself: neither a copy nor a view of
    it, and writing to one makes the context inconsistent. *)
Theorem C99_references_refuted :
  ∃ p, let w := (w_run start p).1 in let v := length (w_lists w) in let a := w_objects w 0 in
    (* the value when it was asked for *)
    v_lists (seen a) !! v = Some [o1; o2] ∧
    (* not a copy: a deletion is seen *)
    v_lists (seen (w_cmd a (CMut 0 (OpDeleteObject o1))).1) !! v = Some [o2] ∧
    (* not a view: an addition is not seen *)
    v_lists (seen (w_cmd a (CMut 0 (OpAddObject [true] o3))).1) !! v = Some [o1; o2] ∧
    objs <$> v_cxts (seen (w_cmd a (CMut 0 (OpAddObject [true] o3))).1) !! 0 = Some [o1; o2; o3] ∧
    (* a write reaches the context *)
    (∃ c, v_cxts (seen (w_cmd a (CPutList v [o3])).1) !! 0 = Some c ∧ ¬ wf c) ∧
    ∃ c, v_cxts (seen (w_cmd (w_table w 0) (CPutTable (length (w_tables w)) [[true]; [true]])).1) !! 0 = Some c ∧ ¬ wf c.
Proof.
  exists [CList [o1; o2]; CList [sa]; CTable [[true]; [false]]; CNew 0 0 1].
  split_and!; [vm_compute; reflexivity..| |]; (eexists; split; [vm_compute; reflexivity|]); intros H.
  - apply wf_rows in H. vm_compute in H. discriminate.
  - apply wf_cross in H. vm_compute in H. discriminate.
Qed.
Print Assumptions C99_references_refuted.
(** After the next successful change of the context by any mutator but
    [remove_empty_objects] the list has nothing to do with any context any more. *)
Theorem C99_detached_objects p x o s l :
  let w := (w_run start p).1 in
  w_cxts w !! x = Some s → o ≠ OpRemoveEmptyObjects →
  let w1 := (w_cmd (w_objects w x) (CMut x o)).1 in
  (w_cmd (w_objects w x) (CMut x o)).2 = Ok tt →
  v_cxts (seen (w_cmd w1 (CPutList (length (w_lists w)) l)).1) = v_cxts (seen w1).
Proof. exact (detached_objects p x o s l). Qed.
Print Assumptions C99_detached_objects.
Theorem C99_detached_attributes p x o s l :
  let w := (w_run start p).1 in
  w_cxts w !! x = Some s → o ≠ OpRemoveEmptyObjects →
  let w1 := (w_cmd (w_attributes w x) (CMut x o)).1 in
  (w_cmd (w_attributes w x) (CMut x o)).2 = Ok tt →
  v_cxts (seen (w_cmd w1 (CPutList (length (w_lists w)) l)).1) = v_cxts (seen w1).
Proof. exact (detached_attributes p x o s l). Qed.
Print Assumptions C99_detached_attributes.
Theorem C99_detached_table p x o s t :
  let w := (w_run start p).1 in
  w_cxts w !! x = Some s → o ≠ OpRemoveEmptyObjects →
  let w1 := (w_cmd (w_table w x) (CMut x o)).1 in
  (w_cmd (w_table w x) (CMut x o)).2 = Ok tt →
  v_cxts (seen (w_cmd w1 (CPutTable (length (w_tables w)) t)).1) = v_cxts (seen w1).
Proof. exact (detached_table p x o s t). Qed.
Print Assumptions C99_detached_table.
(** Until then only the context that was asked can be reached through it. *)
Theorem C99_reach p x s l y :
  let w := (w_run start p).1 in
  w_cxts w !! x = Some s → y ≠ x →
  v_cxts (seen (w_cmd (w_objects w x) (CPutList (length (w_lists w)) l)).1) !! y = v_cxts (seen w) !! y.
Proof. exact (reached_objects p x s l y). Qed.
Print Assumptions C99_reach.
Example C99_case :
  let w := (w_run start heap_prog).1 in
  is_Some (w_cxts w !! 0) ∧ is_Some (w_cxts w !! 1) ∧ (w_cmd (w_objects w 0) (CMut 0 (OpDeleteObject o2))).2 = Ok tt ∧
  objs <$> v_cxts (seen (w_cmd (w_objects w 0) (CPutList 2 [sa])).1) !! 0 = Some [sa] ∧
  objs <$> v_cxts (seen (w_cmd (w_cmd (w_objects w 0) (CMut 0 (OpDeleteObject o2))).1 (CPutList 2 [sa])).1) !! 0 = Some [o3].
Proof. split_and!; vm_compute; (reflexivity || (eexists; reflexivity)). Qed.
