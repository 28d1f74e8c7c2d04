(** * Contexts, lists and tables as values

    The machine a reader of the API has in mind: every variable holds a value of its own,
    and a command changes nothing but the variable it names. *)
From Verif Require Import Py Spec ContextModel ContextOps HeapModel.

Record values := Values { v_lists : list (list name); v_tables : list (list (list bool)); v_cxts : list context }.

(** The context a method returns. *)
Definition v_derive (c : context) (d : derivation (list name) context) : res context :=
  match d with
  | DDeepcopy => mk_context (np c) (npz c) (objs c) (atts c)
  | DTranspose => transpose c
  | DFiltered names mode => extract_subcontext_filtered_by_attributes c names mode
  | DSub names => extract_subcontext c names
  | DMul y => context_mul c y
  | DClarify => clarify_objects c
  | DReduceObjects => reduce_objects c
  | DReduceAttributes => reduce_attributes c
  | DComplementary => complementary c
  | DCompound => compound c
  end.
Definition v_add (s : values) (r : res context) : values * res () :=
  match r with
  | Ok c => (Values (v_lists s) (v_tables s) (v_cxts s ++ [c])%list, Ok tt)
  | Err e => (s, Err e)
  end.
Definition v_cmd (s : values) (k : cmd) : values * res () :=
  match k with
  | CList l => (Values (v_lists s ++ [l])%list (v_tables s) (v_cxts s), Ok tt)
  | CPutList v l =>
      if decide (v < length (v_lists s)) then (Values (<[v := l]> (v_lists s)) (v_tables s) (v_cxts s), Ok tt)
      else (s, Err UnboundLocalError)
  | CTable t => (Values (v_lists s) (v_tables s ++ [t])%list (v_cxts s), Ok tt)
  | CPutTable v t =>
      if decide (v < length (v_tables s)) then (Values (v_lists s) (<[v := t]> (v_tables s)) (v_cxts s), Ok tt)
      else (s, Err UnboundLocalError)
  | CNew tv ov av =>
      match v_tables s !! tv, v_lists s !! ov, v_lists s !! av with
      | Some t, Some o, Some a => v_add s (mk_context t None o a)
      | _, _, _ => (s, Err UnboundLocalError)
      end
  | CMut x o =>
      match v_cxts s !! x with
      | Some c => (Values (v_lists s) (v_tables s) (<[x := (step c o).1]> (v_cxts s)), (step c o).2)
      | None => (s, Err UnboundLocalError)
      end
  | CDerive x d =>
      match v_cxts s !! x, d_map (fun v => v_lists s !! v) (fun y => v_cxts s !! y) d with
      | Some c, Some d' => v_add s (v_derive c d')
      | _, _ => (s, Err UnboundLocalError)
      end
  end.
Fixpoint v_run (s : values) (p : list cmd) : values * list (res ()) :=
  match p with
  | [] => (s, [])
  | k :: p' => let '(s1, r) := v_cmd s k in let '(s2, rs) := v_run s1 p' in (s2, r :: rs)
  end.
(** What the client sees: its lists, its tables and its contexts. *)
Definition seen (w : world) : values :=
  Values (map (fun r => hl (w_heap w) !!! r) (w_lists w))
         (map (fun r => (ha (w_heap w) !!! r).1) (w_tables w))
         (map (fun s => view s (w_heap w)) (w_cxts w)).
