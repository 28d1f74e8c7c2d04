(** * Model of the incremental basis of a context computed through the memoising wrappers

    The functions of fca/algorithms/aibasis.py (model: AiModel.v) as computations that inspect
    the context [c] through its getters; [k] is what is done with the result.  The sets
    returned by the getters are not changed by the algorithm. *)
From Verif Require Import Py Spec ContextModel ContextOps ClosureModel MemoModel AiModel.

(** aibasis.py lines 15-21: the loop over the generator [cxt.examples()] (context.py lines
    319-325); [l] is what is left of its range of indices. *)
Fixpoint p_kclosure {A} (s closure : gset name) (l : list nat) (k : res (gset name) → prog A) : prog A :=
  match l with
  | [] => k (Ok closure)
  | i :: l' =>
      ReadI i (fun r =>
        match r with
        | Err e => k (Err e)
        | Ok o =>
            if bool_decide (s = closure) then k (Ok closure)
            else p_kclosure s (if bool_decide (s ⊆ o) then closure ∩ o else closure) l' k
        end)
  end.
(** Lines 95-111. *)
Definition p_stable_concept {A} (c : context) (j : nat) (X B : gset name) (m : name) (E : gset name) (st : ustate)
    (k : res ustate → prog A) : prog A :=
  let P := B ∪ {[m]} in
  if forallb (fun i => is_respected i P) (new_stable st) then
    p_kclosure P (list_to_set (take (S j) (atts c))) (seq 0 (length (objs c))) (fun r =>
      match r with
      | Err e => k (Err e)
      | Ok C => k (Ok (
          if bool_decide (C = P)
          then UState (old_stable st) (new_stable st) (min_mod st) (non_min st) (mod_extra st) (new_pre st ++ [PConcept (X ∩ E) P])
          else UState (old_stable st) (new_stable st ++ [(P, C)]) (min_mod st) (non_min st) (mod_extra st)
                 (new_pre st ++ [PImp (X ∩ E) (P, C)])))
      end)
  else k (Ok st).
(** Lines 60-76. *)
Fixpoint p_update_loop {A} (c : context) (j : nat) (m : name) (E : gset name) (ps : list pre) (st : ustate)
    (k : res ustate → prog A) : prog A :=
  match ps with
  | [] => k (Ok st)
  | p :: ps' =>
      if bool_decide (pext p ⊆ E) then
        p_update_loop c j m E ps'
          (match p with PConcept X B => modified_concept X B m st | PImp X i => modified_implication X i m st end) k
      else
        match p with
        | PConcept X B =>
            p_stable_concept c j X B m E (push_pre p st) (fun r =>
              match r with Err e => k (Err e) | Ok st' => p_update_loop c j m E ps' st' k end)
        | PImp X i => p_update_loop c j m E ps' (push_old i (push_pre p st)) k
        end
  end.
(** Lines 45-92, [srt] as in [update_preclosed]. *)
Definition p_update_preclosed {A} (srt : list pre → list pre) (j : nat) (c : context) (ps : list pre)
    (k : res (list pre * list fimp) → prog A) : prog A :=
  match aname c j with
  | Err e => k (Err e)
  | Ok m =>
      ReadE j (fun r =>
        match r with
        | Err e => k (Err e)
        | Ok E =>
            p_update_loop c j m E ps (UState [] [] [] [] [] []) (fun r =>
              k (st ← r;
                 r ← close_loop (old_stable st ++ new_stable st ++ min_mod st) (reverse (non_min st)) [] (mod_extra st);
                 Ok (new_pre st ++ srt r.2, r.1)))
        end)
  end.
(** Lines 35-42. *)
Fixpoint p_canonical_loop (srt : nat → list pre → list pre) (c : context) (js : list nat) (ps : list pre) (basis : list fimp)
  : prog (list fimp) :=
  match js with
  | [] => Ret (Ok basis)
  | j :: js' => p_update_preclosed (srt j) j c ps (fun r =>
      match r with Err e => Ret (Err e) | Ok (ps', basis') => p_canonical_loop srt c js' ps' basis' end)
  end.
Definition p_canonical_basis (srt : nat → list pre → list pre) (c : context) : prog (list fimp) :=
  p_canonical_loop srt c (seq 0 (length (atts c))) [PConcept (list_to_set (objs c)) ∅] [].
(** fca/context.py lines 281-285, [get_attribute_canonical_basis]. *)
Definition get_attribute_canonical_basis (m : mcxt) (srt : nat → list pre → list pre) : mcxt * res (list fimp) :=
  basis_computation m (fun m => exec (p_canonical_basis srt (mc m)) m).
