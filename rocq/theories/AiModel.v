(** * Model of fca/algorithms/aibasis.py

    Line numbers refer to that file.  The sets and implications held by the list
    [preclosed] are changed in place.  Each of them is held by one element of the
    list only, and an implication is taken out of [basis] (line 83) before it is
    changed (line 85), so values are used instead of references. *)
From Verif Require Import Py Spec ContextModel ClosureModel.

(** Lines 11-21. *)
Fixpoint kclosure_loop (s closure : gset name) (exs : list (gset name)) : gset name :=
  match exs with
  | [] => closure
  | o :: exs' =>
      if bool_decide (s = closure) then closure
      else kclosure_loop s (if bool_decide (s ⊆ o) then closure ∩ o else closure) exs'
  end.
Definition kclosure (s : gset name) (k : nat) (c : context) : res (gset name) :=
  exs ← examples c; Ok (kclosure_loop s (list_to_set (take k (atts c))) exs).

(** An element of [preclosed] (lines 38-39): a pair or a triple.  In a triple the
    second component is the premise of the third. *)
Inductive pre :=
| PConcept (A B : gset name)
| PImp (A : gset name) (i : fimp).
Global Instance pre_eq_dec : EqDecision pre.
Proof. solve_decision. Defined.
Definition pext (p : pre) : gset name := match p with PConcept A _ => A | PImp A _ => A end.
Definition pset (p : pre) : gset name := match p with PConcept _ B => B | PImp _ i => i.1 end.
Definition pimps (ps : list pre) : list fimp := omap (fun p => match p with PImp _ i => Some i | _ => None end) ps.

(** Lines 51-58: the local lists; [non_min_mod] holds triples. *)
Record ustate := UState {
  old_stable : list fimp; new_stable : list fimp; min_mod : list fimp;
  non_min : list (gset name * fimp); mod_extra : list pre; new_pre : list pre }.
(** Lines 95-111. *)
Definition stable_concept (A B : gset name) (m : name) (E : gset name) (closure : gset name → res (gset name)) (st : ustate)
  : res ustate :=
  let P := B ∪ {[m]} in
  if forallb (fun i => is_respected i P) (new_stable st) then
    C ← closure P;
    Ok (if bool_decide (C = P)
        then UState (old_stable st) (new_stable st) (min_mod st) (non_min st) (mod_extra st) (new_pre st ++ [PConcept (A ∩ E) P])
        else UState (old_stable st) (new_stable st ++ [(P, C)]) (min_mod st) (non_min st) (mod_extra st)
               (new_pre st ++ [PImp (A ∩ E) (P, C)]))
  else Ok st.
(** Lines 113-124. *)
Definition modified_implication (A : gset name) (i : fimp) (m : name) (st : ustate) : ustate :=
  let C := i.2 ∪ {[m]} in
  if existsb (fun j : fimp => bool_decide (j.1 ⊆ i.1)) (min_mod st)
  then UState (old_stable st) (new_stable st) (min_mod st) (non_min st ++ [(A, (i.1 ∪ {[m]}, C))]) (mod_extra st) (new_pre st)
  else UState (old_stable st) (new_stable st) (min_mod st ++ [(i.1, C)]) (non_min st) (mod_extra st)
         (new_pre st ++ [PImp A (i.1, C)]).
(** Lines 126-137. *)
Definition modified_concept (A B : gset name) (m : name) (st : ustate) : ustate :=
  let st' :=
    if existsb (fun j : fimp => bool_decide (j.1 ⊆ B)) (min_mod st) then st
    else UState (old_stable st) (new_stable st) (min_mod st ++ [(B, B ∪ {[m]})]) (non_min st) (mod_extra st)
           (new_pre st ++ [PImp A (B, B ∪ {[m]})]) in
  UState (old_stable st') (new_stable st') (min_mod st') (non_min st') (mod_extra st' ++ [PConcept A (B ∪ {[m]})]) (new_pre st').
(** Lines 60-76: one element of [preclosed]. *)
Definition push_pre (p : pre) (st : ustate) : ustate :=
  UState (old_stable st) (new_stable st) (min_mod st) (non_min st) (mod_extra st) (new_pre st ++ [p]).
Definition push_old (i : fimp) (st : ustate) : ustate :=
  UState (old_stable st ++ [i]) (new_stable st) (min_mod st) (non_min st) (mod_extra st) (new_pre st).
Definition update_one (m : name) (E : gset name) (closure : gset name → res (gset name)) (p : pre) (st : ustate) : res ustate :=
  if bool_decide (pext p ⊆ E) then
    match p with
    | PConcept A B => Ok (modified_concept A B m st)
    | PImp A i => Ok (modified_implication A i m st)
    end
  else
    match p with
    | PConcept A B => stable_concept A B m E closure (push_pre p st)
    | PImp A i => Ok (push_old i (push_pre p st))
    end.
Fixpoint update_loop (m : name) (E : gset name) (closure : gset name → res (gset name)) (ps : list pre) (st : ustate) : res ustate :=
  match ps with
  | [] => Ok st
  | p :: ps' => st' ← update_one m E closure p st; update_loop m E closure ps' st'
  end.
(** Lines 81-88, [rl] is [non_min_mod] backwards.  [basis] is [fixed], the
    implications of [rl] in their original order, and [added]. *)
Fixpoint close_loop (fixed : list fimp) (rl : list (gset name * fimp)) (added : list fimp) (extra : list pre)
  : res (list fimp * list pre) :=
  match rl with
  | [] => Ok (fixed ++ added, extra)
  | (A, i) :: rl' =>
      X ← simple_closure i.1 (fixed ++ map snd (reverse rl') ++ added);
      let P := i.1 ∪ X in
      if bool_decide (P = i.2) then close_loop fixed rl' added extra
      else close_loop fixed rl' (added ++ [(P, i.2)]) (extra ++ [PImp A (P, i.2)])
  end.
(** Lines 45-92.  [srt] is what [mod_extra.sort(key=...)] makes of the list: the
    keys are sets, [<] between them is proper inclusion. *)
Definition update_preclosed (srt : list pre → list pre) (i : nat) (c : context) (ps : list pre) : res (list pre * list fimp) :=
  m ← aname c i;
  E ← get_attribute_extent_by_index c i;
  st ← update_loop m E (fun s => kclosure s (S i) c) ps (UState [] [] [] [] [] []);
  r ← close_loop (old_stable st ++ new_stable st ++ min_mod st) (reverse (non_min st)) [] (mod_extra st);
  Ok (new_pre st ++ srt r.2, r.1).
(** Lines 35-42. *)
Fixpoint canonical_loop (srt : nat → list pre → list pre) (c : context) (is : list nat) (ps : list pre) (basis : list fimp)
  : res (list fimp) :=
  match is with
  | [] => Ok basis
  | i :: is' => r ← update_preclosed (srt i) i c ps; canonical_loop srt c is' r.1 r.2
  end.
Definition compute_canonical_basis (srt : nat → list pre → list pre) (c : context) : res (list fimp) :=
  canonical_loop srt c (seq 0 (length (atts c))) [PConcept (list_to_set (objs c)) ∅] [].

(** [list.sort] of CPython on fewer than 64 elements: the longest run at the
    beginning, reversed if descending, then binary insertion.  [lt] is the
    comparison of the keys. *)
Section short_sort.
  Context {A : Type} (lt : A → A → bool).
  Fixpoint run_up (x : A) (l : list A) : list A * list A :=
    match l with
    | [] => ([x], [])
    | y :: l' => if lt y x then ([x], l) else let r := run_up y l' in (x :: r.1, r.2)
    end.
  Fixpoint run_down (x : A) (l : list A) : list A * list A :=
    match l with
    | [] => ([x], [])
    | y :: l' => if lt y x then let r := run_down y l' in (x :: r.1, r.2) else ([x], l)
    end.
  Definition first_run (l : list A) : list A * list A :=
    match l with
    | x :: y :: l' => if lt y x then let r := run_down x (y :: l') in (reverse r.1, r.2) else run_up x (y :: l')
    | _ => (l, [])
    end.
  (** The position found between [l] and [r]. *)
  Fixpoint bin_pos (fuel : nat) (x : A) (s : list A) (l r : nat) : nat :=
    match fuel with
    | O => l
    | S f =>
        if decide (l < r) then
          let p := ((l + r) / 2)%nat in
          match s !! p with
          | Some y => if lt x y then bin_pos f x s l p else bin_pos f x s (S p) r
          | None => l
          end
        else l
    end.
  Definition bin_insert (s : list A) (x : A) : list A :=
    let p := bin_pos (S (length s)) x s 0 (length s) in take p s ++ x :: drop p s.
  Definition short_sort (l : list A) : list A := let r := first_run l in foldl bin_insert r.1 r.2.
End short_sort.
Definition pre_lt (p q : pre) : bool := bool_decide (pset p ⊂ pset q).
