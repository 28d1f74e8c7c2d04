(** * Model of fca/algorithms/closure_operators.py and the core of fca/implication.py *)
From Verif Require Import Py Spec ContextModel.

(** ** Derivation and closure functions (closure_operators.py) *)

(** Lines 8-16.  [l] is the order in which the argument collection is iterated.
    [get_object_intent] is the method of the context. *)
Definition fn_oprime (c : context) (l : list name) : res (gset name) :=
  foldl (fun acc o => s ← acc; i ← get_object_intent c o; Ok (s ∩ i))
        (Ok (list_to_set (atts c))) l.
(** Lines 18-26. *)
Definition fn_aprime (c : context) (l : list name) : res (gset name) :=
  foldl (fun acc a => s ← acc; e ← get_attribute_extent c a; Ok (s ∩ e))
        (Ok (list_to_set (objs c))) l.
(** Lines 28-30.  [sorted] raises TypeError on names that cannot be compared.
    The intermediate set is iterated in the order given by [elements]; the order
    only matters for which of several exceptions is raised. *)
Definition fn_oclosure (c : context) (l : list name) : res (list name) :=
  m ← fn_oprime c l; g ← fn_aprime c (elements m); py_sorted (elements g).
(** Lines 33-35. *)
Definition fn_aclosure (c : context) (l : list name) : res (list name) :=
  g ← fn_aprime c l; m ← fn_oprime c (elements g); py_sorted (elements m).

(** ** Implications (implication.py) *)

(** An [Implication] is its two sets (lines 28-33); [i.1] is [_premise], [i.2] is
    [_conclusion]. *)
(** Lines 50-54: property [conclusion]. *)
Definition conclusion (i : fimp) : gset name := i.2 ∖ i.1.
(** Lines 74-79. *)
Definition imp_eqb (i j : fimp) : bool :=
  bool_decide (i.1 = j.1) && bool_decide (conclusion i = conclusion j).
(** Lines 56-69: premise and reduced conclusion, sorted and joined.  The [except]
    branch converts numbers with [str]; sorting a side that mixes strings and
    numbers raises TypeError in both branches. *)
Definition imp_repr (i : fimp) : res string :=
  p ← py_sorted (elements i.1); q ← py_sorted (elements (conclusion i));
  Ok (join ", " (map pystr p) ++ " => " ++ join ", " (map pystr q))%string.
(** Lines 81-82: [hash(str(imp))] fails iff [str(imp)] fails. *)
Definition hashable (i : fimp) : bool := is_ok (imp_repr i).
(** Lines 84-89, argument of type [set]. *)
Definition is_respected (i : fimp) (X : gset name) : bool :=
  negb (bool_decide (i.1 ⊆ X)) || bool_decide (conclusion i ⊆ X).
(** Lines 90-93, argument a pair: partial example (certain, possible). *)
Definition is_respected_partial (i : fimp) (X : gset name * gset name) : bool :=
  bool_decide (conclusion i ⊆ X.2) || negb (bool_decide (i.1 ⊆ X.1)).

(** ** simple_closure, lines 38-86 of closure_operators.py *)

(** Lines 80-84: one pass over the unused implications; the closure, the
    implications to remove, and whether something fired. *)
Definition simple_pass (acc : gset name * list fimp) (i : fimp) : gset name * list fimp :=
  if bool_decide (i.1 ⊆ acc.1) then (acc.1 ∪ i.2, i :: acc.2) else acc.
(** Lines 77-86.  [changed] is true iff [to_remove] is not empty.  The set
    [to_remove] is a hash set: membership compares with [__eq__]. *)
Fixpoint simple_loop (fuel : nat) (unused : list fimp) (C : gset name) : res (gset name) :=
  match fuel with
  | O => Err OutOfFuel
  | S fuel' =>
      let '(C', rem) := foldl simple_pass (C, []) unused in
      match rem with
      | [] => Ok C'
      | _ => simple_loop fuel' (List.filter (fun i => negb (existsb (imp_eqb i) rem)) unused) C'
      end
  end.
(** Every implication is hashed in the first pass (lines 84-85). *)
Definition simple_closure (s : gset name) (imps : list fimp) : res (gset name) :=
  if forallb hashable imps then simple_loop (S (length imps)) imps s else Err TypeError.

(** ** lin_closure, lines 88-158 *)

(** Keys of the dictionary [count]: implications up to [__eq__]. *)
Definition ikey (i : fimp) : fimp := (i.1, conclusion i).
(** Lines 126-133: decrease the counter of [i]; the set it contributes. *)
Definition decrease_count (count : list (fimp * nat)) (i : fimp) : list (fimp * nat) * gset name :=
  match dget (ikey i) count with
  | None | Some 0 => (count, ∅)
  | Some (S n) => (dset (ikey i) n count, if decide (n = 0) then i.2 else ∅)
  end.
Fixpoint decrease_all (count : list (fimp * nat)) (is : list fimp) : list (fimp * nat) * gset name :=
  match is with
  | [] => (count, ∅)
  | i :: is' => let '(count', a) := decrease_count count i in
                let '(count'', a') := decrease_all count' is' in
                (count'', a ∪ a')
  end.
(** Lines 149-158.  [update] is kept with its last element first ([pop] takes the
    last element); [ord k X] is the order in which the set [X] is iterated at the
    [k]-th time.  [imps[m]] is the list of implications with [m] in the premise,
    in the order of [implications] (lines 143-146). *)
Fixpoint lin_loop (ord : nat -> gset name -> list name) (imps : list fimp) (fuel k : nat)
    (update : list name) (C : gset name) (count : list (fimp * nat)) : res (gset name) :=
  match update with
  | [] => Ok C
  | m :: update' =>
      match fuel with
      | O => Err OutOfFuel
      | S fuel' =>
          let '(count', a) := decrease_all count (List.filter (fun i => bool_decide (m ∈ i.1)) imps) in
          let add := a ∖ C in
          lin_loop ord imps fuel' (S k) (reverse (ord k add) ++ update') (C ∪ add) count'
      end
  end.
(** Lines 135-147.  The number of iterations is bounded by the number of
    attributes involved; see [lin_closure_spec]. *)
Definition lin_closure (ord : nat -> gset name -> list name) (s : gset name) (imps : list fimp) : res (gset name) :=
  match imps with
  | [] => Ok s
  | _ =>
      if forallb hashable imps then
        let C := foldl (fun C i => if bool_decide (i.1 = ∅) then C ∪ i.2 else C) s imps in
        let count := dict_of (map (fun i => (ikey i, size i.1)) imps) in
        lin_loop ord imps (size (s ∪ ⋃ map snd imps)) 1 (reverse (ord 0 C)) C count
      else Err TypeError
  end.

(** ** closure, lines 161-188, with [base_set] a list *)
(** Lines 178-181: agreement on the prefix. *)
Definition agrees (pref : list name) (C current : gset name) : bool :=
  forallb (fun x => Bool.eqb (bool_decide (x ∈ C)) (bool_decide (x ∈ current))) pref.
(** Lines 174-183: one pass; [None] is the early return. *)
Fixpoint closure_pass (pref : list name) (current : gset name) (unused : list fimp)
    (C : gset name) (del : list fimp) : option (gset name * list fimp) :=
  match unused with
  | [] => Some (C, del)
  | i :: unused' =>
      if bool_decide (i.1 ⊆ C) then
        if agrees pref (C ∪ i.2) current
        then closure_pass pref current unused' (C ∪ i.2) (del ++ [i])
        else None
      else closure_pass pref current unused' C del
  end.
(** [list.remove]: the first equal element; ValueError if there is none. *)
Fixpoint remove_imp (i : fimp) (l : list fimp) : res (list fimp) :=
  match l with
  | [] => Err ValueError
  | j :: l' => if imp_eqb j i then Ok l' else l'' ← remove_imp i l'; Ok (j :: l'')
  end.
Fixpoint remove_all (del l : list fimp) : res (list fimp) :=
  match del with [] => Ok l | i :: del' => l' ← remove_imp i l; remove_all del' l' end.
(** Lines 166-188.  A list is never equal to a set, so the first test succeeds. *)
Fixpoint closure_loop (pref : list name) (current : gset name) (fuel : nat) (first : bool)
    (unused : list fimp) (old new : gset name) : res (bool * gset name) :=
  if first || bool_decide (old ≠ new) then
    match fuel with
    | O => Err OutOfFuel
    | S fuel' =>
        match closure_pass pref current unused new [] with
        | None => Ok (false, ∅)
        | Some (C, del) => l ← remove_all del unused;
                           closure_loop pref current fuel' false l new C
        end
    end
  else Ok (true, new).
Definition closure (current : gset name) (base_set : list name) (imps : list fimp) (prefLen : nat)
  : res (bool * gset name) :=
  closure_loop (take prefLen base_set) current (length imps + 2) true imps ∅ current.
