(** * Model of fca/algorithms/filtering *)
From Coq Require Import QArith Qcanon.
From Verif Require Import Py Spec ContextModel LatticeModel.

(** Quotients are exact rationals; Python computes the nearest float. *)
Definition qdiv (a b : Z) : Qc := Q2Qc (inject_Z a / inject_Z b).

(** ** Stability (stability.py 16-55 and 57-97)
    The two functions have the same loop; they differ in the comparison used for
    counting ([ltc]), the comparison used for the updates ([ltu]), the set whose
    subsets are counted ([side]) and the concept the work set starts with.  The work
    set is a Python set: [pop k W] is the element taken out in round [k]. *)
Section stab.
  Context (ltc ltu : fconcept → fconcept → bool) (side : fconcept → gset name).
  Context (pop : nat → gset fconcept → fconcept).
  (** Lines 39-41 / 81-83. *)
  Definition stab_count (cs : list fconcept) : list (fconcept * Z) :=
    dict_of (map (fun x => (x, Z.of_nat (length (List.filter (fun y => ltc y x) cs)))) cs).
  Definition stab_subsets (cs : list fconcept) : list (fconcept * Z) :=
    dict_of (map (fun x => (x, 2 ^ Z.of_nat (size (side x)))%Z) cs).
  (** Lines 49-54 / 91-96: the inner loop. *)
  Fixpoint stab_upd (b : fconcept) (cs : list fconcept) (subsets count : list (fconcept * Z)) (W : gset fconcept)
    : res (list (fconcept * Z) * list (fconcept * Z) * gset fconcept) :=
    match cs with
    | [] => Ok (subsets, count, W)
    | x :: cs' =>
        if ltu b x then
          sx ← get_or KeyError (dget x subsets);
          sb ← get_or KeyError (dget b subsets);
          n ← get_or KeyError (dget x count);
          stab_upd b cs' (dset x (sx - sb)%Z subsets) (dset x (n - 1)%Z count)
            (if decide (n - 1 = 0)%Z then {[x]} ∪ W else W)
        else stab_upd b cs' subsets count W
    end.
  (** Lines 44-55 / 86-97. *)
  Fixpoint stab_loop (fuel k : nat) (cs : list fconcept) (subsets count : list (fconcept * Z)) (W : gset fconcept)
      (st : list (fconcept * Qc)) : res (list (fconcept * Qc)) :=
    match cs with
    | [] => Ok st
    | _ =>
        match fuel with
        | 0 => Err OutOfFuel
        | S fuel' =>
            if decide (W = ∅) then Err KeyError else
            let b := pop k W in
            sb ← get_or KeyError (dget b subsets);
            let st' := dset b (qdiv sb (2 ^ Z.of_nat (size (side b)))) st in
            cs' ← list_remove b cs;
            r ← stab_upd b cs' subsets count (W ∖ {[b]});
            stab_loop fuel' (S k) cs' r.1.1 r.1.2 r.2 st'
        end
    end.
  (** The whole function; using a concept as a key fails when it cannot be hashed. *)
  Definition stab (first : list fconcept → res fconcept) (cs : list fconcept) : res (list (fconcept * Qc)) :=
    if forallb chash cs then
      b ← first cs;
      stab_loop (length cs) 0 cs (stab_subsets cs) (stab_count cs) {[b]} []
    else Err TypeError.
End stab.
Definition compute_istability (pop : nat → gset fconcept → fconcept) (cs : list fconcept) : res (list (fconcept * Qc)) :=
  stab (fun y x => bool_decide (y.1 ⊂ x.1)) (fun b x => bool_decide (x.2 ⊂ b.2)) fst pop bottom_of cs.
Definition compute_estability (pop : nat → gset fconcept → fconcept) (cs : list fconcept) : res (list (fconcept * Qc)) :=
  stab (fun y x => bool_decide (y.2 ⊂ x.2)) (fun b x => bool_decide (b.2 ⊂ x.2)) snd pop top_of cs.

(** ** Separation (separation.py 8-28)
    The iteration order over the extent and the intent does not influence the sums. *)
Definition separation_crossed (c : context) (x : fconcept) : res Z :=
  es ← mapM (fun m => e ← get_attribute_extent c m; Ok (Z.of_nat (size e))) (elements x.2);
  is ← mapM (fun g => i ← get_object_intent c g; Ok (Z.of_nat (size i))) (elements x.1);
  Ok (foldr Z.add 0%Z es + foldr Z.add 0%Z is - Z.of_nat (size x.2 * size x.1))%Z.
(** Lines 12-26 for one concept; dividing by zero raises. *)
Definition separation_one (c : context) (x : fconcept) : res Qc :=
  crossed ← separation_crossed c x;
  let square := Z.of_nat (size x.2 * size x.1) in
  if decide (square = 0%Z) then Ok (Q2Qc 1)
  else if decide (crossed = 0%Z) then Err ZeroDivisionError
  else Ok (qdiv square crossed).
(** A dictionary built in a loop over the concepts. *)
Definition index_of (f : fconcept → res Qc) (cs : list fconcept) : res (list (fconcept * Qc)) :=
  l ← mapM (fun x => v ← f x; if chash x then Ok (x, v) else Err TypeError) cs;
  Ok (dict_of l).
Definition compute_separation_index (l : lattice) : res (list (fconcept * Qc)) :=
  index_of (separation_one (lcxt l)) (lconcepts l).

(** ** Extent and intent size (extentsize.py 3-10, intentsize.py 3-10) *)
Definition size_ratio (n : nat) (X : gset name) : res Qc :=
  if decide (n = 0) then Err ZeroDivisionError else Ok (qdiv (Z.of_nat (size X)) (Z.of_nat n)).
Definition compute_extent_size (l : lattice) : res (list (fconcept * Qc)) :=
  index_of (fun x => size_ratio (length (objs (lcxt l))) x.1) (lconcepts l).
Definition compute_intent_size (l : lattice) : res (list (fconcept * Qc)) :=
  index_of (fun x => size_ratio (length (atts (lcxt l))) x.2) (lconcepts l).

(** ** filter_concepts (filter.py 16-62)
    [indexes] is what the index function returned, [opt] a number.
    [sorted(list, key_, reverse=True)] raises TypeError: the key is passed by
    position.  No branch assigns [ret] for an empty dictionary or another mode. *)
Definition filter_concepts {V} (geb : V → V → bool) (indexes : list (fconcept * V)) (mode : string) (opt : V) : res csystem :=
  match indexes with
  | [] => Err UnboundLocalError
  | _ =>
      if decide (mode = "part") then Err TypeError
      else if decide (mode = "abs") then Err TypeError
      else if decide (mode = "value") then
        Ok (mk_system (map fst (List.filter (fun p => geb p.2 opt) indexes)))
      else Err UnboundLocalError
  end.

(** ** compute_index (filter.py 7-14) and its effect on dictionaries keyed by concepts *)
Section meta.
  Context {V : Type}.
  (** [meta] of each concept of the lattice. *)
  Definition compute_index (metas : fconcept → list (string * V)) (indexes : list (fconcept * V)) (nm : string)
    : fconcept → list (string * V) :=
    foldl (fun f p => fun x => if decide (x = p.1) then dset nm p.2 (f x) else f x) metas indexes.
  (** concept.py 42-60: [base x] is the part in parentheses, [fmt m] prints a dictionary. *)
  Context (base : fconcept → string) (fmt : list (string * V) → string) (hash : string → Z).
  Definition cstr (x : fconcept) (m : list (string * V)) : string :=
    (base x ++ match m with [] => "" | _ => " meta: " ++ fmt m end)%string.
  (** [d[x]] for a dictionary whose keys were inserted when their [meta] was empty:
      an entry is found when the stored hash is the present hash and the keys are equal. *)
  Fixpoint hget {A} (d : list (fconcept * A)) (metas : fconcept → list (string * V)) (x : fconcept) : res A :=
    match d with
    | [] => Err KeyError
    | (y, v) :: d' =>
        if Z.eqb (hash (cstr y [])) (hash (cstr x (metas x))) && bool_decide (y = x) then Ok v else hget d' metas x
    end.
  (** [lattice.parents] and [lattice.children] (concept_lattice.py 87-91) in this view. *)
  Definition meta_parents (l : lattice) (metas : fconcept → list (string * V)) (x : fconcept) : res (gset fconcept) :=
    hget (lparents l) metas x.
End meta.
