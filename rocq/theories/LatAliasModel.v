(** * Model of changes through the lists and sets that lattices and systems hand out
    (fca/concept_lattice.py, fca/concept_system.py) *)
From Verif Require Import Py Spec ContextModel LatticeModel.

(** [concepts] is the list [_concepts] itself (concept_lattice.py 45-48), and [parents(x)] the set kept in
    [_parents] (87-88): a program that appends to the one or changes the other changes the lattice.  Adding
    to a set and discarding from it hashes the member. *)
Inductive lop := LAppend (x : fconcept) | LAdd (x y : fconcept) | LDiscard (x y : fconcept).
Definition lat_change (l : lattice) (x y : fconcept) (f : gset fconcept → gset fconcept) : upd lattice () :=
  match lat_parents l x with
  | Err e => (l, Err e)
  | Ok ps => if chash y
             then (Lattice (lcxt l) (lconcepts l) (dset x (f ps) (lparents l)) (lbottom l) (ltop l), Ok tt)
             else (l, Err TypeError)
  end.
Definition lat_step (l : lattice) (o : lop) : upd lattice () :=
  match o with
  | LAppend x => (Lattice (lcxt l) (lconcepts l ++ [x]) (lparents l) (lbottom l) (ltop l), Ok tt)
  | LAdd x y => lat_change l x y (fun ps => ps ∪ {[y]})
  | LDiscard x y => lat_change l x y (fun ps => ps ∖ {[y]})
  end.
Definition lat_run (l : lattice) (os : list lop) : lattice := foldl (fun l o => (lat_step l o).1) l os.
(** The same for the cached sets of a system (concept_system.py 104-107): [s.parents(x).add(y)]. *)
Definition sys_add (s : csystem) (x y : fconcept) : upd csystem () :=
  match sparents_of s x with
  | (s', Err e) => (s', Err e)
  | (s', Ok ps) => if chash y
                   then (CSystem (sconcepts s') (dset x (ps ∪ {[y]}) <$> sparents s'), Ok tt)
                   else (s', Err TypeError)
  end.
