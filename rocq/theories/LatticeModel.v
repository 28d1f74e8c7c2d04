(** * Model of fca/concept.py, fca/algorithms/norris.py, fca/concept_lattice.py and
    fca/concept_system.py *)
From Verif Require Import Py Spec ContextModel.

(** A [Concept] with empty [meta] (concept.py 36-40): extent and intent.
    [__eq__] (lines 65-68) compares exactly these. *)
Notation fconcept := (gset name * gset name)%type.

(** [hash] (concept.py 70-71) calls [str], which sorts the extent when the intent
    is not empty and the intent when the extent is not empty (lines 44-55), so it
    raises TypeError when these names cannot be compared.  Equal concepts have
    equal hashes, so a dictionary keyed by concepts is keyed by the pairs. *)
Definition chash (x : fconcept) : bool :=
  (bool_decide (x.2 = ∅) || comparable (elements x.1)) &&
  (bool_decide (x.1 = ∅) || comparable (elements x.2)).

(** ** Norris' algorithm (norris.py 51-83) *)

(** Lines 73-78: the test against the earlier objects; [prev] lists the objects
    before the current one with their intents. *)
Definition norris_new (prev : list (name * gset name)) (A N : gset name) : bool :=
  forallb (fun p => negb (bool_decide (N ⊆ p.2) && bool_decide (p.1 ∉ A))) prev.
(** Lines 69-83: one concept of [cs_for_loop]: its new state and the concept
    created from it. *)
Definition norris_one (prev : list (name * gset name)) (row : name * gset name) (x : fconcept)
  : fconcept * option fconcept :=
  if bool_decide (x.2 ⊆ row.2) then ((x.1 ∪ {[row.1]}, x.2), None)
  else let N := x.2 ∩ row.2 in
       if norris_new prev x.1 N then (x, Some ({[row.1]} ∪ x.1, N)) else (x, None).
(** Lines 66-83.  [cs] are the concept objects in their current state, in the order
    in which they were yielded; [tr] are the concepts as they were when yielded. *)
Fixpoint norris_rows (prev rows : list (name * gset name)) (cs tr : list fconcept)
  : list fconcept * list fconcept :=
  match rows with
  | [] => (cs, tr)
  | row :: rows' =>
      let r := map (norris_one prev row) cs in
      let news := omap snd r in
      norris_rows (prev ++ [row]) rows' (map fst r ++ news) (tr ++ news)
  end.
(** Lines 57-83: final states and the trace of yields. *)
Definition norris_run (c : context) : res (list fconcept * list fconcept) :=
  exs ← examples c;
  let top := (∅, list_to_set (atts c)) : fconcept in
  Ok (norris_rows [] (take (length (np c)) (zip (objs c) exs)) [top] [top]).
(** Lines 42-48: [norris(context, False)]: the yielded objects in their final state. *)
Definition norris (c : context) : res (list fconcept) := r ← norris_run c; Ok r.1.

(** ** compute_covering_relation (norris.py 86-153, concept_system.py 82-102) *)
Definition between (cs : list fconcept) (x y : fconcept) : bool :=
  existsb (fun z => bool_decide (x.2 ⊂ z.2) && bool_decide (z.2 ⊂ y.2)) cs.
(** One pass of the body for [x = cs[i]], [y = cs[j]].  Every [y] is a key. *)
Definition cover_step (cs : list fconcept) (d : list (fconcept * gset fconcept)) (p : fconcept * fconcept)
  : list (fconcept * gset fconcept) :=
  let '(x, y) := p in
  if bool_decide (x.2 ⊂ y.2) then
    let s := default ∅ (dget y d) ∪ {[x]} in
    dset y (if between cs x y then s ∖ {[x]} else s) d
  else d.
Definition compute_covering_relation (cs : list fconcept) : res (list (fconcept * gset fconcept)) :=
  if forallb chash cs
  then Ok (foldl (cover_step cs) (dict_of (map (fun x => (x, ∅)) cs))
                 (x ← cs; y ← cs; [(x, y)]))
  else Err TypeError.

(** [d[x]] for a dictionary keyed by concepts. *)
Definition cget {A} (d : list (fconcept * A)) (x : fconcept) : res A :=
  if chash x then get_or KeyError (dget x d) else Err TypeError.
(** [[c for c in concepts if concept.intent > c.intent]] and the converse
    (concept_lattice.py 61-67, concept_system.py 37-43). *)
Definition cfilter (cs : list fconcept) (x : fconcept) : list fconcept :=
  List.filter (fun y => bool_decide (y.2 ⊂ x.2)) cs.
Definition cideal (cs : list fconcept) (x : fconcept) : list fconcept :=
  List.filter (fun y => bool_decide (x.2 ⊂ y.2)) cs.
(** [[c for c in concepts if not self.ideal(c)][0]] and the same with [filter]
    (concept_lattice.py 36-37, concept_system.py 25-33). *)
Definition bottom_of (cs : list fconcept) : res fconcept :=
  get_or IndexError (head (List.filter (fun x => match cideal cs x with [] => true | _ => false end) cs)).
Definition top_of (cs : list fconcept) : res fconcept :=
  get_or IndexError (head (List.filter (fun x => match cfilter cs x with [] => true | _ => false end) cs)).

(** ** ConceptLattice (concept_lattice.py 34-38) with the default builder *)
Record lattice := Lattice {
  lcxt : context;
  lconcepts : list fconcept;
  lparents : list (fconcept * gset fconcept);
  lbottom : fconcept;
  ltop : fconcept }.
Definition mk_lattice (c : context) : res lattice :=
  cs ← norris c;
  p ← compute_covering_relation cs;
  b ← bottom_of cs;
  t ← top_of cs;
  Ok (Lattice c cs p b t).
(** Lines 87-88. *)
Definition lat_parents (l : lattice) (x : fconcept) : res (gset fconcept) := cget (lparents l) x.
(** Lines 90-91 (and concept_system.py 109-110): [concept in ...] hashes [concept]. *)
Fixpoint children_of (f : fconcept → res (gset fconcept)) (x : fconcept) (cs : list fconcept) : res (gset fconcept) :=
  match cs with
  | [] => Ok ∅
  | y :: cs' => ps ← f y;
                if chash x then
                  r ← children_of f x cs';
                  Ok (if bool_decide (x ∈ ps) then {[y]} ∪ r else r)
                else Err TypeError
  end.
Definition lat_children (l : lattice) (x : fconcept) : res (gset fconcept) :=
  children_of (lat_parents l) x (lconcepts l).

(** ** ConceptSystem (concept_system.py) *)
(** [sparents] is [_parents]; [None] when there is no cached relation. *)
Record csystem := CSystem { sconcepts : list fconcept; sparents : option (list (fconcept * gset fconcept)) }.
(** Lines 45-49. *)
Definition mk_system (cs : list fconcept) : csystem := CSystem cs None.
(** Lines 69-74, with a [Concept]. *)
Definition sappend (s : csystem) (x : fconcept) : csystem := CSystem (sconcepts s ++ [x]) None.
(** [list.remove] (first equal element). *)
Fixpoint list_remove (x : fconcept) (l : list fconcept) : res (list fconcept) :=
  match l with
  | [] => Err ValueError
  | y :: l' => if decide (y = x) then Ok l' else r ← list_remove x l'; Ok (y :: r)
  end.
(** Lines 77-80. *)
Definition sremove (s : csystem) (x : fconcept) : upd csystem () :=
  match list_remove x (sconcepts s) with
  | Ok l => (CSystem l None, Ok tt)
  | Err e => (s, Err e)
  end.
(** Lines 104-107.  An empty dictionary counts as false. *)
Definition sparents_of (s : csystem) (x : fconcept) : upd csystem (gset fconcept) :=
  match sparents s with
  | Some (p :: d) => (s, cget (p :: d) x)
  | _ => match compute_covering_relation (sconcepts s) with
         | Err e => (s, Err e)
         | Ok d => (CSystem (sconcepts s) (Some d), cget d x)
         end
  end.
(** Lines 109-110: [parents] of every concept in turn. *)
Fixpoint schildren_loop (s : csystem) (x : fconcept) (cs : list fconcept) : upd csystem (gset fconcept) :=
  match cs with
  | [] => (s, Ok ∅)
  | y :: cs' =>
      match sparents_of s y with
      | (s', Err e) => (s', Err e)
      | (s', Ok ps) =>
          if chash x then
            match schildren_loop s' x cs' with
            | (s'', Err e) => (s'', Err e)
            | (s'', Ok r) => (s'', Ok (if bool_decide (x ∈ ps) then {[y]} ∪ r else r))
            end
          else (s', Err TypeError)
      end
  end.
Definition schildren (s : csystem) (x : fconcept) : upd csystem (gset fconcept) :=
  schildren_loop s x (sconcepts s).
Inductive sop := SAppend (x : fconcept) | SRemove (x : fconcept) | SParents (x : fconcept) | SChildren (x : fconcept).
Definition sstep (s : csystem) (o : sop) : csystem :=
  match o with
  | SAppend x => sappend s x
  | SRemove x => (sremove s x).1
  | SParents x => (sparents_of s x).1
  | SChildren x => (schildren s x).1
  end.
Fixpoint srun (s : csystem) (l : list sop) : csystem :=
  match l with [] => s | o :: l' => srun (sstep s o) l' end.
