(** * Model of the printing of concepts and of lists of concepts (fca/concept.py,
    fca/concept_lattice.py, fca/concept_system.py) *)
From Coq Require Import Ascii.
From stdpp Require Import pretty.
From Verif Require Import Py Spec ContextModel LatticeModel.

(** Python's [repr] of a name.  Strings with characters other than printable ASCII, or with a
    quote or a backslash, are written with escapes or other quotes: [Unmodelled]. *)
Definition plain_char (a : ascii) : bool :=
  let n := nat_of_ascii a in
  (32 <=? n) && (n <=? 126) && negb (n =? 39) && negb (n =? 92).
Fixpoint plain (s : string) : bool :=
  match s with EmptyString => true | String a s' => plain_char a && plain s' end.
Definition name_repr (n : name) : res string :=
  match n with
  | NStr s => if plain s then Ok ("'" ++ s ++ "'")%string else Err Unmodelled
  | NInt z => Ok (pretty z)
  end.
(** [str] of a list of names. *)
Definition list_repr (l : list name) : res string :=
  ss ← mapM name_repr l; Ok ("[" ++ join ", " ss ++ "]")%string.
(** concept.py 42-60, for a concept with empty [meta]: both sides are sorted before anything is
    formatted; with an empty intent the extent is written G, with an empty extent the intent M. *)
Definition concept_str (x : fconcept) : res string :=
  e ← (if decide (x.2 = ∅) then Ok None else l ← py_sorted (elements x.1); Ok (Some l));
  i ← (if decide (x.1 = ∅) then Ok None else l ← py_sorted (elements x.2); Ok (Some l));
  se ← match e with None => Ok "G"%string | Some l => list_repr l end;
  si ← match i with None => Ok "M"%string | Some l => list_repr l end;
  Ok ("(" ++ se ++ ", " ++ si ++ ")")%string.
(** [s[:-1]]. *)
Fixpoint but_last (s : string) : string :=
  match s with
  | EmptyString => EmptyString
  | String a s' => match s' with EmptyString => EmptyString | _ => String a (but_last s') end
  end.
(** concept_lattice.py 78-82, concept_system.py 60-64. *)
Fixpoint concepts_lines (acc : string) (cs : list fconcept) : res string :=
  match cs with
  | [] => Ok (but_last acc)
  | x :: cs' => s ← concept_str x; concepts_lines (acc ++ s ++ String (ascii_of_nat 10) EmptyString)%string cs'
  end.
Definition concepts_str (cs : list fconcept) : res string := concepts_lines EmptyString cs.
(** [len], [in] and [index] (concept_lattice.py 69-76 and 84-85, concept_system.py 51-58 and 66-67);
    [index] raises ValueError when the concept is not there. *)
Definition concepts_len (cs : list fconcept) : nat := length cs.
Definition concepts_contains (cs : list fconcept) (x : fconcept) : bool := existsb (fun y => bool_decide (y = x)) cs.
Definition concepts_index (cs : list fconcept) (x : fconcept) : res nat := py_index x cs.
(** [cs[i]] for an int (concept_lattice.py 72-73, concept_system.py 54-55): negative positions count
    from the end. *)
Definition concepts_item (cs : list fconcept) (i : Z) : res fconcept :=
  let j := if (i <? 0)%Z then (i + Z.of_nat (length cs))%Z else i in
  if (j <? 0)%Z then Err IndexError else get_or IndexError (cs !! Z.to_nat j).
