(** * Model of contexts and lattices as sequences (fca/context.py, fca/concept_lattice.py) *)
From Verif Require Import Py Spec ContextModel LatticeModel ShowModel.

(** A position in a sequence of length [n]: negative ones count from the end (lists and numpy arrays alike). *)
Definition position (n : nat) (i : Z) : res nat :=
  let j := if (i <? 0)%Z then (i + Z.of_nat n)%Z else i in
  if ((0 <=? j) && (j <? Z.of_nat n))%Z then Ok (Z.to_nat j) else Err IndexError.
(** context.py 655-656. *)
Definition cxt_len (c : context) : nat := length (np c).
(** [bool(cxt)]: there is no [__bool__], so Python asks [__len__]. *)
Definition cxt_bool (c : context) : bool := negb (cxt_len c =? 0)%nat.
(** context.py 658-659 with an int: a row of the table. *)
Definition cxt_row (c : context) (i : Z) : res (list bool) :=
  k ← position (length (np c)) i; get_or IndexError (np c !! k).
(** [cxt[i][j]]. *)
Definition cxt_cell (c : context) (i j : Z) : res bool :=
  r ← cxt_row c i; k ← position (length r) j; get_or IndexError (r !! k).
(** [list(s)] or [for x in s] for a class without [__iter__]: [s[0]], [s[1]], ... until IndexError;
    [None] when the fuel is used up. *)
Fixpoint seq_list {A} (item : Z → res A) (fuel i : nat) : option (res (list A)) :=
  match fuel with
  | O => None
  | S f =>
      match item (Z.of_nat i) with
      | Err IndexError => Some (Ok [])
      | Err e => Some (Err e)
      | Ok x => match seq_list item f (S i) with
                | Some (Ok l) => Some (Ok (x :: l))
                | r => r
                end
      end
  end.
