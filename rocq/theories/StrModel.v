(** * Python string methods

    A Python string is a Coq string; characters beyond code point 255 are not
    represented. *)
From Coq Require Import Ascii.
From Verif Require Import Py.

(** [c.isspace()] for code points below 256. *)
Definition is_space (a : ascii) : bool :=
  let n := nat_of_ascii a in
  ((9 <=? n) && (n <=? 13)) || ((28 <=? n) && (n <=? 32)) || (n =? 133) || (n =? 160).
(** [s.lstrip()], [s.rstrip()], [s.strip()]. *)
Fixpoint lstrip (s : string) : string :=
  match s with
  | EmptyString => EmptyString
  | String a s' => if is_space a then lstrip s' else s
  end.
Fixpoint rstrip (s : string) : string :=
  match s with
  | EmptyString => EmptyString
  | String a s' =>
      match rstrip s' with
      | EmptyString => if is_space a then EmptyString else String a EmptyString
      | r => String a r
      end
  end.
Definition strip (s : string) : string := rstrip (lstrip s).
(** [s.split(sep)], [sep] not empty: cut at the leftmost occurrence, go on behind
    it.  [skip] characters of an occurrence are still to be skipped. *)
Definition cons_hd (a : ascii) (l : list string) : list string :=
  match l with [] => [String a EmptyString] | x :: l' => String a x :: l' end.
Fixpoint split_from (sep : string) (skip : nat) (s : string) : list string :=
  match s with
  | EmptyString => [EmptyString]
  | String a s' =>
      match skip with
      | S k => split_from sep k s'
      | O => if String.prefix sep s then EmptyString :: split_from sep (String.length sep - 1) s'
             else cons_hd a (split_from sep 0 s')
      end
  end.
Definition py_split (sep s : string) : list string := split_from sep 0 s.
