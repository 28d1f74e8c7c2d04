(** * Substrings (no reference to the code) *)
From Verif Require Import Py.

Definition str_contains (sub s : string) : Prop := ∃ a b, s = (a ++ sub ++ b)%string.
