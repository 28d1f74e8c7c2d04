(** * What minimizing a cover should print *)
From stdpp Require Import pretty.
From Verif Require Import Py.

(** Sizes that stay or go down by one. *)
Fixpoint going_down (n : nat) (ns : list nat) : Prop :=
  match ns with [] => True | m :: ns' => (m = n ∨ S m = n) ∧ going_down m ns' end.
(** The lines for these sizes, numbered from [i + 1]. *)
Definition minimize_lines (i : nat) (ns : list nat) : list string :=
  mjoin (imap (λ k n, ["maximizing premise  " ++ pretty (S (i + k)); "(" ++ pretty n ++ ", 'implications')"]%string) ns).
