(** * What the log of the constructor should say *)
From Verif Require Import Py.

(** [ps] are the positions of [x] in [l], in increasing order. *)
Definition is_positions (l : list name) (x : name) (ps : list nat) : Prop :=
  StronglySorted lt ps ∧ ∀ i, i ∈ ps ↔ l !! i = Some x.
(** [x] occurs at two places of [l]. *)
Definition repeated (l : list name) (x : name) : Prop := ∃ i j, i ≠ j ∧ l !! i = Some x ∧ l !! j = Some x.
(** Some occurrence of [x] is before all occurrences of [y]. *)
Definition occurs_before (l : list name) (x y : name) : Prop :=
  ∃ i, l !! i = Some x ∧ ∀ j, l !! j = Some y → i < j.
(** Exactly the repeated names are reported, each once, with all its positions and in the order
    of first occurrences. *)
Definition reports (l : list name) (log : list (name * list nat)) : Prop :=
  (∀ x ps, (x, ps) ∈ log ↔ repeated l x ∧ is_positions l x ps) ∧
  StronglySorted (λ e e', occurs_before l e.1 e'.1) log.
(** [s] contains [u]. *)
Definition contains (u s : string) : Prop := ∃ a b, s = (a ++ u ++ b)%string.
(** The line that tells about one repeated name. *)
Definition rename_note (kind : string) (e : name * list nat) : string :=
  ("Not unique name of " ++ kind ++ " '" ++ pystr e.1 ++ "', renamed to '" ++ pystr e.1 ++ "_n', n \in [" ++
   String.concat ", " (map pretty e.2) ++ "]")%string.
