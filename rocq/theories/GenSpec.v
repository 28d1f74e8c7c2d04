(** * Specification: a context that changes while it is being used

    [rows_in] refers to no Python code; [pmoves] to the methods of PatternModel.v. *)
From Verif Require Import Py Spec ContextModel PatternModel PatternSpec.

(** Every object of [K] has a twin in [L], an object with the same attributes. *)
Definition rows_in (K L : fctx) : Prop :=
  ∀ g, g ∈ fG K → ∃ h, h ∈ fG L ∧ ∀ m, (g, m) ∈ fI K ↔ (h, m) ∈ fI L.

(** Calls of the methods of a pattern exploration that change its state, failed calls
    included, with new object names. *)
Definition pmoves : pexp → pexp → Prop := rtc (λ s s', ∃ o, pattern_call s o ∧ s' = (pstep o s).1).
