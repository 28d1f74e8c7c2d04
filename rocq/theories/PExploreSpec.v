(** * Truthful experts over partial contexts (specification) *)
From Verif Require Import Py Spec DgSpec ContextModel PartialModel PartialSpec PExploreModel.

(** A renaming of the attributes, applied to sets. *)
Definition mirror (s : name → name) (X : gset name) : gset name := set_map s X.
(** [s] is a symmetry of the domain whose intents are the closed sets of [cl]. *)
Record symmetry (M : gset name) (cl : gset name → gset name) (s : name → name) : Prop := {
  sy_in : ∀ m, m ∈ M → s m ∈ M;
  sy_twice : ∀ m, m ∈ M → s (s m) = m;
  sy_cl : ∀ X, X ⊆ M → cl X = X → cl (mirror s X) = mirror s X }.

(** [C] and [P] bound the intent of an object of the domain. *)
Definition bounds (M : gset name) (cl : gset name → gset name) (X : gset name * gset name) : Prop :=
  X.2 ⊆ M ∧ ∃ Y, X.1 ⊆ Y ∧ Y ⊆ X.2 ∧ cl Y = Y.
(** With an implication, its mirror image is there (possibly with a shorter conclusion). *)
Definition mirrored_imps (s : name → name) (l : list fimp) : Prop :=
  ∀ j, j ∈ l → ∃ j', j' ∈ l ∧ j'.1 = mirror s j.1 ∧ mirror s j.2 ⊆ j'.1 ∪ j'.2.
Definition mirrored_pairs (s : name → name) (l : list (gset name * gset name)) : Prop :=
  ∀ X, X ∈ l → (mirror s X.1, mirror s X.2) ∈ l.

(** The answers of a truthful expert: implications valid in the domain, with the one
    asked about, or new examples from the domain, possibly partial, the first of which
    has the premise and lacks a part of the conclusion for certain.  Everything comes
    with its mirror image. *)
Definition panswers (M : gset name) (cl : gset name → gset name) (s : name → name) (used : list name) (i : fimp) (a : panswer) : Prop :=
  match a with
  | PValid l => i ∈ l ∧ (∀ j, j ∈ l → j.1 ⊆ M ∧ j.2 ⊆ M ∧ j.2 ⊆ cl j.1) ∧ mirrored_imps s l
  | PCounter es Xs => NoDup es ∧ (∀ o, o ∈ es → o ∉ used) ∧ length es = length Xs ∧
      (∀ X, X ∈ Xs → bounds M cl X) ∧ mirrored_pairs s Xs ∧ ∃ X Xs', Xs = X :: Xs' ∧ i.1 ⊆ X.1 ∧ ¬ i.2 ⊆ X.2
  end.
Definition ptruthful (M : gset name) (cl : gset name → gset name) (s : name → name)
    (expert : nat → pdb → fimp → res panswer) : Prop :=
  ∀ k d i, i.1 ⊆ M → i.2 ⊆ M → ∃ a, expert k d i = Ok a ∧ panswers M cl s (p_objs (pd_cxt d)) i a.

(** The rows of a partial context. *)
Definition prow (p : pcontext) (g : name) : gset name * gset name := (row (px p) g, row (pq p) g).
Definition rows (p : pcontext) : list (gset name * gset name) := map (prow p) (p_objs p).
