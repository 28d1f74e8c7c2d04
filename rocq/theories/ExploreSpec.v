(** * Truthful experts (specification) *)
From Verif Require Import Py Spec DgSpec ContextModel ExplModel ExploreModel.

(** The expert knows a domain whose intents are the closed sets of [cl] on subsets of
    [M].  It calls an implication valid when it is, and otherwise gives examples
    from the domain under new names, the first of which refutes the implication. *)
Definition answers (M : gset name) (cl : gset name → gset name) (used : list name) (i : fimp) (a : answer) : Prop :=
  match a with
  | Valid => i.2 ⊆ cl i.1
  | Counter es Xs => NoDup es ∧ (∀ o, o ∈ es → o ∉ used) ∧ length es = length Xs ∧
      (∀ X, X ∈ Xs → cl (X ∩ M) = X ∩ M) ∧ ∃ X Xs', Xs = X :: Xs' ∧ ¬ respects X i
  end.
Definition truthful (M : gset name) (cl : gset name → gset name) (expert : nat → edb → fimp → res answer) : Prop :=
  ∀ k d i, i.1 ⊆ M → i.2 ⊆ M → ∃ a, expert k d i = Ok a ∧ answers M cl (objs (dcxt d)) i a.

(** The same for the person asked by the loop over a session. *)
Definition truthful_person (M : gset name) (cl : gset name → gset name) (intent : name → gset name)
    (person : nat → xpl → fimp → res (option name)) : Prop :=
  ∀ k x i, i.1 ⊆ M → i.2 ⊆ M → ∃ a, person k x i = Ok a ∧
    match a with
    | None => i.2 ⊆ cl i.1
    | Some o => o ∉ objs (xcxt x) ∧ cl (intent o ∩ M) = intent o ∩ M ∧ ¬ respects (intent o) i
    end.

(** 1 * 2 * ... * [k]. *)
Definition factorial_of (k : nat) : Z := foldr (λ m f, (Z.of_nat m * f)%Z) 1%Z (seq 1 k).
