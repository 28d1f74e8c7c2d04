(** * Truthful use of a BasicExploration (specification) *)
From Verif Require Import Py Spec DgSpec ContextModel ClosureModel AiModel ExplModel ExplSpec.

(** A question about attributes is answered truthfully with respect to a domain whose
    intents are the closed sets of [cl]: a valid open implication is confirmed, or an
    example of the domain that refutes an open implication is added under a new name. *)
Definition answer_attr (M : gset name) (cl : gset name → gset name) (s : bexp) (o : bop) : Prop :=
  match o with
  | BConfirmAttr k => ∃ i, item (battr s) k i ∧ i.2 ⊆ cl i.1
  | BCounterAttr o X k => o ∉ objs (bcxt s) ∧ comparable (o :: objs (bcxt s)) = true ∧ cl (X ∩ M) = X ∩ M ∧
      ∃ i, item (battr s) k i ∧ ¬ respects X i
  | _ => False
  end.
(** What else may happen meanwhile: examples of the domain are added, object implications confirmed. *)
Definition aside_attr (M : gset name) (cl : gset name → gset name) (s : bexp) (o : bop) : Prop :=
  match o with
  | BAddObject X o => o ∉ objs (bcxt s) ∧ comparable (o :: objs (bcxt s)) = true ∧ cl (X ∩ M) = X ∩ M
  | BConfirmObj _ => True
  | _ => False
  end.
(** The same for questions about objects; a domain of possible extents. *)
Definition answer_obj (G : gset name) (cl : gset name → gset name) (s : bexp) (o : bop) : Prop :=
  match o with
  | BConfirmObj k => ∃ i, item (bobj s) k i ∧ i.2 ⊆ cl i.1
  | BCounterObj a X k => a ∉ atts (bcxt s) ∧ comparable (a :: atts (bcxt s)) = true ∧ cl (X ∩ G) = X ∩ G ∧
      ∃ i, item (bobj s) k i ∧ ¬ respects X i
  | _ => False
  end.
Definition aside_obj (G : gset name) (cl : gset name → gset name) (s : bexp) (o : bop) : Prop :=
  match o with
  | BAddAttribute X a => a ∉ atts (bcxt s) ∧ comparable (a :: atts (bcxt s)) = true ∧ cl (X ∩ G) = X ∩ G
  | BConfirmAttr _ => True
  | _ => False
  end.
(** The states that can be reached over [c0] with [n] answers and calls aside. *)
Inductive asked (answer aside : bexp → bop → Prop) (c0 : context) : nat → bexp → Prop :=
  | asked_new sa so s : sorts sa → sorts so → new_exploration sa so c0 = Ok s → asked answer aside c0 0 s
  | asked_answer sa so n s o : sorts sa → sorts so → asked answer aside c0 n s → answer s o →
      asked answer aside c0 (S n) (bstep sa so o s).1
  | asked_aside sa so n s o : sorts sa → sorts so → asked answer aside c0 n s → aside s o →
      asked answer aside c0 n (bstep sa so o s).1.
