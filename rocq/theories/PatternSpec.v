(** * Pattern exploration (specification) *)
From Verif Require Import Py Spec ContextModel ContextSpec PatternModel.

(** Object [g] has all attributes of [P]. *)
Definition has_all (c : context) (g : name) (P : gset name) : Prop := ∀ m, m ∈ P → incident c g m.
(** Object [g] has every attribute of the context. *)
Definition is_full (c : context) (g : name) : Prop := ∀ m, m ∈ atts c → incident c g m.

(** Some positive object with the attributes of [P] is not full. *)
Definition occurs (c : context) (P : gset name) : Prop := ∃ g, g ∈ objs c ∧ has_all c g P ∧ ¬ is_full c g.

(** Calls with new object names. *)
Definition pattern_call (s : pexp) (o : pop) : Prop :=
  match o with
  | PConfirm _ => True
  | PNegative o _ _ => o ∉ objs (pneg s)
  | PPositive o _ => o ∉ objs (ppos s)
  end.
(** The states reached from a pair of contexts, failed calls included. *)
Inductive preach (cp cn : context) : pexp → Prop :=
  | preach_new s : new_patterns cp cn = Ok s → preach cp cn s
  | preach_step s o : preach cp cn s → pattern_call s o → preach cp cn (pstep o s).1.

(** [l] contains just the objects (in the order of the context) satisfying [P], with their intents. *)
Definition lists_objects (c : context) (P : name → Prop) (l : list (name * gset name)) : Prop :=
  map fst l `sublist_of` objs c ∧
  ∀ o X, (o, X) ∈ l ↔ o ∈ objs c ∧ P o ∧ ∀ m, m ∈ X ↔ incident c o m.
(** Object [o] is explained by a confirmed pattern. *)
Definition explained (s : pexp) (o : name) : Prop := ∃ P, P ∈ pconf s ∧ has_all (ppos s) o P.
