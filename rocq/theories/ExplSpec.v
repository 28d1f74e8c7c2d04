(** * Histories of explorations (specification) *)
From Verif Require Import Py Spec ContextModel ClosureModel AiModel ExplModel.

(** A sorting function returns the elements it is given. *)
Definition sorts (s : nat → list pre → list pre) : Prop := ∀ i l, s i l ≡ₚ l.

(** The states a BasicExploration over [c0] can get into when every call is one
    that [allow] permits in the state in which it is made.  Calls that raise are
    included: the caller catches the exception and goes on. *)
Inductive breach (allow : bexp → bop → Prop) (c0 : context) : bexp → Prop :=
  | breach_new sa so s : sorts sa → sorts so → new_exploration sa so c0 = Ok s → breach allow c0 s
  | breach_step sa so s o : sorts sa → sorts so → breach allow c0 s → allow s o →
      breach allow c0 (bstep sa so o s).1.

(** New objects have new names. *)
Definition fresh_objects (s : bexp) (o : bop) : Prop :=
  match o with
  | BCounterAttr o _ _ | BAddObject _ o => o ∉ objs (bcxt s)
  | _ => True
  end.
(** New attributes have new names, comparable with the old ones. *)
Definition fresh_attributes (s : bexp) (o : bop) : Prop :=
  match o with
  | BCounterObj a _ _ | BAddAttribute _ a => a ∉ atts (bcxt s) ∧ comparable (a :: atts (bcxt s)) = true
  | _ => True
  end.
Definition comparable_objects (s : bexp) (o : bop) : Prop :=
  match o with
  | BCounterAttr o _ _ | BAddObject _ o => comparable (o :: objs (bcxt s)) = true
  | _ => True
  end.
Definition is_edit_attribute (o : bop) : Prop := match o with BEditAttribute _ _ => True | _ => False end.
Definition is_edit_object (o : bop) : Prop := match o with BEditObject _ _ => True | _ => False end.

(** All calls, with fresh names. *)
Definition any_call (s : bexp) (o : bop) : Prop := fresh_objects s o ∧ fresh_attributes s o.
(** All calls but [edit_attribute]. *)
Definition attr_call (s : bexp) (o : bop) : Prop := any_call s o ∧ ¬ is_edit_attribute o.
(** The same with comparable object names; all calls, and all but [edit_object]. *)
Definition any_call2 (s : bexp) (o : bop) : Prop := any_call s o ∧ comparable_objects s o.
Definition obj_call (s : bexp) (o : bop) : Prop := any_call2 s o ∧ ¬ is_edit_object o.

(** Every implication over the attributes that holds in [K] follows from [L]. *)
Definition complete (K : fctx) (L : list fimp) : Prop :=
  ∀ i, i.1 ⊆ fM K → i.2 ⊆ fM K → holds K i → entails L i.
(** All implications of [L] are over the attributes of [K]. *)
Definition within (K : fctx) (L : list fimp) : Prop := ∀ i, i ∈ L → i.1 ⊆ fM K ∧ i.2 ⊆ fM K.
Definition valid (K : fctx) (L : list fimp) : Prop := ∀ i, i ∈ L → holds K i.

(** ** Histories of an ExplorationDB *)
(** [ords] lists the elements of the sets it is given. *)
Definition lists_sets (ords : gset name → list fimp → nat → gset name → list name) : Prop :=
  ∀ s L k X, ords s L k X ≡ₚ elements X.
(** No two entries of the list are equal implications. *)
Definition no_repeats (L : list fimp) : Prop :=
  ∀ p q i j, L !! p = Some i → L !! q = Some j → p ≠ q → imp_eqb i j = false.
(** The expert confirms open implications only, and new names are comparable with
    the old ones and not in use where the database does not check it. *)
Definition db_call (d : edb) (o : dop) : Prop :=
  match o with
  | DConfirm i => i ∈ dopen d
  | DEditExample o old _ => o = old ∨ o ∉ objs (dcxt d)
  | DAddAttribute a _ => comparable (a :: atts (dcxt d)) = true
  | DEditAttribute a old _ => a = old ∨ (a ∉ atts (dcxt d) ∧ comparable (a :: atts (dcxt d)) = true)
  | _ => True
  end.
Inductive dreach (c0 : context) (L0 : list fimp) : edb → Prop :=
  | dreach_new ords d : lists_sets ords → new_db ords c0 L0 (λ _, true) = Ok d → dreach c0 L0 d
  | dreach_step ords d o : lists_sets ords → dreach c0 L0 d → db_call d o → dreach c0 L0 (dstep ords o d).1.

(** The attributes with a cross in a row. *)
Definition row_set (ats : list name) (r : list bool) : gset name :=
  list_to_set (map fst (filter (λ p : name * bool, p.2 = true) (zip ats r))).
(** A call on the sessions that creates none. *)
Definition no_create (o : xop) : Prop := match o with XCreate => False | _ => True end.
(** [l[k]] in Python is [i]. *)
Definition item {A} (l : list A) (k : Z) (i : A) : Prop :=
  ((0 <= k)%Z ∧ l !! Z.to_nat k = Some i) ∨
  ((k < 0)%Z ∧ (0 <= k + Z.of_nat (length l))%Z ∧ l !! Z.to_nat (k + Z.of_nat (length l)) = Some i).
