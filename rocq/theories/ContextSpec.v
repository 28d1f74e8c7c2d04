(** * What a context denotes, and well-formedness (no reference to the algorithms) *)
From Verif Require Import Py Spec ContextModel.

(** Object [g] has attribute [m]: some row named [g] has a cross in some column
    named [m]. *)
Definition incident (c : context) (g m : name) : Prop :=
  ∃ i j r, objs c !! i = Some g ∧ atts c !! j = Some m ∧
           np c !! i = Some r ∧ r !! j = Some true.

(** The formal context (two sets and a relation) denoted by a [context]. *)
Definition abs (c : context) : fctx :=
  Fctx (list_to_set (objs c)) (list_to_set (atts c))
       (list_to_set (concat (zip_with
          (fun g r => map (fun p => (g, p.1)) (filter (fun p : name * bool => p.2 = true) (zip (atts c) r)))
          (objs c) (np c)))).

(** Internal consistency: rectangular table matching the name lists, lookup
    tables pointing at the (last) position of each name. *)
Record wf (c : context) : Prop := Wf {
  wf_rows : length (np c) = length (objs c);
  wf_cols : ∀ i r, np c !! i = Some r → length r = length (atts c);
  wf_cross : cross c = np c;
  wf_oidx : ∀ x, is_Some (oidx c !! x) ↔ x ∈ objs c;
  wf_oidx_pos : ∀ x i, oidx c !! x = Some i → objs c !! i = Some x;
  wf_aidx : ∀ x, is_Some (aidx c !! x) ↔ x ∈ atts c;
  wf_aidx_pos : ∀ x i, aidx c !! x = Some i → atts c !! i = Some x }.

(** No repeated names. *)
Definition distinct (c : context) : Prop := NoDup (objs c) ∧ NoDup (atts c).

(** The numpy shape is usable: excludes only contexts without objects whose
    table is a (0,k) array with k smaller than the number of attributes (these
    arise from [add_attribute] on a context without objects). *)
Definition shape_ok (c : context) : Prop :=
  np c = [] → match npz c with None => True | Some k => length (atts c) ≤ k end.

Record good (c : context) : Prop := Good {
  good_wf : wf c;
  good_distinct : distinct c;
  good_shape : shape_ok c }.

(** Decidable version used for concrete contexts. *)
Definition cellb (c : context) (i j : nat) : option bool := r ← np c !! i; r !! j.
