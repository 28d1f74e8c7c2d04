(** * Model of the memoising decorators of fca/context.py (lines 68-110) and of
    get_object_implications (lines 307-316) *)
From Verif Require Import Py Spec ContextModel ContextOps ClosureModel DgModel.

(** The dictionary [_f.cache] of one wrapper made by [memo] (lines 68-84), for
    the getters called with one index. *)
Notation cache := (gmap nat (gset name)).

(** A context together with the wrappers installed on the instance as
    [get_object_intent_by_index] and [get_attribute_extent_by_index], outermost
    first; [[]] when the attribute is the method itself.  [obasis] is
    [_obj_imp_basis] ([None] is kept as the empty list: only its truth value is
    inspected before it is replaced, lines 312-313). *)
Record mcxt := MCxt {
  mc : context;
  ilayers : list cache;
  elayers : list cache;
  obasis : list fimp }.
(** A newly built context. *)
Definition fresh (c : context) : mcxt := MCxt c [] [] [].

(** Lines 73-81: the wrapper [_f]; [base] is the result of the method.  Only
    values are stored, exceptions propagate.  The stored sets are not modified
    by their readers (they are only read or combined into new sets). *)
Fixpoint memo_read (base : res (gset name)) (layers : list cache) (i : nat) : res (gset name) * list cache :=
  match layers with
  | [] => (base, [])
  | l :: ls =>
      match l !! i with
      | Some v => (Ok v, l :: ls)
      | None => match memo_read base ls i with
                | (Ok v, ls') => (Ok v, <[i := v]> l :: ls')
                | (Err e, ls') => (Err e, l :: ls')
                end
      end
  end.
(** [self.get_object_intent_by_index(i)] and [self.get_attribute_extent_by_index(j)]. *)
Definition read_intent (m : mcxt) (i : nat) : mcxt * res (gset name) :=
  let '(r, ls) := memo_read (get_object_intent_by_index (mc m) i) (ilayers m) i in
  (MCxt (mc m) ls (elayers m) (obasis m), r).
Definition read_extent (m : mcxt) (j : nat) : mcxt * res (gset name) :=
  let '(r, ls) := memo_read (get_attribute_extent_by_index (mc m) j) (elayers m) j in
  (MCxt (mc m) (ilayers m) ls (obasis m), r).
(** Lines 339-341 and 352-354: by name. *)
Definition m_object_intent (m : mcxt) (o : name) : mcxt * res (gset name) :=
  match oind (mc m) o with Err e => (m, Err e) | Ok i => read_intent m i end.
Definition m_attribute_extent (m : mcxt) (a : name) : mcxt * res (gset name) :=
  match aind (mc m) a with Err e => (m, Err e) | Ok j => read_extent m j end.

(** A computation over a context that inspects rows and columns through the two
    getters only, in any adaptive way, and returns or raises.  The names, which
    the wrappers do not touch, are fixed during the computation. *)
Inductive prog (A : Type) :=
  | Ret (r : res A)
  | ReadI (i : nat) (k : res (gset name) → prog A)
  | ReadE (j : nat) (k : res (gset name) → prog A).
Arguments Ret {A}. Arguments ReadI {A}. Arguments ReadE {A}.
Fixpoint exec {A} (p : prog A) (m : mcxt) : mcxt * res A :=
  match p with
  | Ret r => (m, r)
  | ReadI i k => let '(m', r) := read_intent m i in exec (k r) m'
  | ReadE j k => let '(m', r) := read_extent m j in exec (k r) m'
  end.

(** Lines 97-110: wrap both getters, run, and restore them only if no exception
    was raised. *)
Definition push (m : mcxt) : mcxt := MCxt (mc m) (∅ :: ilayers m) (∅ :: elayers m) (obasis m).
Definition pop (m : mcxt) : mcxt := MCxt (mc m) (tail (ilayers m)) (tail (elayers m)) (obasis m).
Definition basis_computation {A} (m : mcxt) (f : mcxt → mcxt * res A) : mcxt * res A :=
  let '(m', r) := f (push m) in
  match r with Ok _ => (pop m', r) | Err _ => (m', r) end.

(** Lines 307-314 with [basis=compute_dg_basis]; [confirmed] is [None] by
    default.  The transposed context is a new instance without wrappers. *)
Definition get_object_implications (m : mcxt) ords (confirmed : option (list fimp)) : mcxt * res (list fimp) :=
  basis_computation m (fun m =>
    match transpose (mc m) with
    | Err e => (m, Err e)
    | Ok t =>
        match obasis m with
        | [] => match compute_dg_basis t ords confirmed (fun _ => true) with
                | Err e => (m, Err e)
                | Ok R => (MCxt (mc m) (ilayers m) (elayers m) R, Ok R)
                end
        | R => (m, Ok R)
        end
    end).

(** What a program does to a context between construction and a read: mutators
    (which run [__init__] again and leave the wrappers alone), reads, basis
    computations, object implications. *)
Inductive mop :=
  | MMutate (o : op)
  | MReadI (i : nat)
  | MReadE (j : nat)
  | MBasis (p : prog (list fimp))
  | MObjImps (ords : gset name → list fimp → nat → gset name → list name) (confirmed : option (list fimp)).
(** The state after a call, and whether it raised. *)
Definition mstep (m : mcxt) (o : mop) : mcxt * bool :=
  match o with
  | MMutate o => (MCxt (step (mc m) o).1 (ilayers m) (elayers m) (obasis m), negb (is_ok (step (mc m) o).2))
  | MReadI i => let '(m', r) := read_intent m i in (m', negb (is_ok r))
  | MReadE j => let '(m', r) := read_extent m j in (m', negb (is_ok r))
  | MBasis p => let '(m', r) := basis_computation m (exec p) in (m', negb (is_ok r))
  | MObjImps ords conf => let '(m', r) := get_object_implications m ords conf in (m', negb (is_ok r))
  end.
(** The caller catches every exception and carries on. *)
Fixpoint mrun (m : mcxt) (l : list mop) : mcxt :=
  match l with [] => m | o :: l' => mrun (mstep m o).1 l' end.
