(** * Python values, exceptions and container helpers shared by all models

    Conventions (see DESIGN.md): object and attribute names are Python strings
    or ints; sets are [gset]; exceptions are values of [exn]. *)
From stdpp Require Export gmap strings pretty sorting numbers list.

(** Hashable names used by the library (strings, ints). *)
Inductive name := NStr (s : string) | NInt (z : Z).

Global Instance name_eq_dec : EqDecision name.
Proof. solve_decision. Defined.

Global Program Instance name_countable : Countable name :=
  inj_countable
    (fun n => match n with NStr s => inl s | NInt z => inr z end)
    (fun x => match x with inl s => Some (NStr s) | inr z => Some (NInt z) end) _.
Next Obligation. by intros []. Qed.

(** Python's [str(x)]. *)
Definition pystr (n : name) : string :=
  match n with NStr s => s | NInt z => pretty z end.

(** Exceptions.  [OutOfFuel] is not a Python exception: it marks a loop that
    used up the fuel of the model.  [Unmodelled] marks behaviour depending on
    the numpy version. *)
Inductive exn :=
  | ValueError | KeyError | IndexError | AxisError | TypeError | AssertionError
  | ZeroDivisionError | AttributeError | UnboundLocalError | NameError | SyntaxError
  | CsvError | StopIteration
  | MultiplicationException | NotUniqueElementException
  | IncorrectAttributeException | IncorrectElementException
  | UserException (code : nat)
  | OutOfFuel | Unmodelled.

Global Instance exn_eq_dec : EqDecision exn.
Proof. solve_decision. Defined.

Inductive res (A : Type) := Ok (a : A) | Err (e : exn).
Arguments Ok {A} a.
Arguments Err {A} e.

Global Instance res_eq_dec `{EqDecision A} : EqDecision (res A).
Proof. solve_decision. Defined.

Global Instance res_ret : MRet res := @Ok.
Global Instance res_bind : MBind res := fun A B f r =>
  match r with Ok a => f a | Err e => Err e end.
Global Instance res_fmap : FMap res := fun A B f r =>
  match r with Ok a => Ok (f a) | Err e => Err e end.

Definition is_ok {A} (r : res A) : bool := match r with Ok _ => true | Err _ => false end.

(** A lookup that raises [e] when the key/index is absent. *)
Definition get_or {A} (e : exn) (o : option A) : res A :=
  match o with Some a => Ok a | None => Err e end.

(** Python list helpers. *)

(** [l.count(x)] *)
Definition py_count {A} `{EqDecision A} (x : A) (l : list A) : nat :=
  length (filter (fun y => y = x) l).

(** [l.index(x)]: first position, ValueError if absent. *)
Fixpoint py_index {A} `{EqDecision A} (x : A) (l : list A) : res nat :=
  match l with
  | [] => Err ValueError
  | y :: l' => if decide (y = x) then Ok 0
               else i ← py_index x l'; Ok (S i)
  end.

(** [{x: i for i, x in enumerate(l)}] (the last position wins). *)
Definition index_dict (l : list name) : gmap name nat :=
  foldl (fun d p => <[p.1 := p.2]> d) ∅ (imap (fun i x => (x, i)) l).

(** numpy's [v.nonzero()[0]] of a boolean vector. *)
Fixpoint nonzero_from (k : nat) (v : list bool) : list nat :=
  match v with
  | [] => []
  | b :: v' => if b then k :: nonzero_from (S k) v' else nonzero_from (S k) v'
  end.
Definition nonzero (v : list bool) : list nat := nonzero_from 0 v.

(** Insertion-ordered dictionaries as association lists without repeated keys. *)
Section dict.
  Context {K V : Type} `{EqDecision K}.
  Fixpoint dget (k : K) (d : list (K * V)) : option V :=
    match d with
    | [] => None
    | (k', v) :: d' => if decide (k' = k) then Some v else dget k d'
    end.
  (** [d[k] = v]: an existing key keeps its position. *)
  Fixpoint dset (k : K) (v : V) (d : list (K * V)) : list (K * V) :=
    match d with
    | [] => [(k, v)]
    | (k', v') :: d' => if decide (k' = k) then (k', v) :: d' else (k', v') :: dset k v d'
    end.
  (** [del d[k]] *)
  Fixpoint ddel (k : K) (d : list (K * V)) : list (K * V) :=
    match d with
    | [] => []
    | (k', v') :: d' => if decide (k' = k) then d' else (k', v') :: ddel k d'
    end.
  (** [dict(pairs)] *)
  Definition dict_of (l : list (K * V)) : list (K * V) :=
    foldl (fun d p => dset p.1 p.2 d) [] l.
End dict.

(** Order on names used by [sorted]; comparing a string with an int raises. *)
Definition is_str (n : name) : bool := match n with NStr _ => true | NInt _ => false end.
Definition name_leb (a b : name) : bool :=
  match a, b with
  | NStr s, NStr t => String.leb s t
  | NInt x, NInt y => Z.leb x y
  | NStr _, NInt _ => false
  | NInt _, NStr _ => true
  end.

(** All names of a list are mutually comparable. *)
Definition comparable (l : list name) : bool := forallb is_str l || forallb (fun n => negb (is_str n)) l.

Fixpoint insert_sorted {A} (leb : A -> A -> bool) (x : A) (l : list A) : list A :=
  match l with
  | [] => [x]
  | y :: l' => if leb x y then x :: y :: l' else y :: insert_sorted leb x l'
  end.
Definition isort {A} (leb : A -> A -> bool) (l : list A) : list A :=
  foldr (insert_sorted leb) [] l.

(** [sorted(l)]: TypeError when strings and ints are mixed (every comparison
    sort of such a list has to compare a string with an int). *)
Definition py_sorted (l : list name) : res (list name) :=
  if comparable l then Ok (isort name_leb l) else Err TypeError.

(** Results of calls on mutable objects: the state left behind and the outcome. *)
Definition upd (S A : Type) : Type := (S * res A)%type.
