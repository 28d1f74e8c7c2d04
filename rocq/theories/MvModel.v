(** * Many-valued contexts, scales and scaling: /repo/fca/mvcontext.py,
    /repo/fca/scale.py, /repo/fca/algorithms/scaling.py *)
From Verif Require Import Py ContextModel.

(** ** mvcontext.py *)
(** Lines 46-56.  [truth] is Python's truth value of a cell: [np.array(table,
    dtype=bool)] (context.py line 245) keeps nothing else.  The table is a list of
    lists. *)
Definition new_mv {V} (truth : V → bool) (t : list (list V)) (os ats : list name) : res context :=
  mk_context (map (map truth) t) None os ats.

(** Lines 79-82 and 121-122: [self.table] is [cross_table], a list of lists. *)
Definition mv_row (c : context) (i : nat) : res (list bool) := get_or IndexError (cross c !! i).
Definition mv_cell (c : context) (i j : nat) : res bool := r ← mv_row c i; get_or IndexError (r !! j).

(** context.py lines 368-382 inherited: [self.table.shape] does not exist for a
    list. *)
Definition mv_add_object (c : context) (row : list bool) (o : name) : upd context () := (c, Err AttributeError).
Definition mv_add_object_with_intent (c : context) (intent : gset name) (o : name) : upd context () :=
  mv_add_object c (map (fun a => bool_decide (a ∈ intent)) (atts c)) o.
(** context.py lines 361-366 inherited; the new column holds numbers or truth values. *)
Definition mv_add_attribute {V} (truth : V → bool) (c : context) (col : list V) (a : name) : upd context () :=
  add_attribute c (map truth col) a.

(** context.py lines 572-582 with [self[i][j]] from mvcontext.py; then lines 84-88. *)
Definition mv_extract_subcontext (c : context) (names : list name) : res context :=
  _ ← check_attribute_names c names;
  inds ← mapM (fun a => py_index a (atts c)) names;
  t ← mapM (fun i => mapM (fun j => mv_cell c i j) inds) (seq 0 (length (cross c)));
  mk_context t None (objs c) names.

(** context.py lines 584-595; then lines 90-100.  [cond] does not raise. *)
Definition mv_extract_by_condition (c : context) (cond : nat → bool) : res context :=
  let inds := List.filter cond (seq 0 (length (cross c))) in
  os ← mapM (oname c) inds;
  t ← mapM (mv_row c) inds;
  mk_context t None os (atts c).

(** context.py lines 614-627: [eqv b v] is Python's [b == v]. *)
Fixpoint mv_has_values {V} (eqv : bool → V → bool) (c : context) (i : nat) (vals : list (name * V)) : res bool :=
  match vals with
  | [] => Ok true
  | (a, v) :: vals' => j ← py_index a (atts c);
                       b ← mv_cell c i j;
                       if eqv b v then mv_has_values eqv c i vals' else Ok false
  end.
(** context.py lines 597-612 in mode "and"; then lines 102-111.  [vals] is the
    dictionary as an association list. *)
Definition mv_extract_by_values {V} (eqv : bool → V → bool) (c : context) (vals : list (name * V)) : res context :=
  _ ← check_attribute_names c (map fst vals);
  inds ← filterM (fun i => mv_has_values eqv c i vals) (seq 0 (length (cross c)));
  os ← mapM (oname c) inds;
  t ← mapM (mv_row c) inds;
  mk_context t None os (atts c).

(** ** scale.py *)
(** Lines 24-28: the table handed over is the numpy array. *)
Definition new_scale (c : context) : res context := mk_context (np c) (npz c) (objs c) (atts c).

(** Lines 57-75. *)
Definition value_eq (z : Z) : name := NStr ("value == " ++ pystr (NInt z)).
Definition op_name (op : string) (z : Z) : name := NStr (op ++ pystr (NInt z)).
Definition ordinal_scale (lo hi : Z) (mode : string) : res context :=
  let values := seqZ lo (hi + 1 - lo) in
  let n := length values in
  c ← (if String.eqb mode "geq"
       then let attributes := map (op_name ">= ") (drop 1 values) in
            mk_context (map (fun i => replicate i true ++ replicate (length attributes - i) false) (seq 0 n)) None
                       (map value_eq values) attributes
       else let attributes := map (op_name "<= ") (take (n - 1) values) in
            mk_context (map (fun i => replicate i false ++ replicate (length attributes - i) true) (seq 0 n)) None
                       (map value_eq values) attributes);
  new_scale c.

(** Lines 31-54 for a ManyValuedContext, whose cells are truth values: [float] gives
    1.0 or 0.0.  An attribute that is not a string is taken as an index.  [ord] is the
    order of iteration over the set of values. *)
Definition float_str (b : bool) : string := if b then "1.0" else "0.0".
Definition scale_index (a : name) (c : context) : res (list bool → res bool) :=
  match a with
  | NStr _ => j ← py_index a (atts c); Ok (fun r => get_or IndexError (r !! j))
  | NInt z => Ok (fun r => if (0 <=? z)%Z then get_or IndexError (r !! Z.to_nat z)
                           else if (- z <=? Z.of_nat (length r))%Z
                           then get_or IndexError (r !! (length r - Z.to_nat (- z))%nat)
                           else Err IndexError)
  end.
Definition nominal_scale (ord : gset bool → list bool) (a : name) (c : context) : res context :=
  get ← scale_index a c;
  cells ← mapM get (cross c);
  let values := ord (list_to_set cells) in
  let n := length values in
  d ← mk_context (map (fun i => <[i := true]> (replicate n false)) (seq 0 n)) None
                 (map (fun v => NStr ("value == " ++ float_str v)) values)
                 (map (fun v => NStr (float_str v)) values);
  new_scale d.

(** ** scaling.py *)
Fixpoint foldM {A S} (f : A → S → res S) (l : list A) (s : S) : res S :=
  match l with [] => Ok s | a :: l' => s' ← f a s; foldM f l' s' end.

(** Line 54: [eval] of the name of an object of the scale; [ev e v] is the truth of
    expression [e] with [value] bound to [v], or the exception it raises.  Expressions
    have no side effects. *)
Definition eval_name {V} (ev : string → V → res bool) (e : name) (v : V) : res bool :=
  match e with NStr s => ev s v | NInt _ => Err TypeError end.

Section scaling.
  (** The many-valued context: names and cells, the latter after lines 50-53. *)
  Context {V : Type} (ev : string → V → res bool) (mos mats : list name) (mcell : nat → nat → res V).

  (** Lines 47-55. *)
  Definition scale_cell (scale : context) (ai col row : nat) (o : nat) (d : list bool) : res (list bool) :=
    x ← get_or IndexError (d !! o);
    if (x : bool) then Ok d
    else v ← mcell o ai;
         e ← oname scale row;
         b ← eval_name ev e v;
         if (b : bool) then y ← cell scale row col; Ok (<[o := y]> d) else Ok d.
  (** Lines 44-55. *)
  Definition derived_attr (scale : context) (ai col : nat) : res (list bool) :=
    foldM (fun row d => foldM (scale_cell scale ai col row) (seq 0 (length mos)) d)
          (seq 0 (length (objs scale))) (replicate (length mos) false).
  (** Lines 56-57: joining anything but strings raises TypeError. *)
  Definition join_names (a s : name) : res name :=
    match a, s with NStr x, NStr y => Ok (NStr (x ++ ":" ++ y)) | _, _ => Err TypeError end.
  (** Lines 44-58. *)
  Definition scale_column (scale : context) (ai col : nat) (c : context) : res context :=
    d ← derived_attr scale ai col;
    a ← get_or IndexError (mats !! ai);
    s ← aname scale col;
    n ← join_names a s;
    let '(c', r) := add_attribute c d n in
    _ ← r; Ok c'.
  (** Lines 42-58. *)
  Definition scale_attribute (scales : list context) (ai : nat) (c : context) : res context :=
    scale ← get_or IndexError (scales !! ai);
    foldM (fun col c => scale_column scale ai col c) (seq 0 (length (atts scale))) c.
  (** Lines 39-59. *)
  Definition scale_context (scales : list context) : res context :=
    c ← mk_context (map (fun _ => []) mos) None mos [];
    foldM (scale_attribute scales) (seq 0 (length mats)) c.
End scaling.

(** Scaling a ManyValuedContext: the values are [float(True)] and [float(False)]. *)
Definition scale_mvcontext (ev : string → bool → res bool) (c : context) (scales : list context) : res context :=
  scale_context ev (objs c) (atts c) (mv_cell c) scales.
