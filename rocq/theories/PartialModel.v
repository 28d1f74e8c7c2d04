(** * Model of fca/partial_context.py, fca/compare_context.py and of
      [compute_partial_dg_basis]

    Line numbers refer to /repo/fca/partial_context.py unless another file is named. *)
From Verif Require Import Py Spec ContextModel ClosureModel DgModel.
Local Open Scope string_scope.

(** compare_context.py 4-28: [subseteq_table].  [arr] tells whether the tables are
    numpy arrays or lists: the index [i / row_length] of line 23 is a float, which
    lists refuse with TypeError and arrays with IndexError, so that the body of the
    loop never gets further than the first cell.  [len(table_left[0])] of line 21
    needs a row. *)
Definition subseteq_table (arr : bool) (l r : list (list bool)) : res bool :=
  if negb (length l =? length r)%nat then Err ValueError
  else match l, r with
       | rl :: _, rr :: _ =>
           if negb (length rl =? length rr)%nat then Err ValueError
           else if (length l * length rl =? 0)%nat then Ok true
           else Err (if arr then IndexError else TypeError)
       | _, _ => Err IndexError
       end.

(** Instance variables (lines 32-35). *)
Record pcontext := PCxt {
  p_objs : list name;
  p_atts : list name;
  px : context;
  pq : context }.

(** Lines 16-35.  The tables have rows when [mk_context] is reached. *)
Definition new_partial (arr : bool) (xt qt : list (list bool)) (os ats : list name) : res pcontext :=
  b ← subseteq_table arr xt qt;
  if (b : bool) then
    x ← mk_context xt None os ats;
    q ← mk_context qt None os ats;
    Ok (PCxt os ats x q)
  else Err ValueError.

(** Lines 37-41. *)
Definition p_deepcopy (p : pcontext) : res pcontext :=
  new_partial true (np (px p)) (np (pq p)) (p_objs p) (p_atts p).

(** Lines 43-57.  The two tables are filled alternately; reading either raises
    IndexError only. *)
Definition p_transpose (p : pcontext) : res pcontext :=
  let side c := mapM (λ j, mapM (λ i, cell c i j) (seq 0 (length (p_objs p)))) (seq 0 (length (p_atts p))) in
  xt ← side (px p);
  qt ← side (pq p);
  new_partial false xt qt (p_atts p) (p_objs p).

(** Lines 68-77. *)
Definition intent_to_str (p : pcontext) (x q : gset name) : string :=
  String.concat "" (map (λ a, if bool_decide (a ∈ x) then "X" else if bool_decide (a ∈ q) then "?" else ".") (p_atts p)).
(** Lines 121-124: the list produced by exhausting [intents()]. *)
Definition p_intents (p : pcontext) : res (list (gset name * gset name)) :=
  mapM (λ o, x ← get_object_intent (px p) o; q ← get_object_intent (pq p) o; Ok (x, q)) (p_objs p).
(** Lines 59-66. *)
Definition nl : string := String (Ascii.ascii_of_nat 10) "".
Definition p_repr (p : pcontext) : res string :=
  l ← p_intents p;
  Ok (String.concat ", " (map pystr (p_atts p)) ++ nl ++ String.concat ", " (map pystr (p_objs p)) ++ nl
        ++ String.concat "" (map (λ xq, nl ++ intent_to_str p xq.1 xq.2) l)).

(** Lines 80-83.  The set of objects is iterated in the order given by [elements];
    the order only matters for which of several exceptions is raised. *)
Definition xq_aclosure (p : pcontext) (aset : gset name) : res (gset name) :=
  g ← fn_aprime (px p) (elements aset); fn_oprime (pq p) (elements g).

(** Lines 91-96.  When the second addition fails the first one stays. *)
Definition p_add_object_with_intent (p : pcontext) (intent : gset name * gset name) (o : name) : upd pcontext () :=
  if bool_decide (intent.1 ⊆ intent.2) then
    match add_object_with_intent (px p) intent.1 o with
    | (x, Err e) => (PCxt (p_objs p) (p_atts p) x (pq p), Err e)
    | (x, Ok _) =>
        match add_object_with_intent (pq p) intent.2 o with
        | (q, Err e) => (PCxt (p_objs p) (p_atts p) x q, Err e)
        | (q, Ok _) => (PCxt (p_objs p ++ [o]) (p_atts p) x q, Ok tt)
        end
    end
  else (p, Err ValueError).

(** Lines 107-111: the attributes that stay possible. *)
Fixpoint keep_possible (imps : list fimp) (nx qi : gset name) (l : list name) : res (list name) :=
  match l with
  | [] => Ok []
  | a :: l' =>
      b ← (if bool_decide (a ∈ nx) then Ok true
           else C ← simple_closure (nx ∪ {[a]}) imps; Ok (bool_decide (C ⊆ qi)));
      r ← keep_possible imps nx qi l';
      Ok (if (b : bool) then a :: r else r)
  end.
(** Lines 100-112: one object.  Printing (lines 114-118) omitted.  Sets are iterated
    in the order given by [elements]; the result does not depend on it. *)
Definition complete_object (imps : list fimp) (p : pcontext) (o : name) : upd pcontext () :=
  match (xi ← get_object_intent (px p) o;
         nx ← simple_closure xi imps;
         qi ← get_object_intent (pq p) o;
         if bool_decide (nx ⊆ qi) then Ok (nx, qi) else Err ValueError) with
  | Err e => (p, Err e)
  | Ok (nx, qi) =>
      match set_object_intent (px p) (elements nx) o with
      | (x, Err e) => (PCxt (p_objs p) (p_atts p) x (pq p), Err e)
      | (x, Ok _) =>
          match keep_possible imps nx qi (elements qi) with
          | Err e => (PCxt (p_objs p) (p_atts p) x (pq p), Err e)
          | Ok nq =>
              let '(q, r) := set_object_intent (pq p) nq o in
              (PCxt (p_objs p) (p_atts p) x q, r)
          end
      end
  end.
(** Lines 98-112: the loop over [self.objects], which no iteration changes. *)
Fixpoint complete_loop (imps : list fimp) (p : pcontext) (l : list name) : upd pcontext () :=
  match l with
  | [] => (p, Ok tt)
  | o :: l' =>
      match complete_object imps p o with
      | (p', Ok _) => complete_loop imps p' l'
      | r => r
      end
  end.
Definition p_complete (imps : list fimp) (p : pcontext) : upd pcontext () := complete_loop imps p (p_objs p).

(** dg_basis.py 42-54, called from lines 85-89 with the default arguments or with
    [confirmed] and [cond]. *)
Definition compute_partial_dg_basis (p : pcontext) (L0 : option (list fimp)) (cond : gset name → bool) : res (list fimp) :=
  generalized_compute_dg_basis (p_atts p) (xq_aclosure p) simple_close L0 cond.
