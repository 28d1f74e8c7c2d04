(** * Model of fca/context.py (class Context)

    Line numbers refer to /repo/fca/context.py. *)
From Verif Require Import Py Spec.
Local Open Scope string_scope.

(** Instance variables set by [__init__] (lines 243-249).
    [np] is [np_table] as a list of rows.  A numpy array without rows has shape
    (0,) ([npz = None]) or (0,k) ([npz = Some k]); [npz] is irrelevant when
    [np] is non-empty.  [cross] is [cross_table]. *)
Record context := Cxt {
  objs : list name;
  atts : list name;
  np : list (list bool);
  npz : option nat;
  cross : list (list bool);
  oidx : gmap name nat;
  aidx : gmap name nat }.

(** Lines 224-231 (attributes) and 234-241 (objects): one iteration of the
    renaming loop.  The list is mutated while being iterated, so the k-th
    iteration sees the current k-th entry.  Logging omitted. *)
Definition gen_name (a : name) (i : nat) : name := NStr (pystr a ++ "_" ++ pretty i).
Definition rename_dups_at (l : list name) (k : nat) : list name :=
  match l !! k with
  | None => l
  | Some a =>
      if (1 <? py_count a l)%nat
      then imap (fun i x => if decide (x = a) then gen_name a i else x) l
      else l
  end.

(** Lines 222-231 / 232-241. *)
Definition uniquify (l : list name) : list name :=
  if (size (list_to_set l : gset name) <? length l)%nat
  then foldl rename_dups_at l (seq 0 (length l))
  else l.

(** [np.array(cross_table, dtype=bool)] accepts only rectangular tables (numpy >= 1.24
    raises ValueError otherwise). *)
Definition rectangular (t : list (list bool)) : bool :=
  match t with
  | [] => true
  | r :: t' => forallb (fun r' => (length r' =? length r)%nat) t'
  end.

(** Lines 201-249, [Context.__init__].  [z] is the shape of the table argument
    when it has no rows ([None] for a Python list). *)
Definition mk_context (t : list (list bool)) (z : option nat) (os ats : list name)
  : res context :=
  if negb (length t =? length os)%nat then Err ValueError
  else if match t with [] => false | r :: _ => negb (length r =? length ats)%nat end
  then Err ValueError
  else if negb (rectangular t) then Err ValueError
  else let ats' := uniquify ats in
       let os' := uniquify os in
       Ok (Cxt os' ats' t (match t with [] => z | _ => None end) t
               (index_dict os') (index_dict ats')).

(** [self.__init__(...)] called from a mutator: on ValueError the instance keeps
    its previous fields.  (The ragged case, which would assign [_objects] and
    [_attributes] first, cannot occur here: all mutators pass numpy arrays or a
    single row.) *)
Definition reinit (c : context) (t : list (list bool)) (z : option nat)
    (os ats : list name) : upd context () :=
  match mk_context t z os ats with
  | Ok c' => (c', Ok tt)
  | Err e => (c, Err e)
  end.

(** numpy indexing [np_table[i, :]] and [np_table[:, j]]. *)
Definition np_row (c : context) (i : nat) : res (list bool) :=
  get_or IndexError (np c !! i).
Definition np_col (c : context) (j : nat) : res (list bool) :=
  match np c with
  | [] => match npz c with
          | None => Err IndexError
          | Some k => if (j <? k)%nat then Ok [] else Err IndexError
          end
  | rows => mapM (fun r => get_or IndexError (r !! j)) rows
  end.

(** Lookups [self.object_indices[x]], [self.attribute_indices[x]]. *)
Definition oind (c : context) (x : name) : res nat := get_or KeyError (oidx c !! x).
Definition aind (c : context) (x : name) : res nat := get_or KeyError (aidx c !! x).
(** [self.objects[i]], [self.attributes[i]]. *)
Definition oname (c : context) (i : nat) : res name := get_or IndexError (objs c !! i).
Definition aname (c : context) (i : nat) : res name := get_or IndexError (atts c !! i).

(** Lines 330-337. *)
Definition get_object_intent_by_index (c : context) (i : nat) : res (gset name) :=
  row ← np_row c i;
  l ← mapM (aname c) (nonzero row);
  Ok (list_to_set l).
(** Lines 339-341. *)
Definition get_object_intent (c : context) (o : name) : res (gset name) :=
  i ← oind c o; get_object_intent_by_index c i.
(** Lines 343-350. *)
Definition get_attribute_extent_by_index (c : context) (j : nat) : res (gset name) :=
  col ← np_col c j;
  l ← mapM (oname c) (nonzero col);
  Ok (list_to_set l).
(** Lines 352-354. *)
Definition get_attribute_extent (c : context) (a : name) : res (gset name) :=
  j ← aind c a; get_attribute_extent_by_index c j.

(** Lines 319-325: the list produced by exhausting [examples()] / [intents()]. *)
Definition examples (c : context) : res (list (gset name)) :=
  mapM (get_object_intent_by_index c) (seq 0 (length (objs c))).

(** [self[i][j]] (lines 658-659). *)
Definition cell (c : context) (i j : nat) : res bool :=
  row ← np_row c i; get_or IndexError (row !! j).

(** Lines 356-359. *)
Definition get_value (c : context) (o a : name) : res bool :=
  io ← py_index o (objs c);
  ia ← py_index a (atts c);
  cell c io ia.

(** Lines 361-366.  [np.c_[table, col]]: with rows, a column of the wrong length
    raises ValueError; without rows an empty column widens shape (0,) to (0,2)
    (the 1-d array counts as one column) and (0,k) to (0,k+1). *)
Definition add_attribute (c : context) (col : list bool) (a : name) : upd context () :=
  if negb (length col =? length (np c))%nat then (c, Err ValueError)
  else reinit c (zip_with (fun r b => (r ++ [b])%list) (np c) col)
              (match npz c with None => Some 2 | Some k => Some (S k) end)
              (objs c) (atts c ++ [a])%list.

(** Lines 368-378.  [np.vstack] raises ValueError when the widths differ. *)
Definition add_object (c : context) (row : list bool) (o : name) : upd context () :=
  match np c with
  | [] => reinit c [row] None (objs c ++ [o])%list (atts c)
  | r0 :: _ =>
      if negb (length row =? length r0)%nat then (c, Err ValueError)
      else reinit c (np c ++ [row])%list None (objs c ++ [o])%list (atts c)
  end.

(** Lines 380-382 and 384-386. *)
Definition add_object_with_intent (c : context) (intent : gset name) (o : name) :=
  add_object c (map (fun a => bool_decide (a ∈ intent)) (atts c)) o.
Definition add_attribute_with_extent (c : context) (extent : gset name) (a : name) :=
  add_attribute c (map (fun o => bool_decide (o ∈ extent)) (objs c)) a.

(** [new = [False]*n; for i in inds: new[i] = True]; IndexError if out of range. *)
Definition set_flags (n : nat) (inds : list nat) : res (list bool) :=
  if forallb (fun i => (i <? n)%nat) inds
  then Ok (foldl (fun v i => <[i := true]> v) (replicate n false) inds)
  else Err IndexError.

(** numpy assignment [np_table[:, j] = col]. *)
Definition np_set_col (c : context) (j : nat) (col : list bool) : res (list (list bool)) :=
  match np c with
  | [] => match npz c with
          | None => Err IndexError
          | Some k => if (j <? k)%nat then Ok [] else Err IndexError
          end
  | rows =>
      if forallb (fun r => (j <? length r)%nat) rows
      then if (length col =? length rows)%nat
           then Ok (zip_with (fun r b => <[j := b]> r) rows col)
           else Err ValueError
      else Err IndexError
  end.

(** Fields after a partial update: [np_table] and the name lists replaced, the
    other fields as before. *)
Definition with_np_atts (c : context) (t : list (list bool)) (z : option nat)
    (ats : list name) : context :=
  Cxt (objs c) ats t z (cross c) (oidx c) (aidx c).
Definition with_np_objs (c : context) (t : list (list bool)) (z : option nat)
    (os : list name) : context :=
  Cxt os (atts c) t z (cross c) (oidx c) (aidx c).

(** Lines 388-394.  [np_table] is written in place before [__init__]. *)
Definition set_attribute_extent (c : context) (extent : list name) (a : name)
  : upd context () :=
  match (inds ← mapM (oind c) extent;
         col ← set_flags (length (objs c)) inds;
         j ← aind c a;
         np_set_col c j col) with
  | Err e => (c, Err e)
  | Ok t => reinit (with_np_objs c t (npz c) (objs c)) t None (objs c) (atts c)
  end.

(** Lines 396-401, likewise. *)
Definition set_object_intent (c : context) (intent : list name) (o : name)
  : upd context () :=
  match (inds ← mapM (aind c) intent;
         row ← set_flags (length (atts c)) inds;
         i ← oind c o;
         if (i <? length (np c))%nat then Ok (<[i := row]> (np c)) else Err IndexError) with
  | Err e => (c, Err e)
  | Ok t => reinit (with_np_objs c t (npz c) (objs c)) t (npz c) (objs c) (atts c)
  end.

(** Lines 403-408.  [np.delete(t, i, 0)]; then the name is deleted from the live
    list, then [__init__]. *)
Definition delete_object (c : context) (o : name) : upd context () :=
  match oind c o with
  | Err e => (c, Err e)
  | Ok i =>
      if (i <? length (np c))%nat then
        let t := delete i (np c) in
        let os := delete i (objs c) in
        reinit (with_np_objs c t (match np c with r :: _ => Some (length r) | [] => npz c end) os)
               t None os (atts c)
      else (c, Err IndexError)
  end.

(** numpy's [np.delete(t, inds, 1)] (repeated indices count once). *)
Definition del_cols (inds : list nat) (r : list bool) : list bool :=
  map snd (filter (fun p => p.1 ∉ inds) (imap (fun i b => (i, b)) r)).
Definition np_delete_cols (c : context) (inds : list nat)
  : res (list (list bool) * option nat) :=
  match np c with
  | [] => match npz c with
          | None => Err AxisError
          | Some k => if forallb (fun i => (i <? k)%nat) inds
                      then Ok ([], Some (k - size (list_to_set inds : gset nat))%nat)
                      else Err IndexError
          end
  | rows => if forallb (fun r => forallb (fun i => (i <? length r)%nat) inds) rows
            then Ok (map (del_cols inds) rows, None)
            else Err IndexError
  end.

(** Lines 410-415. *)
Definition delete_attribute (c : context) (a : name) : upd context () :=
  match (j ← aind c a; t ← np_delete_cols c [j]; Ok (j, t)) with
  | Err e => (c, Err e)
  | Ok (j, (t, z)) =>
      let ats := delete j (atts c) in
      reinit (with_np_atts c t z ats) t None (objs c) ats
  end.

(** Python [del l[i]] for each i in turn; the list reached and whether an
    IndexError stopped the loop. *)
Fixpoint del_all (l : list name) (inds : list nat) : list name * res () :=
  match inds with
  | [] => (l, Ok tt)
  | i :: inds' => if (i <? length l)%nat then del_all (delete i l) inds'
                  else (l, Err IndexError)
  end.

(** Lines 417-423.  [np_table] and [attributes] are updated before [__init__]
    validates the dimensions. *)
Definition delete_attributes (c : context) (names : list name) : upd context () :=
  match (inds ← mapM (aind c) names; t ← np_delete_cols c inds; Ok (inds, t)) with
  | Err e => (c, Err e)
  | Ok (inds, (t, z)) =>
      let '(ats, r) := del_all (atts c) (isort (fun i j => (j <=? i)%nat) inds) in
      let c1 := with_np_atts c t z ats in
      match r with
      | Err e => (c1, Err e)
      | Ok _ => reinit c1 t None (objs c) ats
      end
  end.

(** Lines 425-431.  The name is replaced in the live list before [__init__]. *)
Definition rename_object (c : context) (old new : name) : upd context () :=
  match oind c old with
  | Err e => (c, Err e)
  | Ok i => if (i <? length (objs c))%nat
            then let os := <[i := new]> (objs c) in
                 reinit (with_np_objs c (np c) (npz c) os) (np c) (npz c) os (atts c)
            else (c, Err IndexError)
  end.
Definition rename_attribute (c : context) (old new : name) : upd context () :=
  match aind c old with
  | Err e => (c, Err e)
  | Ok j => if (j <? length (atts c))%nat
            then let ats := <[j := new]> (atts c) in
                 reinit (with_np_atts c (np c) (npz c) ats) (np c) (npz c) (objs c) ats
            else (c, Err IndexError)
  end.

(** Lines 433-447.  IndexError is caught for the first index only. *)
Definition oprime_inds (c : context) (inds : list nat) : res (list nat) :=
  match inds with
  | [] => Ok (seq 0 (length (atts c)))
  | i :: rest =>
      match np_row c i with
      | Err _ => Ok (seq 0 (length (atts c)))
      | Ok r0 =>
          r ← foldl (fun acc i' => r ← acc; r' ← np_row c i'; Ok (zip_with andb r r'))
                    (Ok r0) rest;
          Ok (nonzero r)
      end
  end.

(** Lines 449-463. *)
Definition aprime_inds (c : context) (inds : list nat) : res (list nat) :=
  match inds with
  | [] => Ok (seq 0 (length (objs c)))
  | j :: rest =>
      match np_col c j with
      | Err _ => Ok (seq 0 (length (objs c)))
      | Ok v0 =>
          v ← foldl (fun acc j' => v ← acc; v' ← np_col c j'; Ok (zip_with andb v v'))
                    (Ok v0) rest;
          Ok (nonzero v)
      end
  end.

(** Lines 465-469. *)
Definition oclosure_inds (c : context) (inds : list nat) : res (list nat) :=
  l ← oprime_inds c inds; aprime_inds c l.
Definition aclosure_inds (c : context) (inds : list nat) : res (list nat) :=
  l ← aprime_inds c inds; oprime_inds c l.

(** Lines 471-489. *)
Definition oprime (c : context) (os : list name) : res (gset name) :=
  inds ← mapM (oind c) os;
  js ← oprime_inds c inds;
  l ← mapM (aname c) js;
  Ok (list_to_set l).
Definition aprime (c : context) (ats : list name) : res (gset name) :=
  inds ← mapM (aind c) ats;
  is ← aprime_inds c inds;
  l ← mapM (oname c) is;
  Ok (list_to_set l).
Definition oclosure (c : context) (os : list name) : res (gset name) :=
  inds ← mapM (oind c) os;
  is ← oclosure_inds c inds;
  l ← mapM (oname c) is;
  Ok (list_to_set l).
Definition aclosure (c : context) (ats : list name) : res (gset name) :=
  inds ← mapM (aind c) ats;
  js ← aclosure_inds c inds;
  l ← mapM (aname c) js;
  Ok (list_to_set l).

(** [collections.Counter(l)] as a finite map; absent keys count 0. *)
Definition counter (l : list nat) : gmap nat nat :=
  foldl (fun d k => <[k := S (default 0 (d !! k))]> d) ∅ l.

(** Lines 507-515.  The result is a plain dict or a Counter. *)
Definition associative_oprime_inds (c : context) (inds : list nat) : res (gmap nat nat) :=
  match inds with
  | [] => Ok (list_to_map (map (fun j => (j, 0)) (seq 0 (length (atts c)))))
  | _ => ls ← mapM (fun i => r ← np_row c i; Ok (nonzero r)) inds;
         Ok (counter (concat ls))
  end.
(** Lines 517-525. *)
Definition associative_aprime_inds (c : context) (inds : list nat) : res (gmap nat nat) :=
  match inds with
  | [] => Ok (list_to_map (map (fun j => (j, 0)) (seq 0 (length (objs c)))))
  | _ => ls ← mapM (fun j => v ← np_col c j; Ok (nonzero v)) inds;
         Ok (counter (concat ls))
  end.

(** [{names[ind]: d[ind] for ind in d}]. *)
Definition rekey (nm : nat -> res name) (d : gmap nat nat) : res (gmap name nat) :=
  l ← mapM (fun p => x ← nm p.1; Ok (x, p.2)) (map_to_list d);
  Ok (list_to_map l).

(** Lines 491-498. *)
Definition associative_aclosure (c : context) (ats : list name)
  : res (gmap name nat * nat) :=
  inds ← mapM (aind c) ats;
  ext ← aprime_inds c inds;
  d ← associative_oprime_inds c ext;
  d' ← rekey (aname c) d;
  Ok (d', length ext).
(** Lines 500-505. *)
Definition associative_aprime (c : context) (ats : list name) : res (gmap name nat) :=
  inds ← mapM (aind c) ats;
  d ← associative_aprime_inds c inds;
  rekey (oname c) d.

(** Lines 527-537. *)
Definition transpose (c : context) : res context :=
  t ← mapM (fun j => mapM (fun i => cell c i j) (seq 0 (length (objs c))))
           (seq 0 (length (atts c)));
  mk_context t None (atts c) (objs c).

(** Lines 644-649. *)
Definition check_attribute_names (c : context) (names : list name) : res () :=
  if bool_decide ((list_to_set names : gset name) ⊆ list_to_set (atts c))
  then Ok tt else Err ValueError.

(** Lines 572-582. *)
Definition extract_subtable (c : context) (names : list name) : res (list (list bool)) :=
  _ ← check_attribute_names c names;
  inds ← mapM (fun a => py_index a (atts c)) names;
  mapM (fun i => mapM (fun j => cell c i j) inds) (seq 0 (length (np c))).

(** Lines 549-553. *)
Definition extract_subcontext (c : context) (names : list name) : res context :=
  t ← extract_subtable c names;
  mk_context t None (objs c) names.

(** Lines 614-627 and 629-642, for a dictionary whose values are all [True]
    (the only use, line 542). *)
Fixpoint has_values (c : context) (i : nat) (names : list name) : res bool :=
  match names with
  | [] => Ok true
  | a :: names' => j ← py_index a (atts c);
                   b ← cell c i j;
                   if (b : bool) then has_values c i names' else Ok false
  end.
Fixpoint has_at_least_one_value (c : context) (i : nat) (names : list name) : res bool :=
  match names with
  | [] => Ok false
  | a :: names' => j ← py_index a (atts c);
                   b ← cell c i j;
                   if (b : bool) then Ok true else has_at_least_one_value c i names'
  end.

(** [[i for i in range(n) if f(i)]] with a raising [f]. *)
Fixpoint filterM (f : nat -> res bool) (l : list nat) : res (list nat) :=
  match l with
  | [] => Ok []
  | i :: l' => b ← f i; r ← filterM f l'; Ok (if (b : bool) then i :: r else r)
  end.

(** Lines 597-612.  Without a known mode [indices] is unbound. *)
Definition extract_by_attribute_values (c : context) (names : list name) (mode : string)
  : res (list name * list (list bool)) :=
  _ ← check_attribute_names c names;
  inds ← (if String.eqb mode "and"
          then filterM (fun i => has_values c i names) (seq 0 (length (np c)))
          else if String.eqb mode "or"
          then filterM (fun i => has_at_least_one_value c i names) (seq 0 (length (np c)))
          else Err UnboundLocalError);
  os ← mapM (oname c) inds;
  t ← mapM (np_row c) inds;
  Ok (os, t).

(** Lines 539-547.  The keys of [values] are the names without repetition. *)
Definition extract_subcontext_filtered_by_attributes (c : context) (names : list name)
    (mode : string) : res context :=
  '(os, t) ← extract_by_attribute_values c
               (map fst (dict_of (map (fun a => (a, tt)) names))) mode;
  mk_context t None os (atts c).

(** Lines 555-558: [np_table.nonzero()] is row-major. *)
Definition get_object_attribute_pairs (c : context) : res (list (name * name)) :=
  mapM (fun p => o ← oname c p.1; a ← aname c p.2; Ok (o, a))
       (concat (imap (fun i r => map (fun j => (i, j)) (nonzero r)) (np c))).

(** Lines 562-570.  Deletions happen by name, one after the other. *)
Fixpoint delete_objects_loop (c : context) (l : list name) : upd context () :=
  match l with
  | [] => (c, Ok tt)
  | o :: l' => match delete_object c o with
               | (c', Ok _) => delete_objects_loop c' l'
               | (c', Err e) => (c', Err e)
               end
  end.
Definition remove_empty_objects (c : context) : upd context () :=
  match (l ← mapM (fun i : nat => r ← np_row c i; o ← oname c i; Ok (r, o))
                  (seq 0 (length (objs c)));
         Ok (map snd (filter (fun p : list bool * name => existsb id p.1 = false) l))) with
  | Err e => (c, Err e)
  | Ok l => delete_objects_loop c l
  end.

(** Python's [sep.join(l)]. *)
Fixpoint join (sep : string) (l : list string) : string :=
  match l with
  | [] => ""
  | [s] => s
  | s :: l' => s ++ sep ++ join sep l'
  end.
Definition tab : string := String (Ascii.ascii_of_nat 9) EmptyString.
Definition newline : string := String (Ascii.ascii_of_nat 10) EmptyString.
Definition cross_char (b : bool) : string := if b then "X" else ".".

(** Lines 663-670. *)
Definition repr_row (r : list bool) : string := join "" (map cross_char r).
Definition repr (c : context) : res string :=
  rows ← mapM (fun p : nat * name => r ← np_row c p.1; Ok (pystr p.2 ++ tab ++ repr_row r ++ newline))
              (imap (fun i o => (i, o)) (objs c));
  Ok (join ", " (map pystr (atts c)) ++ newline ++ join "" rows).

(** Lines 672-692, both arguments of type Context. *)
Definition context_eq (c d : context) : res bool :=
  rc ← repr c;
  rd ← repr d;
  if String.eqb rc rd then Ok true
  else if negb (length (objs c) =? length (objs d))%nat
          || negb (length (atts c) =? length (atts d))%nat then Ok false
  else if negb (bool_decide (list_to_set (objs c) =@{gset name} list_to_set (objs d)))
          || negb (bool_decide (list_to_set (atts c) =@{gset name} list_to_set (atts d)))
  then Ok false
  else oi ← mapM (fun o => py_index o (objs d)) (objs c);
       ai ← mapM (fun a => py_index a (atts d)) (atts c);
       t ← mapM (fun i => mapM (fun j => cell d i j) ai) oi;
       Ok (bool_decide (t = cross c)).

(** Lines 694-701.  [np.matrix] of an array without rows has shape (1,0), so the
    product raises ValueError as soon as one table has no rows (except never:
    inner dimensions 0 and 1 disagree). *)
Definition bool_dot (r : list bool) (col : list bool) : bool :=
  existsb id (zip_with andb r col).
Definition mul_table (c d : context) : res (list (list bool)) :=
  if negb (bool_decide (atts c = objs d)) then Err MultiplicationException
  else match np c, np d with
       | [], _ | _, [] => Err ValueError
       | rc, rd =>
           mapM (fun r => mapM (fun j => col ← np_col d j; Ok (bool_dot r col))
                               (seq 0 (length (atts d)))) rc
       end.
Definition context_mul (c d : context) : res context :=
  t ← mul_table c d; mk_context t None (objs c) (atts d).

(** Lines 703-715. *)
Definition clarify_objects (c : context) : res context :=
  let d := dict_of (zip (np c) (objs c)) in
  mk_context (map fst d) None (map snd d) (atts c).

(** Lines 795-801 on a row of [np.bool_]: the accumulator is an [np.int64], so the
    shift wraps around modulo 2^64 (signed). *)
Definition wrap64 (x : Z) : Z := ((x + 2 ^ 63) `mod` 2 ^ 64 - 2 ^ 63)%Z.
Definition list2int (r : list bool) : Z :=
  foldl (fun x (y : bool) => wrap64 (wrap64 (x * 2) + (if y then 1 else 0)))%Z 0%Z (reverse r).

(** Lines 739-749: the inner loop for the i-th key. *)
Definition reduce_step (i_int : Z) (acc : Z * list Z) (j : Z) : Z * list Z :=
  let '(current, reducible) := acc in
  if decide (j ∈ reducible) then acc
  else let new := Z.land current j in
       if (Z.land new i_int <? i_int)%Z then acc
       else if (new =? i_int)%Z then (current, i_int :: reducible)
       else if (i_int <? new)%Z then (new, reducible)
       else acc.
(** Lines 734-749.  Line 735 tests the loop index, not the key. *)
Definition reduce_iter (m : Z) (keys : list Z) (reducible : list Z) (i : nat) : list Z :=
  match keys !! i with
  | None => reducible
  | Some i_int =>
      if decide (Z.of_nat i ∈ reducible) then reducible
      else (foldl (reduce_step i_int) (m, reducible) (delete i keys)).2
  end.
(** Lines 717-755.  With 64 or more attributes and at least two distinct keys the
    expression [current & j] mixes a Python int beyond int64 with an
    [np.int64]; the outcome depends on the numpy version. *)
Definition reduced_rows (c : context) : res (list name * list (list bool)) :=
  let d := dict_of (zip (map list2int (np c)) (seq 0 (length (np c)))) in
  let keys := map fst d in
  if (63 <? length (atts c))%nat && (1 <? length keys)%nat then Err Unmodelled
  else let m := (2 ^ Z.of_nat (length (atts c)) - 1)%Z in
       let reducible := foldl (reduce_iter m keys) [] (seq 0 (length keys)) in
       let rest := filter (fun p => p.1 ∉ reducible) d in
       let order := isort Nat.leb (map snd rest) in
       os ← mapM (oname c) order;
       t ← mapM (np_row c) order;
       Ok (os, t).
Definition reduce_objects (c : context) : res context :=
  '(os, t) ← reduced_rows c; mk_context t None os (atts c).

(** Lines 757-763. *)
Definition reduce_attributes (c : context) : res context :=
  t ← transpose c;
  r ← reduce_objects t;
  transpose r.

(** Lines 765-778. *)
Definition complementary (c : context) : res context :=
  ats ← mapM (fun a => match a with NStr s => Ok (NStr ("not " ++ s))
                                  | NInt _ => Err TypeError end) (atts c);
  t ← mapM (fun i => mapM (fun j => b ← cell c i j; Ok (negb b)) (seq 0 (length (atts c))))
           (seq 0 (length (objs c)));
  mk_context t None (objs c) ats.

(** Lines 780-792.  [+] on numpy boolean rows is element-wise "or". *)
Definition compound (c : context) : res context :=
  cc ← complementary c;
  t ← mapM (fun i => r ← np_row c i; r' ← np_row cc i;
                     if (length r =? length r')%nat then Ok (zip_with orb r r')
                     else Err ValueError)
           (seq 0 (length (objs c)));
  mk_context t None (objs c) (atts c ++ atts cc)%list.
