(** * Model of pattern exploration: fca/algorithms/patterns.py

    Intents are Python sets; a pattern is any iterable, given here by the list of
    its elements in the order of iteration. *)
From Verif Require Import Py Spec ContextModel LatticeModel.

(** Exceptions of lines 15-85. *)
Definition AttributeMismatch := UserException 20.
Definition NotNegativeExample := UserException 21.
Definition NotAPositivePattern := UserException 22.
Definition NotANegativePattern := UserException 23.

(** Instance variables (lines 110-117); the expert and the generator of patterns are
    arguments of the functions that use them. *)
Record pexp := PExp {
  ppos : context;
  pneg : context;
  pconf : list (gset name) }.

(** Lines 107-117; [copy.deepcopy] is context.py 263-266. *)
Definition new_patterns (cp cn : context) : res pexp :=
  if bool_decide ((list_to_set (atts cp) : gset name) ≠ list_to_set (atts cn)) then Err AttributeMismatch
  else p ← mk_context (np cp) (npz cp) (objs cp) (atts cp);
       n ← mk_context (np cn) (npz cn) (objs cn) (atts cn);
       Ok (PExp p n []).

(** Lines 132-138. *)
Definition confirm_pattern (p : list name) (s : pexp) : upd pexp () :=
  match aclosure (ppos s) p with
  | Err e => (s, Err e)
  | Ok X =>
      if bool_decide (X = list_to_set (atts (ppos s))) then (s, Err NotAPositivePattern)
      else match aclosure (pneg s) p with
           | Err e => (s, Err e)
           | Ok Y =>
               if bool_decide (Y ≠ list_to_set (atts (pneg s))) then (s, Err NotANegativePattern)
               else (PExp (ppos s) (pneg s) (pconf s ++ [list_to_set p]), Ok tt)
           end
  end.

(** Lines 150-155. *)
Definition add_negative_example (o : name) (X : gset name) (pat : option (list name)) (s : pexp) : upd pexp () :=
  let bad := match pat with None => false | Some p => bool_decide ((list_to_set p : gset name) ∖ X ≠ ∅) end in
  if bad then (s, Err NotNegativeExample)
  else let r := add_object_with_intent (pneg s) X o in (PExp (ppos s) r.1 (pconf s), r.2).
(** Lines 157-159. *)
Definition add_positive_example (o : name) (X : gset name) (s : pexp) : upd pexp () :=
  let r := add_object_with_intent (ppos s) X o in (PExp r.1 (pneg s) (pconf s), r.2).

(** The methods that change the state. *)
Inductive pop :=
  | PConfirm (p : list name)
  | PNegative (o : name) (intent : gset name) (pat : option (list name))
  | PPositive (o : name) (intent : gset name).
Definition pstep (o : pop) (s : pexp) : upd pexp () :=
  match o with
  | PConfirm p => confirm_pattern p s
  | PNegative o X pat => add_negative_example o X pat s
  | PPositive o X => add_positive_example o X s
  end.

(** Lines 161-163. *)
Definition is_explained (s : pexp) (X : gset name) : bool := existsb (fun p => bool_decide (p ⊆ X)) (pconf s).

(** Lines 165-169: all that the generator yields. *)
Fixpoint unexplained_from (s : pexp) (i : nat) (os : list name) : res (list (name * gset name)) :=
  match os with
  | [] => Ok []
  | o :: os' =>
      X ← get_object_intent_by_index (ppos s) i;
      l ← unexplained_from s (S i) os';
      Ok (if is_explained s X then l else (o, X) :: l)
  end.
Definition unexplained_examples (s : pexp) : res (list (name * gset name)) := unexplained_from s 0 (objs (ppos s)).

(** Lines 140-144; [ord] is the order of iteration over the set of object names. *)
Definition pattern_examples (ord : gset name → list name) (p : list name) (s : pexp) : res (list (name * gset name)) :=
  A ← aprime (ppos s) p;
  mapM (fun o => X ← get_object_intent (ppos s) o; Ok (o, X)) (ord A).

(** Lines 88-93: all that the generator yields; [ord] is the order of iteration over
    an intent. *)
Fixpoint positive_filter (ord : gset name → list name) (cn : context) (cs : list fconcept) : res (list fconcept) :=
  match cs with
  | [] => Ok []
  | x :: cs' =>
      Y ← aclosure cn (ord x.2);
      l ← positive_filter ord cn cs';
      Ok (if bool_decide (Y = list_to_set (atts cn)) then x :: l else l)
  end.
Definition positive_concepts (ord : gset name → list name) (cp cn : context) : res (list fconcept) :=
  c1 ← reduce_attributes cp;
  c2 ← reduce_objects c1;
  cs ← norris c2;
  positive_filter ord cn cs.

(** Lines 122-130 for a generator of pairs (set, anything).  [sorted] is stable:
    insertion after the elements with the same key. *)
Fixpoint insert_pattern (x : gset name * nat) (l : list (gset name * nat)) : list (gset name * nat) :=
  match l with
  | [] => [x]
  | y :: l' => if (y.2 <? x.2)%nat then x :: y :: l' else y :: insert_pattern x l'
  end.
Definition sort_patterns (l : list (gset name * nat)) : list (gset name * nat) :=
  foldl (fun acc x => insert_pattern x acc) [] l.
Definition unconfirmed_patterns {F} (gen : list (gset name * F)) (s : pexp) : res (list (gset name * nat)) :=
  ex ← unexplained_examples s;
  Ok (sort_patterns
        (map (fun q => (q.1, length (List.filter (fun e : name * gset name => bool_decide (q.1 ⊆ e.2)) ex)))
             (List.filter (fun q => negb (is_explained s q.1)) gen))).

(** The same with the default generator.  It yields [Concept] objects, which cannot
    be unpacked into two variables (concept.py defines neither __iter__ nor
    __getitem__): TypeError at the first one.  The generator is lazy: the first
    concept it yields is found before later ones are looked at. *)
Fixpoint first_positive (ord : gset name → list name) (cn : context) (cs : list fconcept) : res (option fconcept) :=
  match cs with
  | [] => Ok None
  | x :: cs' =>
      Y ← aclosure cn (ord x.2);
      if bool_decide (Y = list_to_set (atts cn)) then Ok (Some x) else first_positive ord cn cs'
  end.
Definition unconfirmed_patterns_default (ord : gset name → list name) (s : pexp) : res (list (gset name * nat)) :=
  _ ← unexplained_examples s;
  c1 ← reduce_attributes (ppos s);
  c2 ← reduce_objects c1;
  cs ← norris c2;
  x ← first_positive ord (pneg s) cs;
  match x with None => Ok [] | Some _ => Err TypeError end.
