(** * Model of fca/algorithms/exploration_/examples/bi_unars.py *)
From Coq Require Import Ascii.
From Verif Require Import Py.

(** Lines 13-24: two tuples; [automorphic_copy] exchanges them. *)
Record biunar := BiUnar { bf : list Z; bg : list Z }.
Definition automorphic_copy (b : biunar) : biunar := BiUnar (bg b) (bf b).

(** Indexing a tuple: negative positions count from the end. *)
Definition tuple_get (t : list Z) (i : Z) : res Z :=
  if (0 <=? i)%Z then get_or IndexError (t !! Z.to_nat i)
  else if (0 <=? Z.of_nat (length t) + i)%Z then get_or IndexError (t !! Z.to_nat (Z.of_nat (length t) + i))
  else Err IndexError.
(** Lines 96-97. *)
Definition compose (f g : list Z) : res (list Z) := mapM (fun x => tuple_get f (x - 1)) g.

(** Lines 27-37 and 197-205.  A term is its position in [terms]; terms have no [__eq__], so
    equality is identity. *)
Definition term_names : list string := ["id"; "f"; "g"; "ff"; "fg"; "gf"; "gg"].
Definition term_value (t : nat) (b : biunar) : res (list Z) :=
  match t with
  | 0 => Ok (seqZ 1 (Z.of_nat (length (bf b))))
  | 1 => Ok (bf b)
  | 2 => Ok (bg b)
  | 3 => compose (bf b) (bf b)
  | 4 => compose (bf b) (bg b)
  | 5 => compose (bg b) (bf b)
  | 6 => compose (bg b) (bg b)
  | _ => Err NameError
  end.
(** Lines 40-49 and 208-209: an equality is the pair of its terms. *)
Definition eqn : Type := nat * nat.
Definition eqn_holds (e : eqn) (b : biunar) : res bool :=
  l ← term_value e.1 b; r ← term_value e.2 b; Ok (bool_decide (l = r)).
Definition eqn_str (e : option nat * option nat) : string :=
  let nm t := match t with None => "None" | Some t => default "None" (term_names !! t) end in
  nm e.1 ++ " = " ++ nm e.2.
Definition attributes : list eqn :=
  flat_map (fun i => map (fun j => (i, j)) (seq (S i) (length term_names - S i))) (seq 0 (length term_names)).

(** Lines 175-182: replacing characters of the name and looking the result up. *)
Definition str_replace_char (a b : ascii) : string → string :=
  fix go s := match s with
              | EmptyString => EmptyString
              | String c s' => String (if bool_decide (c = a) then b else c) (go s')
              end.
Definition symmetric_name (s : string) : string :=
  str_replace_char "F" "g" (str_replace_char "g" "f" (str_replace_char "f" "F" s)).
Definition get_symmetric_term (t : nat) : option nat :=
  s ← term_names !! t;
  match py_index (symmetric_name s) term_names with Ok k => Some k | Err _ => None end.
(** Lines 51-53 and 185-189. *)
Definition eqn_copy (e : eqn) : option nat * option nat := (get_symmetric_term e.1, get_symmetric_term e.2).
Definition get_symmetric_equality (e : eqn) : option eqn :=
  snd <$> list_find (fun a : eqn => eqn_str (Some a.1, Some a.2) = eqn_str (eqn_copy e)) attributes.
(** Lines 161-172, for an enumeration of the set: one round of the loop and the loop.
    [terms.index(None)] raises ValueError. *)
Definition symmetric_eqn (e : eqn) : res (option eqn) :=
  l ← get_or ValueError (get_symmetric_term e.1);
  r ← get_or ValueError (get_symmetric_term e.2);
  let '(l, r) := if (r <? l)%nat then (r, l) else (l, r) in
  Ok (snd <$> list_find (fun a : eqn => a.1 = l ∧ a.2 = r) attributes).
Fixpoint get_symmetric_attribute_set (eqs : list eqn) : res (gset eqn) :=
  match eqs with
  | [] => Ok ∅
  | e :: eqs' =>
      o ← symmetric_eqn e;
      S ← get_symmetric_attribute_set eqs';
      Ok (match o with None => S | Some a => {[a]} ∪ S end)
  end.
(** Lines 150-158. *)
Fixpoint orbit_scan (S T : gset eqn) (l : list eqn) : bool :=
  match l with
  | [] => true
  | a :: l' =>
      if bool_decide (a ∈ S) then (if bool_decide (a ∈ T) then orbit_scan S T l' else true)
      else if bool_decide (a ∈ T) then false else orbit_scan S T l'
  end.
(** [ord] enumerates the argument. *)
Definition is_orbit_maximal (ord : gset eqn → list eqn) (S : gset eqn) : res bool :=
  T ← get_symmetric_attribute_set (ord S); Ok (orbit_scan S T attributes).
(** Lines 192-194. *)
Definition eimp : Type := gset eqn * gset eqn.
Definition econclusion (i : eimp) : gset eqn := i.2 ∖ i.1.
Definition get_symmetric_implication (ord : gset eqn → list eqn) (i : eimp) : res eimp :=
  P ← get_symmetric_attribute_set (ord i.1);
  C ← get_symmetric_attribute_set (ord (econclusion i));
  Ok (P, C).

(** Lines 105-106. *)
Fixpoint filter_holds (b : biunar) (l : list eqn) : res (list eqn) :=
  match l with
  | [] => Ok []
  | a :: l' => v ← eqn_holds a b; r ← filter_holds b l'; Ok (if (v : bool) then a :: r else r)
  end.
Definition bu_intent (b : biunar) : res (gset eqn) := l ← filter_holds b attributes; Ok (list_to_set l).
(** Lines 109-113. *)
Definition generate_partial_counterexample (ord : gset eqn → list eqn) (i : eimp) (b : biunar) : res (gset eqn * gset eqn) :=
  let relevant := i.1 ∪ econclusion i in
  l ← filter_holds b (ord relevant);
  let x := list_to_set l in
  Ok (x, (list_to_set attributes ∖ relevant) ∪ x).
(** Lines 100-102: [itertools.product]. *)
Fixpoint tuples {A} (l : list A) (n : nat) : list (list A) :=
  match n with
  | O => [[]]
  | S n' => flat_map (fun x => map (cons x) (tuples l n')) l
  end.
Definition generate_examples (n : nat) : list biunar :=
  let maps := tuples (seqZ 1 (Z.of_nat n)) n in
  flat_map (fun f => map (fun g => BiUnar f g) maps) maps.
(** Lines 116-119; [imp.is_respected] is implication.py 84-90. *)
Definition erespected (i : eimp) (X : gset eqn) : bool :=
  negb (bool_decide (i.1 ⊆ X)) || bool_decide (econclusion i ⊆ X).
Fixpoint find_loop (i : eimp) (l : list biunar) : res (option biunar) :=
  match l with
  | [] => Ok None
  | e :: l' => X ← bu_intent e; if negb (erespected i X) then Ok (Some e) else find_loop i l'
  end.
Definition find_counter_example (n : nat) (i : eimp) : res (option biunar) := find_loop i (generate_examples n).
(** Lines 122-124: the table of [generate_context].  The [PartialContext] made of it
    raises (C65), so importing the module fails; besides, the package it imports from
    (lines 8-9) does not exist. *)
Definition context_table (n : nat) : res (list (list bool)) :=
  mapM (fun b => mapM (fun a => eqn_holds a b) attributes) (generate_examples n).
(** Lines 133-147. *)
Definition generate_background_implications (l : list eqn) : list eimp :=
  flat_map (fun x => flat_map (fun y => omap (fun z =>
    if bool_decide ((x.1 = z.1 ∧ x.2 = y.1 ∧ y.2 = z.2) ∨ (x.1 = z.1 ∧ x.2 = y.2 ∧ y.1 = z.2) ∨
                    (x.1 = y.1 ∧ x.2 = z.1 ∧ y.2 = z.2))
    then Some ({[x; y]}, {[z]}) else None) l) l) l.
