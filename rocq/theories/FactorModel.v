(** * Model of fca/algorithms/factors.py

    Line numbers refer to /repo/fca/algorithms/factors.py.  Fractions are exact
    rationals (Python computes floats). *)
From Coq Require Import QArith Qcanon.
From Verif Require Import Py Spec ContextModel LatticeModel FilterModel.

(** ** make_factor_cxts (lines 16-52) *)

(** Lines 24-30: [el_ind]; the dictionary numbers the elements in order of their
    first appearance, so it is the list of its keys. *)
Definition el_ind (el : name) (ks : list name) : nat * list name :=
  match py_index el ks with
  | Ok i => (i, ks)
  | Err _ => (length ks, ks ++ [el])
  end.
(** [set(el_ind(el, d) for el in l)], [l] the order in which the set is iterated. *)
Fixpoint el_inds (l : list name) (ks : list name) : gset nat * list name :=
  match l with
  | [] => (∅, ks)
  | x :: l' => let '(i, ks') := el_ind x ks in
               let '(s, ks'') := el_inds l' ks' in ({[i]} ∪ s, ks'')
  end.
(** Lines 38-40. *)
Fixpoint factor_rows (ls : list (list name)) (ks : list name) : list (gset nat) * list name :=
  match ls with
  | [] => ([], ks)
  | l :: ls' => let '(s, ks') := el_inds l ks in
                let '(ss, ks'') := factor_rows ls' ks' in (s :: ss, ks'')
  end.
(** [[(x in row) for x in range(n)] for row in rows]. *)
Definition member_table (n : nat) (rows : list (gset nat)) : list (list bool) :=
  map (fun row => map (fun x => bool_decide (x ∈ row)) (seq 0 n)) rows.
(** [list(zip( *t ))] of rows of length [n]; nothing when there are no rows. *)
Definition zip_star (n : nat) (t : list (list bool)) : list (list bool) :=
  match t with
  | [] => []
  | _ => map (fun x => map (fun r => default false (r !! x)) t) (seq 0 n)
  end.
(** A factor is given by the orders in which its extent and its intent are
    iterated. *)
Definition factor_names (n : nat) : list name := map (fun i : nat => NStr ("f" ++ pretty i)) (seq 0 n).
Definition make_factor_cxts (fs : list (list name * list name)) : res (context * context) :=
  let '(orows, objects) := factor_rows (map fst fs) [] in
  let '(arows, attributes) := factor_rows (map snd fs) [] in
  let names := factor_names (length fs) in
  l ← mk_context (zip_star (length objects) (member_table (length objects) orows)) None objects names;
  r ← mk_context (member_table (length attributes) arows) None names attributes;
  Ok (l, r).

(** ** Shared helpers *)
(** [set(itertools.product(C, D)) & U]; also [set(Concept(C, D).pairs()) & U]
    (concept.py 73-78: no pairs when one side is empty). *)
Definition rect_in (C D : gset name) (U : gset (name * name)) : gset (name * name) :=
  filter (fun p => p.1 ∈ C ∧ p.2 ∈ D) U.
(** [max(l, key=...)]: the first of the largest elements; [m] is the head of [l]. *)
Definition py_max {A} (ltb : A → A → bool) (m : A) (l : list A) : A :=
  foldl (fun b x => if ltb b x then x else b) m l.
Definition measure_ltb (a b : nat * name) : bool := (a.1 <? b.1)%nat.
Definition qltb (a b : Qc) : bool := if Qclt_le_dec a b then true else false.

Section factors.
  Context (c : context).
  (** [ord k i X] is the order in which the set [X] is iterated in pass [i] of the
      inner loop in pass [k] of the outer loop.  The results of [aprime] and
      [oprime] do not depend on the order of their argument. *)
  Context (ord : nat → nat → gset name → list name).

  (** Lines 55-64. *)
  Definition oplus (Dobjs : gset name) (y : name) (U : gset (name * name)) : res (gset (name * name)) :=
    yprime ← get_attribute_extent c y;
    let E := Dobjs ∩ yprime in
    B ← oprime c (elements E);
    Ok (rect_in E B U).

  (** ** algorithm2 (lines 67-110) *)
  (** Lines 89-105: [to_remove], [C] and [D] when the loop is left. *)
  Fixpoint alg2_inner (fuel k i : nat) (U : gset (name * name)) (D : gset name) (V : nat) (C : gset name)
      (rem : gset (name * name)) : res (gset (name * name) * gset name * gset name) :=
    match fuel with
    | 0 => Err OutOfFuel
    | S fuel' =>
        Do ← aprime c (elements D);
        ms ← mapM (fun j => r ← oplus Do j U; Ok (size r, j)) (ord k i (list_to_set (atts c) ∖ D));
        match ms with
        | [] => Ok (rem, C, D)
        | m :: ms' =>
            let '(v, j) := py_max measure_ltb m ms' in
            if (V <? v)%nat then
              C' ← aprime c (elements (D ∪ {[j]}));
              D' ← oprime c (elements C');
              let rem' := rect_in C' D' U in
              alg2_inner fuel' k (S i) U D' (size rem') C' rem'
            else Ok (rem, C, D)
        end
    end.
  (** Lines 85-110: what is observed of the generator is the list of yields and how
      it ends ([Ok tt]: StopIteration).  [C] is unbound in the first pass; when it
      is still unbound at line 106, [to_remove] is empty.  The context is not
      changed between two yields. *)
  Fixpoint alg2_loop (fuel k n : nat) (fid : Qc) (U : gset (name * name)) : list (fconcept * Qc) * res () :=
    match fuel with
    | 0 => ([], Err OutOfFuel)
    | S fuel' =>
        if decide (n = 0) then ([], Err ZeroDivisionError)
        else if qltb (qdiv (Z.of_nat n - Z.of_nat (size U)) (Z.of_nat n)) fid then
          match alg2_inner (S (length (atts c))) k 0 U ∅ 0 ∅ ∅ with
          | Err e => ([], Err e)
          | Ok (rem, C, D) =>
              if decide (rem = ∅) then ([], Err AssertionError)
              else let '(ys, r) := alg2_loop fuel' (S k) n fid (U ∖ rem) in
                   (((C, D), qdiv (Z.of_nat (size rem)) (Z.of_nat n)) :: ys, r)
          end
        else ([], Ok tt)
    end.
  (** Lines 83-110. *)
  Definition algorithm2 (fid : Qc) : list (fconcept * Qc) * res () :=
    match get_object_attribute_pairs c with
    | Err e => ([], Err e)
    | Ok l => let U := list_to_set l : gset (name * name) in
              alg2_loop (S (size U)) 0 (size U) fid U
    end.

  (** ** algorithm2_weighted (lines 113-165) *)
  (** Lines 132-136. *)
  Definition wscore (P : gset (name * name)) : Qc :=
    qdiv (Z.of_nat (size (set_map fst P : gset name) * size (set_map snd P : gset name)))
         (Z.of_nat (length (objs c) * length (atts c))).
  Definition score_ltb (a b : Qc * name) : bool := qltb a.1 b.1.
  Definition qnat (n : nat) : Qc := Q2Qc (inject_Z (Z.of_nat n)).
  (** Lines 144-160; the last component is [j_score].  Line 145 applies [oprime] to
      the attribute set [D]. *)
  Fixpoint weighted_inner (fuel k i : nat) (U : gset (name * name)) (D : gset name) (V : nat) (C : gset name)
      (rem : gset (name * name)) (sc : Qc) : res (gset (name * name) * gset name * gset name * Qc) :=
    match fuel with
    | 0 => Err OutOfFuel
    | S fuel' =>
        Do ← oprime c (elements D);
        ms ← mapM (fun j => r ← oplus Do j U; Ok (wscore r, j)) (ord k i (list_to_set (atts c) ∖ D));
        match ms with
        | [] => Ok (rem, C, D, sc)
        | m :: ms' =>
            let '(v, j) := py_max score_ltb m ms' in
            if qltb (qnat V) v then
              C' ← aprime c (elements (D ∪ {[j]}));
              D' ← oprime c (elements C');
              let rem' := rect_in C' D' U in
              weighted_inner fuel' k (S i) U D' (size rem') C' rem' v
            else Ok (rem, C, D, sc)
        end
    end.
  (** Lines 140-165. *)
  Fixpoint weighted_loop (fuel k n : nat) (fid : Qc) (U : gset (name * name)) : list (fconcept * Qc) * res () :=
    match fuel with
    | 0 => ([], Err OutOfFuel)
    | S fuel' =>
        if decide (n = 0) then ([], Err ZeroDivisionError)
        else if qltb (qdiv (Z.of_nat n - Z.of_nat (size U)) (Z.of_nat n)) fid then
          match weighted_inner (S (length (atts c))) k 0 U ∅ 0 ∅ ∅ (Q2Qc 0) with
          | Err e => ([], Err e)
          | Ok (rem, C, D, sc) =>
              if decide (rem = ∅) then ([], Err AssertionError)
              else let '(ys, r) := weighted_loop fuel' (S k) n fid (U ∖ rem) in
                   (((C, D), sc) :: ys, r)
          end
        else ([], Ok tt)
    end.
  (** Lines 129-165. *)
  Definition algorithm2_weighted (fid : Qc) : list (fconcept * Qc) * res () :=
    match get_object_attribute_pairs c with
    | Err e => ([], Err e)
    | Ok l => let U := list_to_set l : gset (name * name) in
              weighted_loop (S (size U)) 0 (size U) fid U
    end.

  (** ** algorithm2_w_condition (lines 168-247) *)
  Section condition.
    Context (allow : bool) (mn : Z) (ge : bool).
    (** Lines 191-196. *)
    Definition good_factor (C D : gset name) : bool :=
      if ge then (Z.of_nat (size D) <=? Z.of_nat (size C))%Z && (mn <=? Z.of_nat (size D))%Z
      else (mn <=? Z.of_nat (size C))%Z && (mn <=? Z.of_nat (size D))%Z.
    (** How the inner loop is left: line 216, lines 226-228, lines 242-245. *)
    Inductive wout :=
      | WReturn
      | WRestart (Dj : gset name)
      | WYield (C D : gset name) (rem : gset (name * name)).
    (** Lines 210-247.  The exception of line 239 is [UserException 239]; the
        [else] of line 246 is never taken. *)
    Fixpoint wcond_inner (fuel k i : nat) (U : gset (name * name)) (avail D C : gset name) (V : nat)
        (rem : gset (name * name)) : res wout :=
      match fuel with
      | 0 => Err OutOfFuel
      | S fuel' =>
          Dp ← aprime c (elements D);
          ms ← mapM (fun j => r ← oplus Dp j U; Ok (size r, j)) (ord k i (avail ∖ D));
          match ms with
          | [] => Ok WReturn
          | m :: ms' =>
              let '(v, j) := py_max measure_ltb m ms' in
              if (V <? v)%nat || negb (good_factor C D) then
                let Dj := D ∪ {[j]} in
                C' ← aprime c (elements Dj);
                if (Z.of_nat (size C') <? mn)%Z || bool_decide (avail ∖ D = ∅) then Ok (WRestart Dj)
                else
                  D' ← oprime c (elements C');
                  let remU := rect_in C' D' U in
                  let rem' := if allow then remU
                              else filter (fun p => p.1 ∈ C' ∧ p.2 ∈ atts c ∨ p.1 ∈ objs c ∧ p.2 ∈ D') U in
                  wcond_inner fuel' k (S i) U avail D' C' (size remU) rem'
              else if good_factor C D then
                if decide (rem = ∅) then Err (UserException 239) else Ok (WYield C D rem)
              else Err AssertionError
          end
      end.
    (** Lines 204-247.  A yield is a concept and two fractions. *)
    Fixpoint wcond_loop (fuel k n : nat) (fid : Qc) (U : gset (name * name)) (removed : gset name)
      : list (fconcept * Qc * Qc) * res () :=
      match fuel with
      | 0 => ([], Err OutOfFuel)
      | S fuel' =>
          if qltb (qdiv (Z.of_nat n - Z.of_nat (size U)) (Z.of_nat n)) fid then
            let avail := (set_map snd U : gset name) ∖ removed in
            match wcond_inner (S (S (length (atts c)))) k 0 U avail ∅ (list_to_set (objs c)) 0 ∅ with
            | Err e => ([], Err e)
            | Ok WReturn => ([], Ok tt)
            | Ok (WRestart Dj) =>
                wcond_loop fuel' (S k) n fid (filter (fun p => p.2 ∉ Dj) U) (removed ∪ Dj)
            | Ok (WYield C D rem) =>
                let U' := U ∖ rem in
                let '(ys, r) := wcond_loop fuel' (S k) n fid U' removed in
                (((C, D), qdiv (Z.of_nat (size rem)) (Z.of_nat n),
                  qdiv (Z.of_nat n - Z.of_nat (size U')) (Z.of_nat n)) :: ys, r)
            end
          else ([], Ok tt)
      end.
    (** Lines 198-247. *)
    Definition algorithm2_w_condition (fid : Qc) : list (fconcept * Qc * Qc) * res () :=
      match get_object_attribute_pairs c with
      | Err e => ([], Err e)
      | Ok l => let U := list_to_set l : gset (name * name) in
                if decide (size U = 0) then ([], Ok tt)
                else wcond_loop (S (size U)) 0 (size U) fid U ∅
      end.
  End condition.
End factors.
