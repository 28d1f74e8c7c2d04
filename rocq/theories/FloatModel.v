(** * The indices and the factorisation with binary64 numbers

    Line numbers refer to the files of /repo/fca/algorithms named below.  FilterModel
    and FactorModel compute with exact rationals; here the quotients are floats.  A
    float is a [spec_float] of Coq's standard library with 53 bits of precision and
    the exponent bound 1024 (IEEE binary64). *)
From Coq Require Import ZArith Floats.SpecFloat.
From Verif Require Import Py Spec ContextModel LatticeModel FilterModel FactorModel.

(** ** Numbers *)
(** An int as numerator or denominator: sign and magnitude, not rounded. *)
Definition sf_of_Z (a : Z) : spec_float :=
  match a with
  | Z0 => S754_zero false
  | Zpos p => S754_finite false p 0
  | Zneg p => S754_finite true p 0
  end.
(** [a / b] for ints (stability.py 46 and 88, separation.py 26, extentsize.py 8,
    intentsize.py 8, factors.py 85, 110, 204, 244).  Python divides the ints themselves
    and rounds once, to nearest, ties to even; a quotient too large for a float raises
    OverflowError, which no caller here can reach and which is [Unmodelled]. *)
Definition fdiv (a b : Z) : res spec_float :=
  if decide (b = 0%Z) then Err ZeroDivisionError
  else match SFdiv 53 1024 (sf_of_Z a) (sf_of_Z b) with
       | S754_infinity _ | S754_nan => Err Unmodelled
       | x => Ok x
       end.
(** The literal [1.0] (separation.py 24); also the int 1 where it is compared with a
    float (the default of [fidelity], factors.py 67 and 168, and of [opt], filter.py 16). *)
Definition fone : spec_float := S754_finite false 4503599627370496 (-52).
(** [x >= y] and [x < y] are [SFleb y x] and [SFltb x y]. *)
Definition fge (x y : spec_float) : bool := SFleb y x.

(** ** Stability (stability.py 16-55 and 57-97); see FilterModel for the parameters *)
Section fstab.
  Context (ltc ltu : fconcept → fconcept → bool) (side : fconcept → gset name).
  Context (pop : nat → gset fconcept → fconcept).
  (** Lines 44-55 / 86-97. *)
  Fixpoint fstab_loop (fuel k : nat) (cs : list fconcept) (subsets count : list (fconcept * Z)) (W : gset fconcept)
      (st : list (fconcept * spec_float)) : res (list (fconcept * spec_float)) :=
    match cs with
    | [] => Ok st
    | _ =>
        match fuel with
        | 0 => Err OutOfFuel
        | S fuel' =>
            if decide (W = ∅) then Err KeyError else
            let b := pop k W in
            sb ← get_or KeyError (dget b subsets);
            v ← fdiv sb (2 ^ Z.of_nat (size (side b)));
            let st' := dset b v st in
            cs' ← list_remove b cs;
            r ← stab_upd ltu b cs' subsets count (W ∖ {[b]});
            fstab_loop fuel' (S k) cs' r.1.1 r.1.2 r.2 st'
        end
    end.
  (** The whole function. *)
  Definition fstab (first : list fconcept → res fconcept) (cs : list fconcept) : res (list (fconcept * spec_float)) :=
    if forallb chash cs then
      b ← first cs;
      fstab_loop (length cs) 0 cs (stab_subsets side cs) (stab_count ltc cs) {[b]} []
    else Err TypeError.
End fstab.
Definition fcompute_istability (pop : nat → gset fconcept → fconcept) (cs : list fconcept)
  : res (list (fconcept * spec_float)) :=
  fstab (fun y x => bool_decide (y.1 ⊂ x.1)) (fun b x => bool_decide (x.2 ⊂ b.2)) fst pop bottom_of cs.
Definition fcompute_estability (pop : nat → gset fconcept → fconcept) (cs : list fconcept)
  : res (list (fconcept * spec_float)) :=
  fstab (fun y x => bool_decide (y.2 ⊂ x.2)) (fun b x => bool_decide (b.2 ⊂ x.2)) snd pop top_of cs.

(** ** Separation (separation.py 8-28), extent and intent size (extentsize.py 3-10,
    intentsize.py 3-10) *)
(** Lines 12-26 for one concept. *)
Definition fseparation_one (c : context) (x : fconcept) : res spec_float :=
  crossed ← separation_crossed c x;
  let square := Z.of_nat (size x.2 * size x.1) in
  if decide (square = 0%Z) then Ok fone else fdiv square crossed.
(** A dictionary built in a loop over the concepts. *)
Definition findex_of (f : fconcept → res spec_float) (cs : list fconcept) : res (list (fconcept * spec_float)) :=
  l ← mapM (fun x => v ← f x; if chash x then Ok (x, v) else Err TypeError) cs;
  Ok (dict_of l).
Definition fcompute_separation_index (l : lattice) : res (list (fconcept * spec_float)) :=
  findex_of (fseparation_one (lcxt l)) (lconcepts l).
Definition fsize_ratio (n : nat) (X : gset name) : res spec_float := fdiv (Z.of_nat (size X)) (Z.of_nat n).
Definition fcompute_extent_size (l : lattice) : res (list (fconcept * spec_float)) :=
  findex_of (fun x => fsize_ratio (length (objs (lcxt l))) x.1) (lconcepts l).
Definition fcompute_intent_size (l : lattice) : res (list (fconcept * spec_float)) :=
  findex_of (fun x => fsize_ratio (length (atts (lcxt l))) x.2) (lconcepts l).

(** ** filter_concepts (filter.py 16-62) with a float [opt] *)
Definition ffilter_concepts (indexes : list (fconcept * spec_float)) (mode : string) (opt : spec_float) : res csystem :=
  filter_concepts fge indexes mode opt.

(** ** Factors (factors.py) *)
Section ffactors.
  Context (c : context).
  Context (ord : nat → nat → gset name → list name).
  (** algorithm2, lines 85-110; the inner loop (lines 89-105) has no floats. *)
  Fixpoint falg2_loop (fuel k n : nat) (fid : spec_float) (U : gset (name * name))
    : list (fconcept * spec_float) * res () :=
    match fuel with
    | 0 => ([], Err OutOfFuel)
    | S fuel' =>
        match fdiv (Z.of_nat n - Z.of_nat (size U)) (Z.of_nat n) with
        | Err e => ([], Err e)
        | Ok q =>
            if SFltb q fid then
              match alg2_inner c ord (S (length (atts c))) k 0 U ∅ 0 ∅ ∅ with
              | Err e => ([], Err e)
              | Ok (rem, C, D) =>
                  if decide (rem = ∅) then ([], Err AssertionError)
                  else match fdiv (Z.of_nat (size rem)) (Z.of_nat n) with
                       | Err e => ([], Err e)
                       | Ok v => let '(ys, r) := falg2_loop fuel' (S k) n fid (U ∖ rem) in (((C, D), v) :: ys, r)
                       end
              end
            else ([], Ok tt)
        end
    end.
  (** Lines 83-110. *)
  Definition falgorithm2 (fid : spec_float) : list (fconcept * spec_float) * res () :=
    match get_object_attribute_pairs c with
    | Err e => ([], Err e)
    | Ok l => let U := list_to_set l : gset (name * name) in
              falg2_loop (S (size U)) 0 (size U) fid U
    end.

  (** algorithm2_w_condition, lines 204-247. *)
  Fixpoint fwcond_loop (allow : bool) (mn : Z) (ge : bool) (fuel k n : nat) (fid : spec_float)
      (U : gset (name * name)) (removed : gset name) : list (fconcept * spec_float * spec_float) * res () :=
    match fuel with
    | 0 => ([], Err OutOfFuel)
    | S fuel' =>
        match fdiv (Z.of_nat n - Z.of_nat (size U)) (Z.of_nat n) with
        | Err e => ([], Err e)
        | Ok q =>
            if SFltb q fid then
              let avail := (set_map snd U : gset name) ∖ removed in
              match wcond_inner c ord allow mn ge (S (S (length (atts c)))) k 0 U avail ∅ (list_to_set (objs c)) 0 ∅ with
              | Err e => ([], Err e)
              | Ok WReturn => ([], Ok tt)
              | Ok (WRestart Dj) =>
                  fwcond_loop allow mn ge fuel' (S k) n fid (filter (fun p => p.2 ∉ Dj) U) (removed ∪ Dj)
              | Ok (WYield C D rem) =>
                  let U' := U ∖ rem in
                  match fdiv (Z.of_nat (size rem)) (Z.of_nat n), fdiv (Z.of_nat n - Z.of_nat (size U')) (Z.of_nat n) with
                  | Ok v, Ok w => let '(ys, r) := fwcond_loop allow mn ge fuel' (S k) n fid U' removed in
                                  (((C, D), v, w) :: ys, r)
                  | Err e, _ | _, Err e => ([], Err e)
                  end
              end
            else ([], Ok tt)
        end
    end.
  (** Lines 198-247. *)
  Definition falgorithm2_w_condition (allow : bool) (mn : Z) (ge : bool) (fid : spec_float)
    : list (fconcept * spec_float * spec_float) * res () :=
    match get_object_attribute_pairs c with
    | Err e => ([], Err e)
    | Ok l => let U := list_to_set l : gset (name * name) in
              if decide (size U = 0) then ([], Ok tt)
              else fwcond_loop allow mn ge (S (size U)) 0 (size U) fid U ∅
    end.
End ffactors.
