(** * Binary64 numbers as real numbers (no reference to the library modelled) *)
From Coq Require Import ZArith Reals QArith Qreals Qcanon Floats.SpecFloat.

(** The real numbers which are finite floats: integers of at most 53 bits times powers
    of two between 2^-1074 and 2^971. *)
Definition binary64 (r : R) : Prop :=
  exists m e : Z, (Z.abs m < 2 ^ 53)%Z /\ (-1074 <= e <= 971)%Z /\ r = (IZR m * powerRZ 2 e)%R.
(** The value of a finite float. *)
Definition fvalue (x : spec_float) : option R :=
  match x with
  | S754_zero _ => Some 0%R
  | S754_finite s m e => Some (IZR (if s then Zneg m else Zpos m) * powerRZ 2 e)%R
  | _ => None
  end.
(** [x] is a finite float, and no float is nearer to the rational [q]. *)
Definition nearest (q : Qc) (x : spec_float) : Prop :=
  exists r, fvalue x = Some r /\ binary64 r /\
    forall r', binary64 r' -> (Rabs (r - Q2R q) <= Rabs (r' - Q2R q))%R.
(** [x] is a finite float whose value is the rational [q]. *)
Definition exactly (q : Qc) (x : spec_float) : Prop := fvalue x = Some (Q2R q).
(** The values which a Python float can have. *)
Definition pyfloat (x : spec_float) : Prop :=
  match x with
  | S754_finite s m e =>
      ((2 ^ 52 <= Zpos m < 2 ^ 53)%Z /\ (-1074 <= e <= 971)%Z) \/ ((Zpos m < 2 ^ 52)%Z /\ e = (-1074)%Z)
  | _ => True
  end.
(** A fraction. *)
Definition frac (a b : Z) : Qc := Q2Qc (inject_Z a / inject_Z b).
