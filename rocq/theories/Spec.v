(** * Mathematical specification, independent of the model. *)
From Coq Require Import ZArith Reals Lia.
From Flocq Require Import Core.Core IEEE754.BinarySingleNaN.
Open Scope Z_scope.

(** ** Integers *)

Fixpoint nfact (n : nat) : Z :=
  match n with O => 1 | S m => Z.of_nat n * nfact m end.
(** x! for x >= 0 *)
Definition zfact (x : Z) : Z := nfact (Z.to_nat x).

(** [c] is the number of k-element subsets of an n-element set, through the
    factorial formula; none when k > n. *)
Definition is_choose (n k c : Z) : Prop :=
  if k <=? n then c * (zfact k * zfact (n - k)) = zfact n else c = 0.

(** ** Rounding of reals to integers *)

(** Largest integer not above x. *)
Definition is_floor (x : R) (n : Z) : Prop := (IZR n <= x < IZR n + 1)%R.
(** Smallest integer not below x. *)
Definition is_ceil (x : R) (n : Z) : Prop := (IZR n - 1 < x <= IZR n)%R.
(** Integer part: no further from zero than x, less than 1 away, same side. *)
Definition is_trunc (x : R) (n : Z) : Prop :=
  (Rabs (x - IZR n) < 1 /\ Rabs (IZR n) <= Rabs x /\ 0 <= x * IZR n)%R.
(** Nearest integer, halves away from zero. *)
Definition is_round (x : R) (n : Z) : Prop :=
  (Rabs (x - IZR n) <= 1/2 /\ (Rabs (x - IZR n) = 1/2 -> Rabs x < Rabs (IZR n)))%R.

(** ** Floating-point values *)

(** [x] is a finite floating-point number of value [r]. *)
Definition has_val {p e : Z} (x : binary_float p e) (r : R) : Prop :=
  is_finite x = true /\ B2R x = r.
(** Zero or not below the smallest normal number. *)
Definition zero_or_normal {p e : Z} (x : binary_float p e) : Prop :=
  is_finite x = true /\ (B2R x = 0 \/ bpow radix2 (2 - e) <= Rabs (B2R x))%R.
(** Relative and absolute error bounds. *)
Definition rel_err (approx exact bound : R) : Prop :=
  (Rabs (approx - exact) <= bound * Rabs exact)%R.
Definition abs_err (approx exact bound : R) : Prop :=
  (Rabs (approx - exact) <= bound)%R.
(** Equal numbers: same value; zeros of either sign are equal; NaN equals NaN. *)
Definition same_num {p e : Z} (x y : binary_float p e) : Prop :=
  x = y \/ (exists s s', x = B754_zero s /\ y = B754_zero s').

(** [x] is a number (or infinity) below, above the real [r]. *)
Definition below {p e : Z} (x : binary_float p e) (r : R) : Prop :=
  match x with
  | B754_nan => False
  | B754_infinity s => s = true
  | _ => (B2R x < r)%R
  end.
Definition above {p e : Z} (x : binary_float p e) (r : R) : Prop :=
  match x with
  | B754_nan => False
  | B754_infinity s => s = false
  | _ => (r < B2R x)%R
  end.
(** Zero (of either sign) or subnormal. *)
Definition tiny {p e : Z} (x : binary_float p e) : Prop :=
  is_finite x = true /\ (Rabs (B2R x) < bpow radix2 (2 - e))%R.
