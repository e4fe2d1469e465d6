(** * Model of gcem on integral types. Paths relative to /repo/include/gcem_incl.
    A value of an integral C++ type is a [Z] together with its type [t : ity];
    callers guarantee [in_range t]. *)
From Verif Require Import Base.

(** abs.hpp:31-43, integral T. [- x] is computed in the promoted type and the
    result converted back to T. *)
Definition abs_int (t : ity) (x : Z) : res Z :=
  if x =? 0 then Ok 0
  else if x <? 0 then let* n := ineg (promote t) x in Ok (icast t n) else Ok x.

(** sgn.hpp:31-43, integral T *)
Definition sgn_int (x : Z) : Z := if 0 <? x then 1 else if x <? 0 then -1 else 0.

(** max.hpp:32-39, min.hpp:32-39 on integral types: operands are converted by
    the usual arithmetic conversions before the comparison; the selected
    operand is converted to common_t<T1,T2>. *)
Definition max_int (t1 t2 : ity) (x y : Z) : Z :=
  let a := arith t1 t2 in
  icast (common t1 t2) (if icast a y <? icast a x then icast a x else icast a y).
Definition min_int (t1 t2 : ity) (x y : Z) : Z :=
  let a := arith t1 t2 in
  icast (common t1 t2) (if icast a x <? icast a y then icast a x else icast a y).

(** is_odd.hpp:31-38, is_even.hpp:31-37 ([x & 1U] of a llint_t) *)
Definition is_odd (x : Z) : bool := negb (Z.land (icast U64 x) 1 =? 0).
Definition is_even (x : Z) : bool := negb (is_odd x).

(** gcd.hpp:27-34. [n] is recursion fuel. *)
Fixpoint gcd_recur (n : nat) (t : ity) (a b : Z) : res Z :=
  match n with
  | O => NoFuel
  | S n' => if b =? 0 then Ok a else let* r := irem t a b in gcd_recur n' t b r
  end.
(** The Euclidean algorithm on 64-bit values needs at most 2*64+1 calls;
    shown in the proofs. *)
Definition gcd_fuel : nat := Z.to_nat 130.
(** gcd.hpp:36-43, 54-61, 73-80 for integral T1, T2. The code only compiles
    when common_t<T1,T2> is at least as wide as int (template deduction). *)
Definition gcd_int (t1 t2 : ity) (a b : Z) : res Z :=
  let tc := common t1 t2 in
  let* a' := abs_int t1 a in
  let* b' := abs_int t2 b in
  gcd_recur gcd_fuel tc (icast tc a') (icast tc b').

(** lcm.hpp:27-34 for integral T *)
Definition lcm_compute_int (t : ity) (a b : Z) : res Z :=
  let* g := gcd_int t t a b in
  let* q := idiv t b g in
  let* m := imul t a q in
  abs_int t m.
(** lcm.hpp:36-43, 56-63 *)
Definition lcm_int (t1 t2 : ity) (a b : Z) : res Z :=
  let tc := common t1 t2 in lcm_compute_int tc (icast tc a) (icast tc b).

(** factorial.hpp:33-56. The literals are converted to T. *)
Definition factorial_table (t : ity) (x : Z) : Z :=
  let T_ := icast t in
  if x =? T_ 0 then T_ 1 else if x =? T_ 1 then T_ 1 else
  if x =? T_ 2 then T_ 2 else if x =? T_ 3 then T_ 6 else
  if x =? T_ 4 then T_ 24 else if x =? T_ 5 then T_ 120 else
  if x =? T_ 6 then T_ 720 else if x =? T_ 7 then T_ 5040 else
  if x =? T_ 8 then T_ 40320 else if x =? T_ 9 then T_ 362880 else
  if x =? T_ 10 then T_ 3628800 else
  if x =? T_ 11 then T_ 39916800 else
  if x =? T_ 12 then T_ 479001600 else
  if x =? T_ 13 then T_ 6227020800 else
  if x =? T_ 14 then T_ 87178291200 else
  if x =? T_ 15 then T_ 1307674368000 else
  if x =? T_ 16 then T_ 20922789888000 else
  if x =? T_ 17 then T_ 355687428096000 else
  if x =? T_ 18 then T_ 6402373705728000 else
  if x =? T_ 19 then T_ 121645100408832000 else
  T_ 2432902008176640000.

(** factorial.hpp:58-69: [x - 1] has the promoted type, so has the recursive
    call, and the product is converted back to T. [n] is recursion fuel. *)
Fixpoint factorial_recur (n : nat) (t : ity) (x : Z) : res Z :=
  match n with
  | O => NoFuel
  | S n' =>
      if x <? icast t 21 then Ok (factorial_table t x)
      else
        let* x1 := isub (promote t) x 1 in
        let* r := factorial_recur n' (promote t) x1 in
        let* m := imul (promote t) x r in
        Ok (icast t m)
  end.
(** factorial.hpp:91-98, integral T. Recursion depth is a parameter. *)
Definition factorial_int (n : nat) (t : ity) (x : Z) : res Z := factorial_recur n t x.

(** binomial_coef.hpp:27-38. [n] is recursion fuel. *)
Fixpoint binomial_coef_recur (fuel : nat) (t : ity) (n k : Z) : res Z :=
  match fuel with
  | O => NoFuel
  | S fuel' =>
      if (k =? 0) || (n =? k) then Ok 1
      else if n =? 0 then Ok 0
      else
        let* n1 := isub t n 1 in
        let* k1 := isub t k 1 in
        let* u := binomial_coef_recur fuel' t n1 k1 in
        let* w := binomial_coef_recur fuel' t n1 k in
        iadd t u w
  end.
(** binomial_coef.hpp:40-47, 61-68, 82-89 for integral T1, T2. With T narrower
    than int the arguments n-1, k-1 of the recursive calls are ints, so every
    call but the outermost is made at type int; the outermost converts its
    result back to T. *)
Definition binomial_coef_int (fuel : nat) (t1 t2 : ity) (n k : Z) : res Z :=
  let tc := common t1 t2 in
  let* r := binomial_coef_recur fuel (promote tc) (icast tc n) (icast tc k) in
  Ok (icast tc r).

(** ** Integer base, integer exponent (pow_integral.hpp)
    The code only compiles for T1 at least as wide as int. *)

(** pow_integral.hpp:37-48 *)
Fixpoint pow_recur_int (n : nat) (t1 : ity) (base val e : Z) : res Z :=
  match n with
  | O => NoFuel
  | S n' =>
      if 1 <? e then
        (if is_odd e then
           let* b2 := imul t1 base base in
           let* v2 := imul t1 val base in
           pow_recur_int n' t1 b2 v2 (e / 2)
         else
           let* b2 := imul t1 base base in
           pow_recur_int n' t1 b2 val (e / 2))
      else if e =? 1 then imul t1 val base else Ok val
  end.
(** Exponents have at most 64 bits; shown sufficient in the proofs. *)
Definition pow_fuel : nat := Z.to_nat 66.

(** pow_integral.hpp:72-93, everything but the final call.
    numeric_limits<T1>::infinity() is 0 for integral T1. *)
Definition pow_cases_int (t1 t2 : ity) (base e : Z) (k : res Z) : res Z :=
  if e =? 3 then (let* b2 := imul t1 base base in imul t1 b2 base)
  else if e =? 2 then imul t1 base base
  else if e =? 1 then Ok base
  else if e =? 0 then Ok 1
  else if e =? imin t2 then Ok 0
  else if e =? imax t2 then Ok 0
  else k.
(** pow_integral.hpp:50-70, 72-93. The recursive call for a negative exponent
    has a positive exponent of the promoted type, and is unfolded once. *)
Definition pow_integral_int (t1 t2 : ity) (base e : Z) : res Z :=
  pow_cases_int t1 t2 base e
    (if isigned t2 && (e <? 0) then
       let* e' := ineg (promote t2) e in
       let* p := pow_cases_int t1 (promote t2) base e'
                   (pow_recur_int pow_fuel t1 base 1 e') in
       idiv t1 1 p
     else pow_recur_int pow_fuel t1 base 1 e).
(** pow.hpp:53-61, 73-80 for integral T1 and T2: the power is computed in T1
    and converted to common_t<T1,T2>. *)
Definition pow_int (t1 t2 : ity) (base e : Z) : res Z :=
  let* p := pow_integral_int t1 t2 base e in Ok (icast (common t1 t2) p).
