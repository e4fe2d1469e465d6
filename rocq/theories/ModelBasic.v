(** * Model of the basic functions of gcem (sign, comparison, rounding, roots).
    All paths are relative to /repo/include/gcem_incl. A template [f<T>] with
    a floating-point [T] becomes a Gallina function taking the format [f]. *)
From Verif Require Import Base.

(** Convergence settings, gcem_options.hpp:136-195 (macros left at their
    defaults). *)
Definition GCEM_ERF_MAX_ITER : Z := 60.
Definition GCEM_ERF_INV_MAX_ITER : Z := 60.
Definition GCEM_EXP_MAX_ITER_SMALL : Z := 25.
Definition GCEM_LOG_MAX_ITER_SMALL : Z := 25.
Definition GCEM_INCML_BETA_MAX_ITER : Z := 205.
Definition GCEM_INCML_BETA_INV_MAX_ITER : Z := 35.
Definition GCEM_INCML_GAMMA_MAX_ITER : Z := 55.
Definition GCEM_INCML_GAMMA_INV_MAX_ITER : Z := 35.
Definition GCEM_SQRT_MAX_ITER : Z := 100.
Definition GCEM_INV_SQRT_MAX_ITER : Z := 100.
Definition GCEM_TANH_MAX_ITER : Z := 35.

(** Constants, gcem_options.hpp:89-131. All are long double literals. *)
Definition GCEM_LOG_2   : flt F80 := dec F80  6931471805599453094172321214581765680755 40.
Definition GCEM_LOG_10  : flt F80 := dec F80 23025850929940456840179914546843642076011 40.
Definition GCEM_PI      : flt F80 := dec F80 31415926535897932384626433832795028841972 40.
Definition GCEM_LOG_PI  : flt F80 := dec F80 11447298858494001741434273513530587116473 40.
Definition GCEM_LOG_SQRT_2PI : flt F80 := dec F80 9189385332046727417803297364056176398614 40.
Definition GCEM_HALF_PI : flt F80 := dec F80 15707963267948966192313216916397514420986 40.
Definition GCEM_SQRT_PI : flt F80 := dec F80 17724538509055160272981674833411451827975 40.
Definition GCEM_E       : flt F80 := dec F80 27182818284590452353602874713526624977572 40.

Section Basic.
Context (f : fmt).
Notation T := (flt f).
Notation "'#' z" := (ofZ f z) (at level 0, z at level 0, only parsing).

(** is_nan.hpp:33-41 *)
Definition is_nan (x : T) : bool := negb (x ==. x).
(** is_nan.hpp:43-50, 61-68 *)
Definition any_nan (x y : T) : bool := is_nan x || is_nan y.
Definition any_nan3 (x y z : T) : bool := is_nan x || is_nan y || is_nan z.
(** is_nan.hpp:52-59, 70-77 *)
Definition all_nan (x y : T) : bool := is_nan x && is_nan y.
Definition all_nan3 (x y z : T) : bool := is_nan x && is_nan y && is_nan z.

(** is_inf.hpp:32-39 *)
Definition is_neginf (x : T) : bool := x ==. -. infty f.
(** is_inf.hpp:41-48, 50-57, 59-66, 68-75 *)
Definition any_neginf (x y : T) : bool := is_neginf x || is_neginf y.
Definition all_neginf (x y : T) : bool := is_neginf x && is_neginf y.
Definition any_neginf3 (x y z : T) : bool := is_neginf x || is_neginf y || is_neginf z.
Definition all_neginf3 (x y z : T) : bool := is_neginf x && is_neginf y && is_neginf z.
(** is_inf.hpp:79-86 *)
Definition is_posinf (x : T) : bool := x ==. infty f.
(** is_inf.hpp:88-95, 97-104, 106-113, 115-122 *)
Definition any_posinf (x y : T) : bool := is_posinf x || is_posinf y.
Definition all_posinf (x y : T) : bool := is_posinf x && is_posinf y.
Definition any_posinf3 (x y z : T) : bool := is_posinf x || is_posinf y || is_posinf z.
Definition all_posinf3 (x y z : T) : bool := is_posinf x && is_posinf y && is_posinf z.
(** is_inf.hpp:126-133 *)
Definition is_inf (x : T) : bool := is_neginf x || is_posinf x.
(** is_inf.hpp:135-142, 144-151, 153-160, 162-169 *)
Definition any_inf (x y : T) : bool := is_inf x || is_inf y.
Definition all_inf (x y : T) : bool := is_inf x && is_inf y.
Definition any_inf3 (x y z : T) : bool := is_inf x || is_inf y || is_inf z.
Definition all_inf3 (x y z : T) : bool := is_inf x && is_inf y && is_inf z.

(** is_finite.hpp:32-39 *)
Definition is_finite (x : T) : bool := negb (is_nan x) && negb (is_inf x).
(** is_finite.hpp:41-48, 50-57, 59-66, 68-75 *)
Definition any_finite (x y : T) : bool := is_finite x || is_finite y.
Definition all_finite (x y : T) : bool := is_finite x && is_finite y.
Definition any_finite3 (x y z : T) : bool := is_finite x || is_finite y || is_finite z.
Definition all_finite3 (x y z : T) : bool := is_finite x && is_finite y && is_finite z.

(** signbit.hpp:32-42, the non-MSVC branch ([__builtin_signbit]). The single
    NaN of this model has a clear sign; NaN signs are treated in SignBits.v. *)
Definition signbit (x : T) : bool := Bsign x.
(** copysign.hpp:32-39 with T1 = T2 *)
Definition copysign (x y : T) : T := if xorb (signbit x) (signbit y) then -. x else x.
(** neg_zero.hpp:28-35 *)
Definition neg_zero (x : T) : bool :=
  (x ==. #0) && (copysign #1 x ==. #(-1)).
(** sgn.hpp:31-43, floating-point T *)
Definition sgn (x : T) : Z := if x >. #0 then 1 else if x <. #0 then -1 else 0.
(** abs.hpp:31-43, floating-point T *)
Definition abs (x : T) : T :=
  if x ==. #0 then #0 else if x <. #0 then -. x else x.
(** max.hpp:32-39 and min.hpp:32-39 with T1 = T2 *)
Definition max (x y : T) : T := if y <. x then x else y.
Definition min (x y : T) : T := if y >. x then x else y.

(** The magnitude from which every value of the type is an integer; the
    literals 8388608.f, 4503599627370496., 9223372036854775808.l of
    floor.hpp:60,73,86 (same in ceil, trunc, round). *)
Definition whole_threshold : Z :=
  match f with F32 => 8388608 | F64 => 4503599627370496 | F80 => 9223372036854775808 end.

(** The integer part used by floor and ceil: float(static_cast<int>(x)),
    double(static_cast<llint_t>(x)),
    ((long double)static_cast<ullint_t>(abs(x))) * sgn(x);
    floor.hpp:64,77,90 and ceil.hpp:64,77,90. *)
Definition x_whole (x : T) : res T :=
  match f with
  | F32 => let* n := fcast I32 x in Ok #n
  | F64 => let* n := fcast I64 x in Ok #n
  | F80 => let* n := fcast U64 (abs x) in Ok (#n *. #(sgn x))
  end.

(** floor.hpp:27-34 *)
Definition floor_resid (x xw : T) : Z := if (x <. #0) && (x <. xw) then 1 else 0.
(** floor.hpp:36-43 *)
Definition floor_int (x xw : T) : T := xw -. #(floor_resid x xw).
(** floor.hpp:54-91 *)
Definition floor_check_internal (x : T) : res T :=
  if abs x >=. #whole_threshold then Ok x
  else let* xw := x_whole x in Ok (floor_int x xw).
(** floor.hpp:93-110 *)
Definition floor_check (x : T) : res T :=
  if is_nan x then Ok (qNaN f)
  else if negb (is_finite x) then Ok x
  else if fmin f >. abs x then Ok x
  else floor_check_internal x.

(** ceil.hpp:27-34 *)
Definition ceil_resid (x xw : T) : Z := if (x >. #0) && (x >. xw) then 1 else 0.
(** ceil.hpp:36-43 *)
Definition ceil_int (x xw : T) : T := xw +. #(ceil_resid x xw).
(** ceil.hpp:54-91 *)
Definition ceil_check_internal (x : T) : res T :=
  if abs x >=. #whole_threshold then Ok x
  else let* xw := x_whole x in Ok (ceil_int x xw).
(** ceil.hpp:93-110 *)
Definition ceil_check (x : T) : res T :=
  if is_nan x then Ok (qNaN f)
  else if negb (is_finite x) then Ok x
  else if fmin f >. abs x then Ok x
  else ceil_check_internal x.

(** trunc.hpp:27-34 for float and double (both cast to llint_t), and the
    expression of trunc.hpp:81 for long double *)
Definition trunc_int (x : T) : res T :=
  match f with
  | F32 | F64 => let* n := fcast I64 x in Ok #n
  | F80 => let* n := fcast U64 (abs x) in Ok (#n *. #(sgn x))
  end.
(** trunc.hpp:45-82 *)
Definition trunc_check_internal (x : T) : res T :=
  if abs x >=. #whole_threshold then Ok x else trunc_int x.
(** trunc.hpp:84-101 *)
Definition trunc_check (x : T) : res T :=
  if is_nan x then Ok (qNaN f)
  else if negb (is_finite x) then Ok x
  else if fmin f >. abs x then Ok x
  else trunc_check_internal x.

(** T(0.5): a double literal converted to T *)
Definition half : T := dlit f 5 1.

(** round.hpp:27-38 *)
Definition round_int (x : T) : res T :=
  let* fl := floor_check x in
  if abs (x -. fl) >=. half
  then Ok (fl +. #(sgn x))
  else Ok fl.
(** round.hpp:49-86 *)
Definition round_check_internal (x : T) : res T :=
  if abs x >=. #whole_threshold then Ok x else round_int x.
(** round.hpp:88-105 *)
Definition round_check (x : T) : res T :=
  if is_nan x then Ok (qNaN f)
  else if negb (is_finite x) then Ok x
  else if fmin f >. abs x then Ok x
  else let* r := round_check_internal (abs x) in Ok (#(sgn x) *. r).

(** find_whole.hpp:31-42 *)
Definition find_whole (x : T) : res Z :=
  let* fl := floor_check x in
  if abs (x -. fl) >=. half
  then fcast I64 (fl +. #(sgn x))
  else fcast I64 fl.
(** find_fraction.hpp:31-42 *)
Definition find_fraction (x : T) : res T :=
  let* fl := floor_check x in
  if abs (x -. fl) >=. half
  then Ok (x -. fl -. #(sgn x))
  else Ok (x -. fl).

(** find_exponent.hpp:31-53; [n] is recursion fuel. *)
Fixpoint find_exponent (n : nat) (x : T) (exponent : Z) : res Z :=
  match n with
  | O => NoFuel
  | S n' =>
      if x <. dlit f 1 3 then let* e := isub I64 exponent 4 in find_exponent n' (x *. dlit f 10000 0) e
      else if x <. dlit f 1 1 then let* e := isub I64 exponent 2 in find_exponent n' (x *. dlit f 100 0) e
      else if x <. #1 then let* e := isub I64 exponent 1 in find_exponent n' (x *. #10) e
      else if x >. #10 then let* e := iadd I64 exponent 1 in find_exponent n' (x /. #10) e
      else if x >. dlit f 100 0 then let* e := iadd I64 exponent 2 in find_exponent n' (x /. dlit f 100 0) e
      else if x >. dlit f 10000 0 then let* e := iadd I64 exponent 4 in find_exponent n' (x /. dlit f 10000 0) e
      else Ok exponent
  end.

(** mantissa.hpp:31-43; [n] is recursion fuel. *)
Fixpoint mantissa (n : nat) (x : T) : res T :=
  match n with
  | O => NoFuel
  | S n' =>
      if x <. #1 then mantissa n' (x *. #10)
      else if x >. #10 then mantissa n' (x /. #10)
      else Ok x
  end.
(** Fuel used by the callers (log); shown sufficient in the proofs. *)
Definition scale_fuel : nat := Z.to_nat 5000.

(** fmod.hpp:27-41 *)
Definition fmod_check (x y : T) : res T :=
  if any_nan x y then Ok (qNaN f)
  else if negb (all_finite x y) then Ok (qNaN f)
  else let* t := trunc_check (x /. y) in Ok (x -. t *. y).

(** sqrt.hpp:31-46. [n] counts the remaining calls; the code's own limit is
    [count < GCEM_SQRT_MAX_ITER]. *)
Fixpoint sqrt_recur (n : nat) (x xn : T) (count : Z) : res T :=
  match n with
  | O => NoFuel
  | S n' =>
      if abs (xn -. x /. xn) /. (#1 +. xn) <. fmin f then Ok xn
      else if count <? GCEM_SQRT_MAX_ITER
           then sqrt_recur n' x (half *. (xn +. x /. xn)) (count + 1)
           else Ok xn
  end.
Definition sqrt_iter_fuel : nat := Z.to_nat (GCEM_SQRT_MAX_ITER + 1).
(** sqrt.hpp:48-65 *)
Fixpoint sqrt_simplify (n : nat) (x m_val : T) : res T :=
  match n with
  | O => NoFuel
  | S n' =>
      if x >. dlit f 100000000 0 then sqrt_simplify n' (x /. dlit f 100000000 0) (dlit f 10000 0 *. m_val)
      else if x >. dlit f 1000000 0 then sqrt_simplify n' (x /. dlit f 1000000 0) (dlit f 1000 0 *. m_val)
      else if x >. dlit f 10000 0 then sqrt_simplify n' (x /. dlit f 10000 0) (dlit f 100 0 *. m_val)
      else if x >. #100 then sqrt_simplify n' (x /. #100) (#10 *. m_val)
      else if x >. #4 then sqrt_simplify n' (x /. #4) (#2 *. m_val)
      else let* r := sqrt_recur sqrt_iter_fuel x (x /. #2) 0 in Ok (m_val *. r)
  end.
Definition sqrt_fuel : nat := Z.to_nat 800.
(** sqrt.hpp:67-88 *)
Definition sqrt_check (x : T) : res T :=
  if is_nan x then Ok (qNaN f)
  else if x <. #0 then Ok (qNaN f)
  else if is_posinf x then Ok x
  else if fmin f >. abs x then Ok #0
  else if fmin f >. abs (#1 -. x) then Ok x
  else sqrt_simplify sqrt_fuel x #1.

(** inv_sqrt.hpp:31-44 *)
Fixpoint inv_sqrt_recur (n : nat) (x xn : T) (count : Z) : res T :=
  match n with
  | O => NoFuel
  | S n' =>
      if abs (xn -. #1 /. (x *. xn)) /. (#1 +. xn) <. fmin f then Ok xn
      else if count <? GCEM_INV_SQRT_MAX_ITER
           then inv_sqrt_recur n' x (half *. (xn +. #1 /. (x *. xn))) (count + 1)
           else Ok xn
  end.
(** inv_sqrt.hpp:46-67 *)
Definition inv_sqrt_check (x : T) : res T :=
  if is_nan x then Ok (qNaN f)
  else if x <. #0 then Ok (qNaN f)
  else if is_posinf x then Ok #0
  else if fmin f >. abs x then Ok (infty f)
  else if fmin f >. abs (#1 -. x) then Ok x
  else inv_sqrt_recur (Z.to_nat (GCEM_INV_SQRT_MAX_ITER + 1)) x (x /. #2) 0.

(** hypot.hpp:33-40 *)
Definition hypot_compute (x ydx : T) : res T :=
  let* s := sqrt_check (#1 +. ydx *. ydx) in Ok (abs x *. s).
(** hypot.hpp:42-60 *)
Definition hypot_vals_check (x y : T) : res T :=
  if any_nan x y then Ok (qNaN f)
  else if any_inf x y then Ok (infty f)
  else if fmin f >. abs x then Ok (abs y)
  else if fmin f >. abs y then Ok (abs x)
  else hypot_compute x (y /. x).

End Basic.

Arguments is_nan {f}. Arguments any_nan {f}. Arguments any_nan3 {f}.
Arguments is_neginf {f}. Arguments is_posinf {f}. Arguments is_inf {f}. Arguments is_finite {f}.
Arguments all_finite {f}. Arguments any_inf {f}.
Arguments signbit {f}. Arguments copysign {f}. Arguments neg_zero {f}. Arguments sgn {f}. Arguments abs {f}.
Arguments max {f}. Arguments min {f}. Arguments floor_check {f}. Arguments ceil_check {f}.
Arguments trunc_check {f}. Arguments round_check {f}. Arguments find_whole {f}. Arguments find_fraction {f}.
Arguments find_exponent {f}. Arguments mantissa {f}. Arguments fmod_check {f}.
Arguments sqrt_recur {f}. Arguments sqrt_simplify {f}. Arguments sqrt_check {f}.
Arguments inv_sqrt_recur {f}. Arguments inv_sqrt_check {f}. Arguments hypot_vals_check {f}. Arguments hypot_compute {f}.
