(** * Model of the elementary functions of gcem: powers, exponential,
    logarithm, trigonometric and hyperbolic functions and their inverses.
    Paths relative to /repo/include/gcem_incl.

    [v] selects the language standard the header is compiled under
    ([#if __cplusplus >= 201402L]), [f] the floating-point type. *)
From Verif Require Import Base ModelBasic ModelInt.

Inductive cxx := Cxx11 | Cxx14.

Section Pow.
Context (f : fmt).
Notation T := (flt f).
Notation "'#' z" := (ofZ f z) (at level 0, z at level 0, only parsing).

(** pow_integral.hpp:37-48, floating-point T1 *)
Fixpoint pow_recur_flt (n : nat) (base val : T) (e : Z) : res T :=
  match n with
  | O => NoFuel
  | S n' =>
      if 1 <? e then
        (if is_odd e then pow_recur_flt n' (base *. base) (val *. base) (e / 2)
         else pow_recur_flt n' (base *. base) val (e / 2))
      else Ok (if e =? 1 then val *. base else val)
  end.
(** pow_integral.hpp:72-93, everything but the final call *)
Definition pow_cases_flt (t2 : ity) (base : T) (e : Z) (k : res T) : res T :=
  if e =? 3 then Ok (base *. base *. base)
  else if e =? 2 then Ok (base *. base)
  else if e =? 1 then Ok base
  else if e =? 0 then Ok #1
  else if e =? imin t2 then Ok #0
  else if e =? imax t2 then Ok (infty f)
  else k.
(** pow_integral.hpp:50-70, 72-93, 95-102, 117-124, integral T2. The recursive
    call for a negative exponent is unfolded once (its exponent is positive). *)
Definition pow_integral (t2 : ity) (base : T) (e : Z) : res T :=
  pow_cases_flt t2 base e
    (if isigned t2 && (e <? 0) then
       let* e' := ineg (promote t2) e in
       let* p := pow_cases_flt (promote t2) base e' (pow_recur_flt pow_fuel base #1 e') in
       Ok (#1 /. p)
     else pow_recur_flt pow_fuel base #1 e).
End Pow.
Arguments pow_recur_flt {f}. Arguments pow_cases_flt {f}. Arguments pow_integral {f}.

Section Elem.
Context (v : cxx) (f : fmt).
Notation T := (flt f).
Notation "'#' z" := (ofZ f z) (at level 0, z at level 0, only parsing).

(** ** exp.hpp *)

(** exp.hpp:35-51 (C++14 loop) and 55-66 (C++11 recursion) *)
Definition exp_cf_step (x : T) (depth : Z) (r : T) : T :=
  #1 +. x /. #(depth - 1) -. x /. #depth /. r.
Definition exp_cf_recur (x : T) (depth : Z) : T :=
  match v with
  | Cxx14 => for_down (GCEM_EXP_MAX_ITER_SMALL - 1) depth (exp_cf_step x) #1
  | Cxx11 => rec_up depth GCEM_EXP_MAX_ITER_SMALL (exp_cf_step x) #1
  end.
(** exp.hpp:70-77 *)
Definition exp_cf (x : T) : T := #1 /. (#1 -. x /. exp_cf_recur x 2).
(** exp.hpp:79-86: the integer power of e is computed in long double *)
Definition exp_split (x : T) : res T :=
  let* n := find_whole x in
  let* p := pow_integral I64 GCEM_E n in
  let* r := find_fraction x in
  Ok (conv f p *. exp_cf r).
(** exp.hpp:88-109 *)
Definition exp_check (x : T) : res T :=
  if is_nan x then Ok (qNaN f)
  else if is_neginf x then Ok #0
  else if fmin f >. abs x then Ok #1
  else if is_posinf x then Ok (infty f)
  else if abs x <. #2 then Ok (exp_cf x)
  else exp_split x.

(** expm1.hpp:31-39 *)
Definition expm1_compute (x : T) : T :=
  x +. x *. (x /. #2 +. x *. (x /. #6 +. x *. (x /. #24 +. x *. x /. #120))).
(** expm1.hpp:41-56 *)
Definition expm1_check (x : T) : res T :=
  if is_nan x then Ok (qNaN f)
  else if abs x >. dlit f 1 4 then (let* e := exp_check x in Ok (e -. #1))
  else Ok (expm1_compute x).

(** ** log.hpp *)

(** log.hpp:36-52 (C++14) and 56-67 (C++11) *)
Definition log_cf_step (xx : T) (depth : Z) (r : T) : T :=
  #(2 * depth - 1) -. #(depth * depth) *. xx /. r.
Definition log_cf_main (xx : T) (depth : Z) : T :=
  match v with
  | Cxx14 => for_down (GCEM_LOG_MAX_ITER_SMALL - 1) depth (log_cf_step xx)
                      #(2 * (GCEM_LOG_MAX_ITER_SMALL - 1 + 1) - 1)
  | Cxx11 => rec_up depth GCEM_LOG_MAX_ITER_SMALL (log_cf_step xx)
                    #(2 * GCEM_LOG_MAX_ITER_SMALL - 1)
  end.
(** log.hpp:71-78 *)
Definition log_cf_begin (x : T) : T := #2 *. x /. log_cf_main (x *. x) 1.
(** log.hpp:80-87 *)
Definition log_main (x : T) : T := log_cf_begin ((x -. #1) /. (x +. #1)).
(** log.hpp:89-104 *)
Definition log_mantissa_integer (x : Z) : flt F80 :=
  if x =? 2 then dec F80  6931471805599453094172321214581765680755 40
  else if x =? 3 then dec F80 10986122886681096913952452369225257046475 40
  else if x =? 4 then dec F80 13862943611198906188344642429163531361510 40
  else if x =? 5 then dec F80 16094379124341003746007593332261876395256 40
  else if x =? 6 then dec F80 17917594692280550008124773583807022727230 40
  else if x =? 7 then dec F80 19459101490553133051053527434431797296371 40
  else if x =? 8 then dec F80 20794415416798359282516963643745297042265 40
  else if x =? 9 then dec F80 21972245773362193827904904738450514092950 40
  else if x =? 10 then dec F80 23025850929940456840179914546843642076011 40
  else dec F80 0 0.
(** log.hpp:106-113 *)
Definition log_mantissa (x : T) : res T :=
  let* n := fcast I32 x in
  Ok (log_main (x /. #n) +. conv f (log_mantissa_integer n)).
(** log.hpp:115-122 *)
Definition log_breakup (x : T) : res T :=
  let* m := mantissa scale_fuel x in
  let* lm := log_mantissa m in
  let* e := find_exponent scale_fuel x 0 in
  Ok (lm +. conv f GCEM_LOG_10 *. #e).
(** log.hpp:124-150 *)
Definition log_check (x : T) : res T :=
  if is_nan x then Ok (qNaN f)
  else if x <. #0 then Ok (qNaN f)
  else if fmin f >. x then Ok (-. infty f)
  else if fmin f >. abs (x -. #1) then Ok #0
  else if x ==. infty f then Ok (infty f)
  else if (x <. dlit f 5 1) || (x >. dlit f 15 1) then log_breakup x
  else Ok (log_main x).

(** log1p.hpp:35-43 *)
Definition log1p_compute (x : T) : T :=
  x +. x *. (-. x /. #2 +. x *. (x /. #3 +. x *. (-. x /. #4 +. x *. x /. #5))).
(** log1p.hpp:45-60 *)
Definition log1p_check (x : T) : res T :=
  if is_nan x then Ok (qNaN f)
  else if abs x >. dlit f 1 4 then log_check (#1 +. x)
  else Ok (log1p_compute x).
(** log2.hpp:31-39 and log10.hpp:31-39, floating-point T; the division is in
    long double. *)
Definition log2_check (x : T) : res T :=
  let* l := log_check x in Ok (conv f (conv F80 l /. GCEM_LOG_2)).
Definition log10_check (x : T) : res T :=
  let* l := log_check x in Ok (conv f (conv F80 l /. GCEM_LOG_10)).

(** ** pow.hpp, floating-point exponent *)

(** pow.hpp:31-38 *)
Definition pow_dbl (base e : T) : res T :=
  let* l := log_check base in exp_check (e *. l).
(** pow.hpp:40-51 with T1 = T2 = T *)
Definition pow_check (base e : T) : res T :=
  if base <. #0 then Ok (qNaN f) else pow_dbl base e.

(** ** tan.hpp, sin.hpp, cos.hpp *)

(** tan.hpp:31-38 *)
Definition tan_series_exp_long (z : T) : res T :=
  let* z3 := pow_integral I32 z 3 in
  let* z5 := pow_integral I32 z 5 in
  let* z7 := pow_integral I32 z 7 in
  Ok (#(-1) /. z +. (z /. #3 +. (z3 /. #45 +. (#2 *. z5 /. #945 +. z7 /. #4725)))).
(** tan.hpp:40-54 *)
Definition tan_series_exp (x : T) : res T :=
  if fmin f >. abs (x -. conv f GCEM_HALF_PI) then Ok (dlit f 16331240000000000 0)
  else tan_series_exp_long (x -. conv f GCEM_HALF_PI).
(** tan.hpp:56-67 *)
Definition tan_cf_step (xx : T) (depth : Z) (r : T) : T := #(2 * depth - 1) -. xx /. r.
Definition tan_cf_recur (xx : T) (depth max_depth : Z) : T :=
  rec_up depth max_depth (tan_cf_step xx) #(2 * max_depth - 1).
(** tan.hpp:69-84 *)
Definition tan_cf_main (x : T) : res T :=
  if (x >. dlit f 155 2) && (x <. dlit f 160 2) then tan_series_exp x
  else if x >. dlit f 14 1 then Ok (x /. tan_cf_recur (x *. x) 1 45)
  else if x >. #1 then Ok (x /. tan_cf_recur (x *. x) 1 35)
  else Ok (x /. tan_cf_recur (x *. x) 1 25).
(** tan.hpp:86-98; [n] is recursion fuel, the code stops by itself at
    [count > 1]. *)
Fixpoint tan_begin (n : nat) (x : T) (count : Z) : res T :=
  match n with
  | O => NoFuel
  | S n' =>
      if x >. conv f GCEM_PI then
        (if 1 <? count then Ok (qNaN f)
         else let* fl := floor_check (x /. conv f GCEM_PI) in
              tan_begin n' (x -. conv f GCEM_PI *. fl) (count + 1))
      else tan_cf_main x
  end.
(** tan.hpp:100-116 *)
Definition tan_check (x : T) : res T :=
  if is_nan x then Ok (qNaN f)
  else if fmin f >. abs x then Ok #0
  else if x <. #0 then (let* t := tan_begin 3 (-. x) 0 in Ok (-. t))
  else tan_begin 3 x 0.

(** sin.hpp:33-40 *)
Definition sin_compute (x : T) : T := #2 *. x /. (#1 +. x *. x).
(** sin.hpp:42-65 *)
Definition sin_check (x : T) : res T :=
  if is_nan x then Ok (qNaN f)
  else if fmin f >. abs x then Ok #0
  else if fmin f >. abs (x -. conv f GCEM_HALF_PI) then Ok #1
  else if fmin f >. abs (x +. conv f GCEM_HALF_PI) then Ok (-. #1)
  else if fmin f >. abs (x -. conv f GCEM_PI) then Ok #0
  else if fmin f >. abs (x +. conv f GCEM_PI) then Ok (-. #0)
  else let* t := tan_check (x /. #2) in Ok (sin_compute t).
(** cos.hpp:31-38 *)
Definition cos_compute (x : T) : T := (#1 -. x *. x) /. (#1 +. x *. x).
(** cos.hpp:40-63 *)
Definition cos_check (x : T) : res T :=
  if is_nan x then Ok (qNaN f)
  else if fmin f >. abs x then Ok #1
  else if fmin f >. abs (x -. conv f GCEM_HALF_PI) then Ok #0
  else if fmin f >. abs (x +. conv f GCEM_HALF_PI) then Ok #0
  else if fmin f >. abs (x -. conv f GCEM_PI) then Ok (-. #1)
  else if fmin f >. abs (x +. conv f GCEM_PI) then Ok (-. #1)
  else let* t := tan_check (x /. #2) in Ok (cos_compute t).

(** ** atan.hpp *)

(** atan.hpp:37-45 *)
Definition atan_series_order_calc (xx x_pow : T) (order : Z) : T :=
  #1 /. (#((order - 1) * 4 - 1) *. x_pow) -. #1 /. (#((order - 1) * 4 + 1) *. x_pow *. xx).
(** atan.hpp:49-75 (C++14), called with max_order >= 2 only. The leading
    pi/2 - 1/x is a long double expression; [res += ...] is evaluated in long
    double and converted to T. *)
Definition atan_series_order_14 (x : T) (max_order : Z) : res T :=
  let xx := x *. x in
  let* p := pow_integral U32 x (4 * max_order - 5) in
  let* s := for_down (max_order - 1) 2
              (fun depth acc =>
                 let* r := acc in
                 let* q := pow_integral U32 x (4 * depth - 5) in
                 Ok (r +. atan_series_order_calc xx q depth))
              (Ok (atan_series_order_calc xx p max_order)) in
  Ok (conv f (conv F80 s +. (GCEM_HALF_PI -. conv F80 (#1 /. x)))).
(** atan.hpp:79-95 (C++11), order > 1: [xx] is the squared argument and
    [n] = max_order - order. *)
Fixpoint atan_series_tail_11 (n : nat) (xx x_pow : T) (order : Z) : T :=
  match n with
  | O => atan_series_order_calc xx x_pow order
  | S n' => atan_series_order_calc xx x_pow order
            +. atan_series_tail_11 n' xx (x_pow *. xx *. xx) (order + 1)
  end.
(** atan.hpp:79-95 (C++11), order = 1 *)
Definition atan_series_order_11 (x : T) (max_order : Z) : res T :=
  let* x3 := pow_integral I32 x 3 in
  let tail := atan_series_tail_11 (Z.to_nat (max_order - 2)) (x *. x) x3 2 in
  Ok (conv f ((GCEM_HALF_PI -. conv F80 (#1 /. x)) +. conv F80 tail)).
Definition atan_series_order (x : T) (max_order : Z) : res T :=
  match v with Cxx14 => atan_series_order_14 x max_order
             | Cxx11 => atan_series_order_11 x max_order end.
(** atan.hpp:99-114 *)
Definition atan_series_main (x : T) : res T :=
  if x <. #3 then atan_series_order x 10
  else if x <. #4 then atan_series_order x 9
  else if x <. #5 then atan_series_order x 8
  else if x <. #7 then atan_series_order x 7
  else if x <. #11 then atan_series_order x 6
  else if x <. #25 then atan_series_order x 5
  else if x <. #100 then atan_series_order x 4
  else if x <. #1000 then atan_series_order x 3
  else atan_series_order x 2.
(** atan.hpp:120-136 (C++14) and 140-151 (C++11) *)
Definition atan_cf_step (xx : T) (depth : Z) (r : T) : T :=
  #(2 * depth - 1) +. #(depth * depth) *. xx /. r.
Definition atan_cf_recur (xx : T) (depth max_depth : Z) : T :=
  match v with
  | Cxx14 => for_down (max_depth - 1) depth (atan_cf_step xx) #(2 * (max_depth - 1 + 1) - 1)
  | Cxx11 => rec_up depth max_depth (atan_cf_step xx) #(2 * max_depth - 1)
  end.
(** atan.hpp:155-166 *)
Definition atan_cf_main (x : T) : T :=
  if x <. dlit f 5 1 then x /. atan_cf_recur (x *. x) 1 15
  else if x <. #1 then x /. atan_cf_recur (x *. x) 1 25
  else if x <. dlit f 15 1 then x /. atan_cf_recur (x *. x) 1 35
  else if x <. #2 then x /. atan_cf_recur (x *. x) 1 45
  else x /. atan_cf_recur (x *. x) 1 52.
(** atan.hpp:170-177 *)
Definition atan_begin (x : T) : res T :=
  if x >. dlit f 25 1 then atan_series_main x else Ok (atan_cf_main x).
(** atan.hpp:181-197 *)
Definition atan_check (x : T) : res T :=
  if is_nan x then Ok (qNaN f)
  else if fmin f >. abs x then Ok #0
  else if x <. #0 then (let* t := atan_begin (-. x) in Ok (-. t))
  else atan_begin x.

(** atan2.hpp:31-56. The two argument swaps in atan2.hpp:64 and 85 cancel. *)
Definition atan2_compute (y x : T) : res T :=
  if any_nan y x then Ok (qNaN f)
  else if fmin f >. abs x then
    Ok (if fmin f >. abs y then
          (if neg_zero y then (if neg_zero x then -. conv f GCEM_PI else -. #0)
           else (if neg_zero x then conv f GCEM_PI else #0))
        else if y >. #0 then conv f GCEM_HALF_PI else -. conv f GCEM_HALF_PI)
  else if x <. #0 then
    (if y <. #0 then (let* a := atan_check (y /. x) in Ok (a -. conv f GCEM_PI))
     else (let* a := atan_check (y /. x) in Ok (a +. conv f GCEM_PI)))
  else atan_check (y /. x).

(** asin.hpp:31-47 *)
Definition asin_compute (x : T) : res T :=
  if x >. #1 then Ok (qNaN f)
  else if fmin f >. abs (x -. #1) then Ok (conv f GCEM_HALF_PI)
  else if fmin f >. abs x then Ok #0
  else let* s := sqrt_check (#1 -. x *. x) in atan_check (x /. s).
(** asin.hpp:49-62 *)
Definition asin_check (x : T) : res T :=
  if is_nan x then Ok (qNaN f)
  else if x <. #0 then (let* r := asin_compute (-. x) in Ok (-. r))
  else asin_compute x.
(** acos.hpp:31-47 *)
Definition acos_compute (x : T) : res T :=
  if abs x >. #1 then Ok (qNaN f)
  else if fmin f >. abs (x -. #1) then Ok #0
  else if fmin f >. abs x then Ok (conv f GCEM_HALF_PI)
  else let* s := sqrt_check (#1 -. x *. x) in atan_check (s /. x).
(** acos.hpp:49-64 *)
Definition acos_check (x : T) : res T :=
  if is_nan x then Ok (qNaN f)
  else if x >. #0 then acos_compute x
  else let* r := acos_compute (-. x) in Ok (conv f GCEM_PI -. r).

(** ** hyperbolic functions *)

(** sinh.hpp:31-45 *)
Definition sinh_check (x : T) : res T :=
  if is_nan x then Ok (qNaN f)
  else if fmin f >. abs x then Ok #0
  else let* a := exp_check x in let* b := exp_check (-. x) in Ok ((a -. b) /. #2).
(** cosh.hpp:31-45 *)
Definition cosh_compute (x : T) : res T :=
  if is_nan x then Ok (qNaN f)
  else if fmin f >. abs x then Ok #1
  else let* a := exp_check x in let* b := exp_check (-. x) in Ok ((a +. b) /. #2).
(** tanh.hpp:33-49 (C++14) and 53-64 (C++11) *)
Definition tanh_cf_step (xx : T) (depth : Z) (r : T) : T := #(2 * depth - 1) +. xx /. r.
Definition tanh_cf (xx : T) (depth : Z) : T :=
  match v with
  | Cxx14 => for_down (GCEM_TANH_MAX_ITER - 1) depth (tanh_cf_step xx)
                      #(2 * (GCEM_TANH_MAX_ITER - 1 + 1) - 1)
  | Cxx11 => rec_up depth GCEM_TANH_MAX_ITER (tanh_cf_step xx) #(2 * GCEM_TANH_MAX_ITER - 1)
  end.
(** tanh.hpp:68-75 *)
Definition tanh_begin (x : T) : T := x /. tanh_cf (x *. x) 1.
(** tanh.hpp:77-93 *)
Definition tanh_check (x : T) : res T :=
  if is_nan x then Ok (qNaN f)
  else if fmin f >. abs x then Ok #0
  else if x <. #0 then Ok (-. tanh_begin (-. x))
  else Ok (tanh_begin x).
(** asinh.hpp:31-45 *)
Definition asinh_compute (x : T) : res T :=
  if is_nan x then Ok (qNaN f)
  else if fmin f >. abs x then Ok #0
  else let* s := sqrt_check (x *. x +. #1) in log_check (x +. s).
(** acosh.hpp:31-48 *)
Definition acosh_compute (x : T) : res T :=
  if is_nan x then Ok (qNaN f)
  else if x <. #1 then Ok (qNaN f)
  else if fmin f >. abs (x -. #1) then Ok #0
  else let* s := sqrt_check (x *. x -. #1) in log_check (x +. s).
(** atanh.hpp:31-38 *)
Definition atanh_compute (x : T) : res T :=
  let* l := log_check ((#1 +. x) /. (#1 -. x)) in Ok (l /. #2).
(** atanh.hpp:40-59 *)
Definition atanh_check (x : T) : res T :=
  if is_nan x then Ok (qNaN f)
  else if #1 <. abs x then Ok (qNaN f)
  else if fmin f >. #1 -. abs x then Ok (#(sgn x) *. infty f)
  else if fmin f >. abs x then Ok #0
  else atanh_compute x.

End Elem.

Arguments exp_cf_step {f}. Arguments exp_cf_recur v {f}. Arguments exp_cf v {f}. Arguments exp_split v {f}. Arguments exp_check v {f}.
Arguments expm1_compute {f}. Arguments expm1_check v {f}.
Arguments log_cf_step {f}. Arguments log_cf_main v {f}. Arguments log_cf_begin v {f}. Arguments log_main v {f}. Arguments log_mantissa v {f}.
Arguments log_breakup v {f}. Arguments log_check v {f}. Arguments log1p_compute {f}. Arguments log1p_check v {f}.
Arguments log2_check v {f}. Arguments log10_check v {f}. Arguments pow_dbl v {f}. Arguments pow_check v {f}.
Arguments tan_series_exp_long {f}. Arguments tan_series_exp {f}. Arguments tan_cf_step {f}. Arguments tan_cf_recur {f}.
Arguments tan_cf_main {f}. Arguments tan_begin {f}. Arguments tan_check {f}. Arguments sin_compute {f}. Arguments sin_check {f}.
Arguments cos_compute {f}. Arguments cos_check {f}. Arguments atan_series_order_calc {f}. Arguments atan_series_order_14 {f}.
Arguments atan_series_tail_11 {f}. Arguments atan_series_order_11 {f}. Arguments atan_series_order v {f}. Arguments atan_series_main v {f}.
Arguments atan_cf_step {f}. Arguments atan_cf_recur v {f}. Arguments atan_cf_main v {f}. Arguments atan_begin v {f}. Arguments atan_check v {f}.
Arguments atan2_compute v {f}. Arguments asin_compute v {f}. Arguments asin_check v {f}. Arguments acos_compute v {f}. Arguments acos_check v {f}.
Arguments sinh_check v {f}. Arguments cosh_compute v {f}. Arguments tanh_cf_step {f}. Arguments tanh_cf v {f}. Arguments tanh_begin v {f}.
Arguments tanh_check v {f}. Arguments asinh_compute v {f}. Arguments acosh_compute v {f}. Arguments atanh_compute v {f}. Arguments atanh_check v {f}.
