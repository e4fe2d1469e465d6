(** * The public functions of gcem (namespace gcem), on arguments of any
    arithmetic type. Paths relative to /repo/include/gcem_incl. *)
From Verif Require Import Base ModelBasic ModelInt ModelElem ModelSpecial.

(** An argument: a value of an integral type or of a floating-point type. *)
Inductive arg :=
| AInt (t : ity) (z : Z)
| AFlt (f : fmt) (x : flt f).

(** Integral arguments hold a value of their type. *)
Definition arg_ok (a : arg) : Prop :=
  match a with AInt t z => in_range t z | AFlt _ _ => True end.

(** return_t<T>, gcem_options.hpp:76-77, and static_cast<return_t<T>>(x) *)
Definition ret_fmt (a : arg) : fmt := match a with AInt _ _ => F64 | AFlt f _ => f end.
Definition ret_val (a : arg) : flt (ret_fmt a) :=
  match a return flt (ret_fmt a) with AInt _ z => ofZ F64 z | AFlt _ x => x end.

(** The wider of two formats; common_return_t<T1,T2>, gcem_options.hpp:79-83:
    an integral type never widens a floating-point type. *)
Definition fmt_max (f g : fmt) : fmt :=
  match f, g with
  | F80, _ | _, F80 => F80 | F64, _ | _, F64 => F64 | F32, F32 => F32
  end.
Definition cr_fmt (a b : arg) : fmt :=
  match a, b with
  | AInt _ _, AInt _ _ => F64
  | AInt _ _, AFlt g _ => g
  | AFlt f _, AInt _ _ => f
  | AFlt f _, AFlt g _ => fmt_max f g
  end.
Definition to_fmt (g : fmt) (a : arg) : flt g :=
  match a with AInt _ z => ofZ g z | AFlt _ x => conv g x end.
Definition cr_fmt3 (a b c : arg) : fmt :=
  match a with
  | AInt _ _ => cr_fmt b c
  | AFlt f _ => match b, c with
                | AInt _ _, AInt _ _ => f
                | _, _ => fmt_max f (cr_fmt b c)
                end
  end.

(** ** Functions of one argument returning return_t<T>.
    [lift1]: static_cast<return_t<T>>(x), then the *_check function; e.g.
    sqrt.hpp:100-107. Where C++ recursion has no bound of its own
    (factorial, binomial_coef, tgamma, lmgamma) the recursion depth available
    is the parameter [n]. *)
Definition lift1 (h : forall f, flt f -> res (flt f)) (a : arg) : res (flt (ret_fmt a)) :=
  h (ret_fmt a) (ret_val a).

Definition gcem_floor := lift1 (@floor_check).      (* floor.hpp:120-128 *)
Definition gcem_ceil := lift1 (@ceil_check).        (* ceil.hpp:120-128 *)
Definition gcem_trunc := lift1 (@trunc_check).      (* trunc.hpp:111-119 *)
Definition gcem_round := lift1 (@round_check).      (* round.hpp:115-123 *)
Definition gcem_sqrt := lift1 (@sqrt_check).        (* sqrt.hpp:100-107 *)
Definition gcem_inv_sqrt := lift1 (@inv_sqrt_check). (* inv_sqrt.hpp:79-86 *)
Definition gcem_tan := lift1 (@tan_check).          (* tan.hpp:131-138 *)
Definition gcem_sin := lift1 (@sin_check).          (* sin.hpp:76-83 *)
Definition gcem_cos := lift1 (@cos_check).          (* cos.hpp:74-81 *)

Section Api.
Context (v : cxx).

Definition gcem_exp := lift1 (@exp_check v).        (* exp.hpp:121-128 *)
Definition gcem_expm1 := lift1 (@expm1_check v).    (* expm1.hpp:67-74 *)
Definition gcem_log1p := lift1 (@log1p_check v).    (* log1p.hpp:71-78 *)
Definition gcem_atan := lift1 (@atan_check v).      (* atan.hpp:208-215 *)
Definition gcem_asin := lift1 (@asin_check v).      (* asin.hpp:73-80 *)
Definition gcem_acos := lift1 (@acos_check v).      (* acos.hpp:75-82 *)
Definition gcem_sinh := lift1 (@sinh_check v).      (* sinh.hpp:56-63 *)
Definition gcem_cosh := lift1 (@cosh_compute v).    (* cosh.hpp:56-63 *)
Definition gcem_tanh := lift1 (@tanh_check v).      (* tanh.hpp:104-111 *)
Definition gcem_asinh := lift1 (@asinh_compute v).  (* asinh.hpp:56-63 *)
Definition gcem_acosh := lift1 (@acosh_compute v).  (* acosh.hpp:59-66 *)
Definition gcem_atanh := lift1 (@atanh_check v).    (* atanh.hpp:70-77 *)
Definition gcem_lgamma := lift1 (@lgamma_check v).  (* lgamma.hpp:126-133 *)
Definition gcem_tgamma (n : nat) := lift1 (fun f => @tgamma_check v f n). (* tgamma.hpp:71-78 *)
Definition gcem_erf := lift1 (@erf_check v).        (* erf.hpp:182-189 *)
Definition gcem_erf_inv := lift1 (@erf_inv_begin v). (* erf_inv.hpp:254-261 *)

(** log.hpp:152-165, 177-184 *)
Definition gcem_log (a : arg) : res (flt (ret_fmt a)) :=
  match a return res (flt (ret_fmt a)) with
  | AInt _ z => if z =? 0 then Ok (-. infty F64)
                else if 1 <? z then log_check v (ofZ F64 z)
                else Ok (ofZ F64 0)
  | AFlt f x => log_check v x
  end.
(** log2.hpp:31-39, 50-57 and log10.hpp:31-39, 50-57 *)
Definition gcem_log2 (a : arg) : res (flt (ret_fmt a)) :=
  let* l := gcem_log a in Ok (conv (ret_fmt a) (conv F80 l /. GCEM_LOG_2)).
Definition gcem_log10 (a : arg) : res (flt (ret_fmt a)) :=
  let* l := gcem_log a in Ok (conv (ret_fmt a) (conv F80 l /. GCEM_LOG_10)).

(** ** Functions of several arguments returning common_return_t *)
Definition lift2 (h : forall f, flt f -> flt f -> res (flt f)) (a b : arg)
  : res (flt (cr_fmt a b)) := h (cr_fmt a b) (to_fmt _ a) (to_fmt _ b).
Definition lift3 (h : forall f, flt f -> flt f -> flt f -> res (flt f)) (a b c : arg)
  : res (flt (cr_fmt3 a b c)) := h (cr_fmt3 a b c) (to_fmt _ a) (to_fmt _ b) (to_fmt _ c).

Definition gcem_atan2 := lift2 (@atan2_compute v).   (* atan2.hpp:58-86 *)
Definition gcem_log_binomial_coef := lift2 (@log_binomial_coef_compute v). (* log_binomial_coef.hpp:36-63 *)
Definition gcem_incomplete_gamma := lift2 (@incomplete_gamma_check v). (* incomplete_gamma.hpp:211-245 *)
Definition gcem_incomplete_gamma_inv := lift2 (@incomplete_gamma_inv_check v). (* incomplete_gamma_inv.hpp:234-269 *)
Definition gcem_incomplete_beta := lift3 (@incomplete_beta_check v). (* incomplete_beta.hpp:153-192 *)
(** incomplete_beta_inv.hpp:313-350 uses common_t: with three integral
    arguments the code would work on integers, which is not modelled. *)
Definition gcem_incomplete_beta_inv := lift3 (@incomplete_beta_inv_check v).

(** lbeta.hpp:33-40: each lgamma is evaluated at its own argument type; [a+b]
    is evaluated in the arithmetic type of the operands. *)
Definition arg_add (a b : arg) : res arg :=
  match a, b with
  | AInt s x, AInt t y => let u := arith s t in
                          let* z := iadd u (icast u x) (icast u y) in Ok (AInt u z)
  | _, _ => Ok (AFlt (cr_fmt a b) (to_fmt _ a +. to_fmt _ b))
  end.
Definition gcem_lbeta (a b : arg) : res (flt (cr_fmt a b)) :=
  let* la := gcem_lgamma a in
  let* lb := gcem_lgamma b in
  let* s := arg_add a b in
  let* ls := gcem_lgamma s in
  let g := fmt_max (ret_fmt a) (ret_fmt b) in
  let sum := conv g la +. conv g lb in
  let h := fmt_max g (ret_fmt s) in
  Ok (conv (cr_fmt a b) (conv h sum -. conv h ls)).
(** beta.hpp:33-40 *)
Definition gcem_beta (a b : arg) : res (flt (cr_fmt a b)) :=
  let* l := gcem_lbeta a b in exp_check v l.
(** lmgamma.hpp:64-71, integral second argument *)
Definition gcem_lmgamma (n : nat) (a : arg) (p : Z) : res (flt (ret_fmt a)) :=
  lmgamma_recur v n (ret_val a) p.

(** ** pow.hpp:40-80: result of type common_t<T1,T2> *)
Definition gcem_pow (a b : arg) : res arg :=
  match b with
  | AInt t2 e =>
      match a with
      | AInt t1 x => let* r := pow_int t1 t2 x e in Ok (AInt (common t1 t2) r)
      | AFlt f x => let* r := pow_integral t2 x e in Ok (AFlt f r)
      end
  | AFlt _ _ =>
      let g := cr_fmt a b in
      let neg := match a with AInt _ x => x <? 0 | AFlt f x => x <. ofZ f 0 end in
      if neg then Ok (AFlt g (qNaN g))
      else let* r := pow_dbl v (to_fmt g a) (to_fmt g b) in Ok (AFlt g r)
  end.

(** factorial.hpp:91-98 *)
Definition gcem_factorial (n : nat) (a : arg) : res arg :=
  match a with
  | AInt t x => let* r := factorial_int n t x in Ok (AInt t r)
  | AFlt f x => let* r := factorial_flt v n x in Ok (AFlt f r)
  end.

End Api.

Definition gcem_fmod := lift2 (@fmod_check).         (* fmod.hpp:43-68 *)
Definition gcem_hypot := lift2 (@hypot_vals_check).  (* hypot.hpp:62-88 *)

(** ** Functions returning T, common_t, int or bool *)

(** abs.hpp:31-43 *)
Definition gcem_abs (a : arg) : res arg :=
  match a with
  | AInt t x => let* r := abs_int t x in Ok (AInt t r)
  | AFlt f x => Ok (AFlt f (abs x))
  end.
(** sgn.hpp:31-43 *)
Definition gcem_sgn (a : arg) : Z :=
  match a with AInt _ x => sgn_int x | AFlt _ x => sgn x end.
(** max.hpp:32-39: both operands are converted to their common type for the
    comparison and for the result. *)
Definition gcem_max (a b : arg) : arg :=
  match a, b with
  | AInt t1 x, AInt t2 y => AInt (common t1 t2) (max_int t1 t2 x y)
  | _, _ => AFlt (cr_fmt a b) (max (to_fmt _ a) (to_fmt _ b))
  end.
(** min.hpp:32-39 *)
Definition gcem_min (a b : arg) : arg :=
  match a, b with
  | AInt t1 x, AInt t2 y => AInt (common t1 t2) (min_int t1 t2 x y)
  | _, _ => AFlt (cr_fmt a b) (min (to_fmt _ a) (to_fmt _ b))
  end.
(** gcd.hpp:45-61, 73-80: floating-point operands are converted to
    unsigned long long. *)
Definition abs_to_fmt (g : fmt) (a : arg) : res (flt g) :=
  let* b := gcem_abs a in Ok (to_fmt g b).
Definition gcem_gcd (a b : arg) : res arg :=
  match a, b with
  | AInt t1 x, AInt t2 y => let* r := gcd_int t1 t2 x y in Ok (AInt (common t1 t2) r)
  | _, _ =>
      let g := cr_fmt a b in
      let* x := abs_to_fmt g a in
      let* y := abs_to_fmt g b in
      let* m := fcast U64 x in
      let* n := fcast U64 y in
      let* r := gcd_recur gcd_fuel U64 m n in
      Ok (AFlt g (ofZ g r))
  end.
(** lcm.hpp:27-63 *)
Definition gcem_lcm (a b : arg) : res arg :=
  match a, b with
  | AInt t1 x, AInt t2 y => let* r := lcm_int t1 t2 x y in Ok (AInt (common t1 t2) r)
  | _, _ =>
      let g := cr_fmt a b in
      let x := to_fmt g a in
      let y := to_fmt g b in
      let* d := gcem_gcd (AFlt g x) (AFlt g y) in
      Ok (AFlt g (abs (x *. (y /. to_fmt g d))))
  end.
(** binomial_coef.hpp:40-89 *)
Definition gcem_binomial_coef (fuel : nat) (a b : arg) : res arg :=
  match a, b with
  | AInt t1 x, AInt t2 y =>
      let* r := binomial_coef_int fuel t1 t2 x y in Ok (AInt (common t1 t2) r)
  | _, _ =>
      let g := cr_fmt a b in
      let* m := fcast U64 (to_fmt g a) in
      let* n := fcast U64 (to_fmt g b) in
      let* r := binomial_coef_recur fuel U64 m n in
      Ok (AFlt g (ofZ g r))
  end.
(** signbit.hpp:31-42, copysign.hpp:32-39 (T1 and T2 may differ) *)
Definition gcem_signbit {f} (x : flt f) : bool := signbit x.
Definition gcem_copysign {f g} (x : flt f) (y : flt g) : flt f :=
  if xorb (signbit x) (signbit y) then -. x else x.
