(** * gcd, lcm and binomial_coef of integer-valued floating-point arguments, and outside the range of the type (C126-C131). *)
From Coq Require Import ZArith Reals Bool List.
From Flocq Require Import Core BinarySingleNaN.
From Verif Require Import Base ModelBasic ModelInt ModelElem ModelApi FltLemmas Spec IntProofs BasicProofs ConvLemmas IntFlt.
Open Scope R_scope.

(** ** C126 *)
Theorem C126_gcd_floating_exact : forall f g (x : flt f) (y : flt g) a b, has_val x (IZR a) -> has_val y (IZR b) -> (Z.abs a < 2 ^ 64)%Z -> (Z.abs b < 2 ^ 64)%Z ->
  exists w, gcem_gcd (AFlt f x) (AFlt g y) = Ok (AFlt (fmt_max f g) w) /\ has_val w (IZR (Z.gcd a b)).
Proof. exact api_gcd_flt. Qed.
Print Assumptions C126_gcd_floating_exact.
Theorem C126_gcd_large_refuted : forall f g (x : flt f) (y : flt g), finite x = true -> bpow radix2 64 <= Rabs (B2R x) -> gcem_gcd (AFlt f x) (AFlt g y) = Ub UbCast.
Proof. exact api_gcd_big. Qed.
Print Assumptions C126_gcd_large_refuted.
Example C126_ex : has_val (ofZ F32 (-12)) (IZR (-12)) /\ has_val (ofZ F64 18) (IZR 18) /\ finite (ofZ F32 (2 ^ 64)) = true.
Proof. split; [|split]; [apply (ofZ_val F32 (-12)); discriminate|apply (ofZ_val F64 18); discriminate|reflexivity]. Qed.

(** ** C127 *)
Theorem C127_lcm_floating_rounded : forall f g (x : flt f) (y : flt g) a b, has_val x (IZR a) -> has_val y (IZR b) -> (Z.abs a < 2 ^ 64)%Z -> (Z.abs b < 2 ^ 64)%Z -> (a <> 0 \/ b <> 0)%Z ->
  IZR (Z.lcm a b) <= bpow radix2 (emax (fmt_max f g) - 1) ->
  exists w, gcem_lcm (AFlt f x) (AFlt g y) = Ok (AFlt (fmt_max f g) w) /\ finite w = true /\ rel_err (B2R w) (IZR (Z.lcm a b)) (bpow radix2 (- prec (fmt_max f g))) /\
    ((Z.lcm a b <= 2 ^ prec (fmt_max f g))%Z -> B2R w = IZR (Z.lcm a b)).
Proof. exact api_lcm_near. Qed.
Print Assumptions C127_lcm_floating_rounded.
Theorem C127_lcm_zeros_refuted : forall f s t, gcem_lcm (AFlt f (B754_zero s)) (AFlt f (B754_zero t)) = Ok (AFlt f B754_nan).
Proof. exact api_lcm_zeros. Qed.
Print Assumptions C127_lcm_zeros_refuted.
Example C127_ex : IZR (Z.lcm (-12) 18) <= bpow radix2 (emax (fmt_max F32 F64) - 1) /\ (Z.lcm (-12) 18 <= 2 ^ prec (fmt_max F32 F64))%Z.
Proof. split. change (Z.lcm (-12) 18) with 36%Z. change 36 with (IZR 36). apply Rle_trans with (bpow radix2 6). apply IZR_le. discriminate. apply bpow_le. discriminate. discriminate. Qed.

(** ** C128 *)
Theorem C128_lcm_mixed_signedness_refuted :
  gcem_lcm (AInt I32 (-6)) (AInt U32 4) = Ok (AInt U32 4294967284) /\ gcem_lcm (AInt I64 (-6)) (AInt U64 4) = Ok (AInt U64 18446744073709551604).
Proof. exact lcm_mixed. Qed.
Print Assumptions C128_lcm_mixed_signedness_refuted.

(** ** C129 *)
Theorem C129_binomial_floating_rounded : forall fuel f g (x : flt f) (y : flt g) n k c, has_val x (IZR n) -> has_val y (IZR k) -> (0 <= n < 2 ^ 64)%Z -> (0 <= k < 2 ^ 64)%Z ->
  is_choose n k c -> (c < 2 ^ 64)%Z -> (n < Z.of_nat fuel)%Z ->
  exists w, gcem_binomial_coef fuel (AFlt f x) (AFlt g y) = Ok (AFlt (fmt_max f g) w) /\ finite w = true /\ rel_err (B2R w) (IZR c) (bpow radix2 (- prec (fmt_max f g))) /\
    ((c <= 2 ^ prec (fmt_max f g))%Z -> B2R w = IZR c).
Proof. exact api_binomial_flt. Qed.
Print Assumptions C129_binomial_floating_rounded.
Theorem C129_binomial_floating_wraps_refuted : forall fuel f g (x : flt f) (y : flt g) n k c, has_val x (IZR n) -> has_val y (IZR k) -> (0 <= n < 2 ^ 64)%Z -> (0 <= k < 2 ^ 64)%Z ->
  is_choose n k c -> (n < Z.of_nat fuel)%Z ->
  exists w, gcem_binomial_coef fuel (AFlt f x) (AFlt g y) = Ok (AFlt (fmt_max f g) w) /\ finite w = true /\ B2R w = rnd (fmt_max f g) (IZR (c mod 2 ^ 64)).
Proof. exact api_binomial_flt_wrap. Qed.
Print Assumptions C129_binomial_floating_wraps_refuted.
Example C129_ex : has_val (ofZ F64 68) (IZR 68) /\ is_choose 68 34 28453041475240576740 /\ (28453041475240576740 mod 2 ^ 64 = 10006297401531025124)%Z /\ is_choose 30 15 155117520.
Proof. split. apply (ofZ_val F64 68); discriminate. split; [|split]; vm_compute; reflexivity. Qed.

(** ** C130 *)
Theorem C130_binomial_signed_or_ub : forall fuel t1 t2 n k c, let t := common t1 t2 in wide t = true -> isigned t = true -> (0 <= n)%Z -> (0 <= k)%Z -> in_range t n -> in_range t k ->
  is_choose n k c -> (n < Z.of_nat fuel)%Z ->
  gcem_binomial_coef fuel (AInt t1 n) (AInt t2 k) = (if (c <=? imax t)%Z then Ok (AInt t c) else Ub UbOverflow).
Proof. exact api_binomial_signed. Qed.
Print Assumptions C130_binomial_signed_or_ub.
Theorem C130_binomial_unsigned_wraps_refuted : forall fuel t1 t2 n k c, let t := common t1 t2 in wide t = true -> isigned t = false -> in_range t n -> in_range t k ->
  is_choose n k c -> (n < Z.of_nat fuel)%Z ->
  gcem_binomial_coef fuel (AInt t1 n) (AInt t2 k) = Ok (AInt t (c mod 2 ^ ibits t)%Z).
Proof. exact api_binomial_unsigned. Qed.
Print Assumptions C130_binomial_unsigned_wraps_refuted.
Theorem C130_binomial_narrow_converts_refuted : forall fuel t1 t2 n k c, let t := common t1 t2 in wide t = false -> (0 <= n)%Z -> (0 <= k)%Z -> in_range t n -> in_range t k ->
  is_choose n k c -> (n < Z.of_nat fuel)%Z ->
  gcem_binomial_coef fuel (AInt t1 n) (AInt t2 k) = (if (c <=? imax I32)%Z then Ok (AInt t (icast t c)) else Ub UbOverflow).
Proof. exact api_binomial_narrow. Qed.
Print Assumptions C130_binomial_narrow_converts_refuted.
Example C130_ex : is_choose 34 17 2333606220 /\ (2333606220 <=? imax I32)%Z = false /\ is_choose 35 17 4537567650 /\ (4537567650 mod 2 ^ 32 = 242600354)%Z /\ is_choose 10 5 252 /\ icast I8 252 = (-4)%Z.
Proof. repeat split; vm_compute; reflexivity. Qed.

(** ** C131 *)
Theorem C131_binomial_negative_lower_zero : forall fuel t1 t2 n k, let t := common t1 t2 in (k < 0 <= n)%Z -> in_range t n -> in_range t k -> in_range (promote t) (k - n) -> (n < Z.of_nat fuel)%Z ->
  gcem_binomial_coef fuel (AInt t1 n) (AInt t2 k) = Ok (AInt t 0).
Proof. exact api_binomial_neg_k. Qed.
Print Assumptions C131_binomial_negative_lower_zero.
Theorem C131_binomial_negative_upper_refuted : forall fuel t1 t2 n k r, let t := common t1 t2 in isigned t = true -> (n < 0 < k)%Z -> in_range t n -> in_range t k ->
  gcem_binomial_coef fuel (AInt t1 n) (AInt t2 k) <> Ok r.
Proof. exact api_binomial_neg_n. Qed.
Print Assumptions C131_binomial_negative_upper_refuted.
Example C131_ex : in_range I32 (-3) /\ in_range I32 5 /\ in_range (promote I32) (-3 - 5).
Proof. repeat split; discriminate. Qed.
