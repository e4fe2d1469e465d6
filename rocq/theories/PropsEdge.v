(** * Special values, totality, symmetry and equivalence properties (C10, C11, C26-C39, C46, C47, C50, C52-C54). *)
From Verif Require Import Base ModelBasic ModelInt ModelElem ModelSpecial ModelApi Spec FltLemmas ConvLemmas IntProofs BasicProofs SymLemmas
  CxxProofs TotalProofs ExpTotal EdgeProofs DomainProofs LimitProofs SymProofs RangeProofs MiscProofs.
From Coq Require Import Lra.
Open Scope R_scope.

(** C10 *)
Theorem C10_pow_small : forall v f (x : flt f) t,
  gcem_pow v (AFlt f x) (AInt t 0) = Ok (AFlt f (ofZ f 1)) /\ gcem_pow v (AFlt f x) (AInt t 1) = Ok (AFlt f x) /\
  gcem_pow v (AFlt f x) (AInt t 2) = Ok (AFlt f (x *. x)) /\ gcem_pow v (AFlt f x) (AInt t 3) = Ok (AFlt f (x *. x *. x)).
Proof. exact api_pow_small. Qed.
Print Assumptions C10_pow_small.
Example C10_ex : gcem_pow Cxx14 (AFlt F64 B754_nan) (AInt U8 0) = Ok (AFlt F64 (ofZ F64 1)).
Proof. apply C10_pow_small. Qed.

(** C11, floating-point base *)
Theorem C11_pow_flt_extreme_refuted : forall v f (x : flt f) t,
  gcem_pow v (AFlt f x) (AInt t (imax t)) = Ok (AFlt f (B754_infinity false)) /\
  (isigned t = true -> gcem_pow v (AFlt f x) (AInt t (imin t)) = Ok (AFlt f (B754_zero false))).
Proof. exact api_pow_extreme. Qed.
Print Assumptions C11_pow_flt_extreme_refuted.
Example C11_flt_ex : gcem_pow Cxx14 (AFlt F64 (dec F64 5 1)) (AInt I8 127) = Ok (AFlt F64 (B754_infinity false)).
Proof. apply (C11_pow_flt_extreme_refuted Cxx14 F64 (dec F64 5 1) I8). Qed.

(** C26 *)
Theorem C26_nan_unary : forall v f n p, let a := AFlt f B754_nan in let w := B754_nan : flt f in
  gcem_floor a = Ok w /\ gcem_ceil a = Ok w /\ gcem_trunc a = Ok w /\ gcem_round a = Ok w /\
  gcem_sqrt a = Ok w /\ gcem_inv_sqrt a = Ok w /\ gcem_exp v a = Ok w /\ gcem_expm1 v a = Ok w /\
  gcem_log v a = Ok w /\ gcem_log1p v a = Ok w /\ gcem_log2 v a = Ok w /\ gcem_log10 v a = Ok w /\
  gcem_tan a = Ok w /\ gcem_sin a = Ok w /\ gcem_cos a = Ok w /\
  gcem_atan v a = Ok w /\ gcem_asin v a = Ok w /\ gcem_acos v a = Ok w /\
  gcem_sinh v a = Ok w /\ gcem_cosh v a = Ok w /\ gcem_tanh v a = Ok w /\
  gcem_asinh v a = Ok w /\ gcem_acosh v a = Ok w /\ gcem_atanh v a = Ok w /\
  gcem_lgamma v a = Ok w /\ gcem_tgamma v (S n) a = Ok w /\ gcem_factorial v (S n) a = Ok (AFlt f w) /\
  gcem_lmgamma v (S n) a p = Ok w /\ gcem_erf v a = Ok w /\ gcem_erf_inv v a = Ok w.
Proof. exact api_nan_unary. Qed.
Print Assumptions C26_nan_unary.
Theorem C26_nan_multi : forall v f (a b : arg), let n := AFlt f B754_nan in
  gcem_fmod n a = Ok B754_nan /\ gcem_fmod a n = Ok B754_nan /\
  gcem_hypot n a = Ok B754_nan /\ gcem_hypot a n = Ok B754_nan /\
  gcem_atan2 v n a = Ok B754_nan /\ gcem_atan2 v a n = Ok B754_nan /\
  gcem_lbeta v n a = Ok B754_nan /\ gcem_lbeta v a n = Ok B754_nan /\
  gcem_beta v n a = Ok B754_nan /\ gcem_beta v a n = Ok B754_nan /\
  gcem_log_binomial_coef v n a = Ok B754_nan /\ gcem_log_binomial_coef v a n = Ok B754_nan /\
  gcem_pow v a n = Ok (AFlt (cr_fmt a n) B754_nan) /\
  gcem_incomplete_gamma v n a = Ok B754_nan /\ gcem_incomplete_gamma v a n = Ok B754_nan /\
  gcem_incomplete_gamma_inv v n a = Ok B754_nan /\ gcem_incomplete_gamma_inv v a n = Ok B754_nan /\
  gcem_incomplete_beta v n a b = Ok B754_nan /\ gcem_incomplete_beta v a n b = Ok B754_nan /\ gcem_incomplete_beta v a b n = Ok B754_nan /\
  gcem_incomplete_beta_inv v n a b = Ok B754_nan /\ gcem_incomplete_beta_inv v a n b = Ok B754_nan /\ gcem_incomplete_beta_inv v a b n = Ok B754_nan.
Proof. exact api_nan_multi. Qed.
Print Assumptions C26_nan_multi.
Theorem C26_nan_pow_base : forall v f g (x : flt g),
  gcem_pow v (AFlt f B754_nan) (AFlt g x) = Ok (AFlt (fmt_max f g) B754_nan).
Proof. exact pow_nan_arg. Qed.
Print Assumptions C26_nan_pow_base.
Example C26_ex : gcem_incomplete_beta Cxx14 (AInt I32 2) (AFlt F32 B754_nan) (AFlt F64 (dec F64 5 1)) = Ok B754_nan.
Proof. apply (C26_nan_multi Cxx14 F32 (AInt I32 2) (AFlt F64 (dec F64 5 1))). Qed.

(** C27 *)
Theorem C27_domain_negative : forall v f (x : flt f), below x 0 ->
  gcem_sqrt (AFlt f x) = Ok B754_nan /\ gcem_inv_sqrt (AFlt f x) = Ok B754_nan /\ gcem_log v (AFlt f x) = Ok B754_nan /\
  gcem_log2 v (AFlt f x) = Ok B754_nan /\ gcem_log10 v (AFlt f x) = Ok B754_nan.
Proof. exact api_domain_neg. Qed.
Print Assumptions C27_domain_negative.
Theorem C27_domain_one : forall v f (x : flt f), above x 1 \/ below x (-1) ->
  gcem_asin v (AFlt f x) = Ok B754_nan /\ gcem_acos v (AFlt f x) = Ok B754_nan /\ gcem_atanh v (AFlt f x) = Ok B754_nan /\
  gcem_erf_inv v (AFlt f x) = Ok B754_nan.
Proof. exact api_domain_one. Qed.
Print Assumptions C27_domain_one.
Theorem C27_domain_log1p : forall v f (x : flt f), below x (-1) -> gcem_log1p v (AFlt f x) = Ok B754_nan.
Proof. exact log1p_dom. Qed.
Print Assumptions C27_domain_log1p.
Theorem C27_domain_acosh : forall v f (x : flt f), below x 1 -> gcem_acosh v (AFlt f x) = Ok B754_nan.
Proof. exact acosh_dom. Qed.
Print Assumptions C27_domain_acosh.
Theorem C27_domain_pow : forall v (a : arg) g (y : flt g),
  match a with AInt _ x => (x < 0)%Z | AFlt f x => below x 0 end ->
  gcem_pow v a (AFlt g y) = Ok (AFlt (cr_fmt a (AFlt g y)) B754_nan).
Proof. exact pow_dom. Qed.
Print Assumptions C27_domain_pow.
Theorem C27_domain_incomplete : forall v f (a z : flt f),
  (below a 0 -> rmap (AFlt _) (gcem_incomplete_gamma v (AFlt f a) (AFlt f z)) = Ok (AFlt f B754_nan)) /\
  (above z 1 -> rmap (AFlt _) (gcem_incomplete_gamma_inv v (AFlt f a) (AFlt f z)) = Ok (AFlt f B754_nan)).
Proof. exact api_domain_incomplete. Qed.
Print Assumptions C27_domain_incomplete.
Theorem C27_domain_lmgamma : forall v f n (a : flt f) p, (p < 1)%Z -> gcem_lmgamma v (S n) (AFlt f a) p = Ok B754_nan.
Proof. exact lmgamma_dom. Qed.
Print Assumptions C27_domain_lmgamma.
Theorem C27_domain_tgamma : forall v f n (x : flt f) k, has_val x (IZR k) -> (- 2 ^ 63 <= k < 0)%Z ->
  gcem_tgamma v (S n) (AFlt f x) = Ok B754_nan.
Proof. exact tgamma_dom. Qed.
Print Assumptions C27_domain_tgamma.
Example C27_ex : gcem_erf_inv Cxx14 (AFlt F64 (ofZ F64 (-2))) = Ok B754_nan.
Proof.
  apply C27_domain_one. right. destruct (ofZ_has_val F64 (-2) eq_refl) as (F & V).
  destruct (ofZ F64 (-2)); try discriminate F; unfold below; rewrite V; lra.
Qed.
Example C27_ex' : gcem_tgamma Cxx11 1 (AFlt F32 (ofZ F32 (-3))) = Ok B754_nan.
Proof. apply C27_domain_tgamma with (-3)%Z. apply ofZ_has_val; reflexivity. split; reflexivity || discriminate. Qed.

(** C28 *)
Theorem C28_infinity : forall v f, let i := AFlt f (B754_infinity false) in let j := AFlt f (B754_infinity true) in
  gcem_exp v j = Ok (ofZ f 0) /\ gcem_exp v i = Ok (B754_infinity false) /\
  gcem_expm1 v j = Ok (ofZ f (-1)) /\ gcem_expm1 v i = Ok (B754_infinity false) /\
  gcem_log v i = Ok (B754_infinity false) /\ gcem_log1p v i = Ok (B754_infinity false) /\
  gcem_log2 v i = Ok (B754_infinity false) /\ gcem_log10 v i = Ok (B754_infinity false) /\
  gcem_sqrt i = Ok (B754_infinity false) /\ gcem_inv_sqrt i = Ok (ofZ f 0) /\
  gcem_atan v i = Ok (conv f GCEM_HALF_PI) /\ gcem_atan v j = Ok (-. conv f GCEM_HALF_PI) /\
  gcem_sinh v i = Ok (B754_infinity false) /\ gcem_sinh v j = Ok (B754_infinity true) /\
  gcem_cosh v i = Ok (B754_infinity false) /\ gcem_cosh v j = Ok (B754_infinity false) /\
  gcem_asinh v i = Ok (B754_infinity false) /\ gcem_acosh v i = Ok (B754_infinity false) /\
  gcem_erf v i = Ok (ofZ f 1) /\ gcem_erf v j = Ok (ofZ f (-1)).
Proof. exact api_infinite. Qed.
Print Assumptions C28_infinity.
(** The constants returned for pi and pi/2 are within half a unit in the last place. *)
Theorem C28_half_pi : forall f, finite (conv f GCEM_HALF_PI) = true /\ abs_err (B2R (conv f GCEM_HALF_PI)) (PI / 2) (bpow radix2 (- prec f)).
Proof. exact half_pi_val. Qed.
Print Assumptions C28_half_pi.
Theorem C28_pi : forall f, finite (conv f GCEM_PI) = true /\ abs_err (B2R (conv f GCEM_PI)) PI (bpow radix2 (1 - prec f)).
Proof. exact pi_val. Qed.
Print Assumptions C28_pi.
Theorem C28_hypot_inf : forall f g s (y : flt g), is_nan y = false ->
  gcem_hypot (AFlt f (B754_infinity s)) (AFlt g y) = Ok (B754_infinity false) /\ gcem_hypot (AFlt g y) (AFlt f (B754_infinity s)) = Ok (B754_infinity false).
Proof. exact api_hypot_inf. Qed.
Print Assumptions C28_hypot_inf.
Theorem C28_tiny : forall v f (x : flt f) n, tiny x ->
  gcem_exp v (AFlt f x) = Ok (ofZ f 1) /\ gcem_cos (AFlt f x) = Ok (ofZ f 1) /\ gcem_cosh v (AFlt f x) = Ok (ofZ f 1) /\
  gcem_tan (AFlt f x) = Ok (ofZ f 0) /\ gcem_sin (AFlt f x) = Ok (ofZ f 0) /\ gcem_atan v (AFlt f x) = Ok (ofZ f 0) /\
  gcem_sinh v (AFlt f x) = Ok (ofZ f 0) /\ gcem_tanh v (AFlt f x) = Ok (ofZ f 0) /\ gcem_asinh v (AFlt f x) = Ok (ofZ f 0) /\
  gcem_erf v (AFlt f x) = Ok (ofZ f 0) /\ gcem_lgamma v (AFlt f x) = Ok (B754_infinity false) /\
  gcem_tgamma v (S n) (AFlt f x) = Ok (B754_infinity false).
Proof. exact api_tiny. Qed.
Print Assumptions C28_tiny.
Theorem C28_tiny_nonneg : forall v f (x : flt f), tiny x -> 0 <= B2R x ->
  gcem_log v (AFlt f x) = Ok (B754_infinity true) /\ gcem_log2 v (AFlt f x) = Ok (B754_infinity true) /\
  gcem_log10 v (AFlt f x) = Ok (B754_infinity true) /\
  gcem_sqrt (AFlt f x) = Ok (ofZ f 0) /\ gcem_inv_sqrt (AFlt f x) = Ok (B754_infinity false) /\
  gcem_asin v (AFlt f x) = Ok (ofZ f 0) /\ gcem_acos v (AFlt f (B754_zero false)) = Ok (conv f GCEM_HALF_PI).
Proof. exact api_tiny_nonneg. Qed.
Print Assumptions C28_tiny_nonneg.
Theorem C28_incomplete_gamma_zero : forall v f (a z : flt f), tiny z -> is_nan a = false -> (a <. ofZ f 0) = false ->
  gcem_incomplete_gamma v (AFlt f a) (AFlt f z) = Ok (ofZ _ 0).
Proof. exact api_zero_tiny. Qed.
Print Assumptions C28_incomplete_gamma_zero.
Theorem C28_inverse_edges : forall v f (a b z : flt f), is_nan a = false -> is_nan b = false ->
  (tiny z -> gcem_incomplete_gamma_inv v (AFlt f a) (AFlt f z) = Ok (ofZ _ 0) /\
             gcem_incomplete_beta v (AFlt f a) (AFlt f b) (AFlt f z) = Ok (ofZ _ 0) /\
             gcem_incomplete_beta_inv v (AFlt f a) (AFlt f b) (AFlt f z) = Ok (ofZ _ 0)) /\
  (has_val z 1 -> gcem_incomplete_gamma_inv v (AFlt f a) (AFlt f z) = Ok (B754_infinity false) /\
                  gcem_incomplete_beta_inv v (AFlt f a) (AFlt f b) (AFlt f z) = Ok (ofZ _ 1)).
Proof. exact api_inverse_edges. Qed.
Print Assumptions C28_inverse_edges.
Theorem C28_one : forall v f n, let a := AFlt f (ofZ f 1) in let b := AFlt f (ofZ f (-1)) in
  gcem_log v a = Ok (ofZ f 0) /\ gcem_log2 v a = Ok (ofZ f 0) /\ gcem_log10 v a = Ok (ofZ f 0) /\
  gcem_log1p v b = Ok (B754_infinity true) /\ gcem_sqrt a = Ok (ofZ f 1) /\ gcem_inv_sqrt a = Ok (ofZ f 1) /\
  gcem_asin v a = Ok (conv f GCEM_HALF_PI) /\ gcem_asin v b = Ok (-. conv f GCEM_HALF_PI) /\
  gcem_acos v a = Ok (ofZ f 0) /\ gcem_acos v b = Ok (conv f GCEM_PI) /\ gcem_acosh v a = Ok (ofZ f 0) /\
  gcem_atanh v a = Ok (B754_infinity false) /\ gcem_atanh v b = Ok (B754_infinity true) /\
  gcem_erf_inv v a = Ok (B754_infinity false) /\ gcem_erf_inv v b = Ok (B754_infinity true) /\
  gcem_lgamma v a = Ok (ofZ f 0) /\ gcem_tgamma v (S n) a = Ok (ofZ f 1).
Proof. exact api_one. Qed.
Print Assumptions C28_one.
Example C28_ex : gcem_exp Cxx14 (AFlt F64 (dec F64 (-1) 310)) = Ok (ofZ F64 1).
Proof.
  refine (proj1 (C28_tiny Cxx14 F64 _ 0%nat _)). split; [vm_compute; reflexivity|].
  rewrite (B2R_sf (dec F64 (-1) 310) (SpecFloat.S754_finite true 20240225330731 (-1074))) by (vm_compute; reflexivity).
  unfold SF2R. apply (F2R_lt_bpow radix2). reflexivity.
Qed.

(** C29 *)
Theorem C29_total_unary : forall v a,
  ok (gcem_floor a) /\ ok (gcem_ceil a) /\ ok (gcem_trunc a) /\ ok (gcem_round a) /\ ok (gcem_sqrt a) /\ ok (gcem_inv_sqrt a) /\
  ok (gcem_log v a) /\ ok (gcem_log1p v a) /\ ok (gcem_log2 v a) /\ ok (gcem_log10 v a) /\
  ok (gcem_tan a) /\ ok (gcem_sin a) /\ ok (gcem_cos a) /\ ok (gcem_atan v a) /\ ok (gcem_asin v a) /\ ok (gcem_acos v a) /\
  ok (gcem_tanh v a) /\ ok (gcem_asinh v a) /\ ok (gcem_acosh v a) /\ ok (gcem_atanh v a) /\ ok (gcem_lgamma v a).
Proof. exact api_total_unary. Qed.
Print Assumptions C29_total_unary.
Theorem C29_total_binary : forall v a b,
  ok (gcem_fmod a b) /\ ok (gcem_hypot a b) /\ ok (gcem_atan2 v a b) /\ ok (gcem_log_binomial_coef v a b) /\
  (match a, b with AInt _ _, AInt _ _ => False | _, _ => True end -> ok (gcem_lbeta v a b)).
Proof. exact api_total_binary. Qed.
Print Assumptions C29_total_binary.
Theorem C29_lbeta_integral_refuted : forall v, gcem_lbeta v (AInt I32 2147483647) (AInt I32 1) = Ub UbOverflow.
Proof. exact lbeta_int_overflow. Qed.
Print Assumptions C29_lbeta_integral_refuted.
Example C29_ex : ok (gcem_lbeta Cxx14 (AInt I32 3) (AFlt F32 (ofZ F32 2))).
Proof. exact (proj2 (proj2 (proj2 (proj2 (C29_total_binary Cxx14 (AInt I32 3) (AFlt F32 (ofZ F32 2)))))) I). Qed.

(** C30 *)
Theorem C30_exp_total : forall v f (x : flt f), (finite x = true -> Rabs (B2R x) <= IZR (2 ^ 63 - 1)) -> ok (gcem_exp v (AFlt f x)).
Proof. exact exp_ok. Qed.
Print Assumptions C30_exp_total.
Theorem C30_exp_large_refuted : forall v f (x : flt f), finite x = true -> (IZR (2 ^ 63) <= B2R x \/ B2R x < - IZR (2 ^ 63)) ->
  gcem_exp v (AFlt f x) = Ub UbCast.
Proof. exact exp_ub. Qed.
Print Assumptions C30_exp_large_refuted.
Example C30_ex : ok (gcem_exp Cxx11 (AFlt F32 (ofZ F32 (-1000)))).
Proof. apply C30_exp_total. intros _. rewrite (proj2 (ofZ_has_val F32 (-1000) eq_refl)), <- abs_IZR. apply IZR_le. discriminate. Qed.
Example C30_ex' : gcem_exp Cxx11 (AFlt F64 (ofZ F64 (-10 ^ 19))) = Ub UbCast.
Proof.
  apply C30_exp_large_refuted. vm_compute; reflexivity. right.
  rewrite (B2R_sf (ofZ F64 (-10 ^ 19)) (SpecFloat.S754_finite true 4882812500000000 11)) by (vm_compute; reflexivity).
  unfold SF2R, F2R. cbn. lra.
Qed.

(** C31: the number of calls is the first argument of the recursive functions. *)
Theorem C31_depth : forall f (x : flt f), finite x = true -> bpow radix2 (2 - emax f) <= B2R x -> f <> F80 ->
  ok (mantissa (Z.to_nat 340) x) /\ ok (find_exponent (Z.to_nat 340) x 0) /\ ok (sqrt_simplify (Z.to_nat 65) x (ofZ f 1)).
Proof. exact @scaling_depth. Qed.
Print Assumptions C31_depth.
Example C31_ex : ok (mantissa (Z.to_nat 340) (dec F64 1 300)).
Proof.
  refine (proj1 (C31_depth F64 (dec F64 1 300) _ _ _)); [vm_compute; reflexivity| |discriminate]. rewrite <- (proj1 (fmin_spec F64)).
  apply fle_true_inv; vm_compute; reflexivity.
Qed.

(** C32 *)
Theorem C32_sin_range : forall f (x : flt f), exists w, gcem_sin (AFlt f x) = Ok w /\
  (is_nan w = true \/ (finite w = true /\ Rabs (B2R w) <= 1)).
Proof. exact @sin_range. Qed.
Print Assumptions C32_sin_range.
Theorem C32_cos_range : forall f (x : flt f), exists w, gcem_cos (AFlt f x) = Ok w /\
  (is_nan w = true \/ (finite w = true /\ Rabs (B2R w) <= 1)).
Proof. exact @cos_range. Qed.
Print Assumptions C32_cos_range.
Example C32_ex : sf_of (gcem_sin (AFlt F64 (dec F64 15 1))) = Some (SpecFloat.S754_finite false 8984636099947915 (-53)).
Proof. vm_compute. reflexivity. Qed.

(** C33 *)
Theorem C33_odd : forall v f (x : flt f),
  (forall w, gcem_tan (AFlt f x) = Ok w -> exists w', gcem_tan (AFlt f (-. x)) = Ok w' /\ same_num w' (-. w)) /\
  (forall w, gcem_sin (AFlt f x) = Ok w -> exists w', gcem_sin (AFlt f (-. x)) = Ok w' /\ same_num w' (-. w)) /\
  (forall w, gcem_atan v (AFlt f x) = Ok w -> exists w', gcem_atan v (AFlt f (-. x)) = Ok w' /\ same_num w' (-. w)) /\
  (forall w, gcem_asin v (AFlt f x) = Ok w -> exists w', gcem_asin v (AFlt f (-. x)) = Ok w' /\ same_num w' (-. w)) /\
  (forall w, gcem_tanh v (AFlt f x) = Ok w -> exists w', gcem_tanh v (AFlt f (-. x)) = Ok w' /\ same_num w' (-. w)) /\
  (forall w, gcem_erf v (AFlt f x) = Ok w -> exists w', gcem_erf v (AFlt f (-. x)) = Ok w' /\ same_num w' (-. w)) /\
  (forall w, gcem_sinh v (AFlt f x) = Ok w -> exists w', gcem_sinh v (AFlt f (-. x)) = Ok w' /\ same_num w' (-. w)).
Proof. exact api_odd. Qed.
Print Assumptions C33_odd.
Example C33_ex : sf_of (gcem_tanh Cxx14 (AFlt F64 (-. ofZ F64 1))) = Some (SpecFloat.S754_finite true 6859830313939861 (-53)).
Proof. vm_compute. reflexivity. Qed.

(** C34 *)
Theorem C34_even : forall v f (x : flt f),
  gcem_cos (AFlt f (-. x)) = gcem_cos (AFlt f x) /\
  (forall w, gcem_cosh v (AFlt f x) = Ok w -> gcem_cosh v (AFlt f (-. x)) = Ok w).
Proof. exact api_even. Qed.
Print Assumptions C34_even.
Example C34_ex : ok (gcem_cosh Cxx14 (AFlt F64 (ofZ F64 3))).
Proof. apply sf_ok. vm_compute. reflexivity. Qed.

(** C35 *)
Theorem C35_asinh_odd_refuted : forall v f, exists x, finite x = true /\ gcem_asinh v (AFlt f (-. x)) = Ok (B754_infinity true) /\
  exists w, gcem_asinh v (AFlt f x) = Ok w /\ finite w = true.
Proof. exact asinh_not_odd. Qed.
Print Assumptions C35_asinh_odd_refuted.

(** C36 *)
Theorem C36_beta_symmetric : forall v a b,
  rmap (AFlt _) (gcem_lbeta v a b) = rmap (AFlt _) (gcem_lbeta v b a) /\
  rmap (AFlt _) (gcem_beta v a b) = rmap (AFlt _) (gcem_beta v b a).
Proof. exact api_beta_sym. Qed.
Print Assumptions C36_beta_symmetric.
Example C36_ex : ok (gcem_beta Cxx14 (AInt I32 3) (AFlt F64 (dec F64 25 1))).
Proof. apply sf_ok. vm_compute. reflexivity. Qed.

(** C37, C52: for operands of very different size the order decides between the right value and overflow. *)
Theorem C37_hypot_symmetric_refuted : forall f (x y : flt f), finite x = true -> finite y = true ->
  bpow radix2 (2 - emax f) <= Rabs (B2R x) -> bpow radix2 (emax f / 2) * Rabs (B2R x) <= Rabs (B2R y) ->
  rmap (AFlt _) (gcem_hypot (AFlt f x) (AFlt f y)) = Ok (AFlt f (B754_infinity false)) /\
  rmap (AFlt _) (gcem_hypot (AFlt f y) (AFlt f x)) = Ok (AFlt f (Babs y)).
Proof. exact api_hypot_lopsided. Qed.
Print Assumptions C37_hypot_symmetric_refuted.
Theorem C52_hypot_overflow_refuted : forall f (x y : flt f), finite x = true -> finite y = true ->
  bpow radix2 (2 - emax f) <= Rabs (B2R x) -> bpow radix2 (emax f / 2) * Rabs (B2R x) <= Rabs (B2R y) ->
  rmap (AFlt _) (gcem_hypot (AFlt f x) (AFlt f y)) = Ok (AFlt f (B754_infinity false)).
Proof. exact api_hypot_overflow. Qed.
Print Assumptions C52_hypot_overflow_refuted.
Example C37_ex : rmap (AFlt _) (gcem_hypot (AFlt F64 (ofZ F64 1)) (AFlt F64 (ofZ F64 (2 ^ 520)))) = Ok (AFlt F64 (B754_infinity false)).
Proof.
  destruct (ofZ_has_val F64 1 eq_refl) as (F1 & V1).
  assert (V2 : B2R (ofZ F64 (2 ^ 520)) = bpow radix2 520).
  { rewrite (B2R_sf (ofZ F64 (2 ^ 520)) (SpecFloat.S754_finite false 4503599627370496 468)) by (vm_compute; reflexivity).
    unfold SF2R, F2R. cbn [cond_Zopp Fnum Fexp]. change (IZR 4503599627370496) with (bpow radix2 52). rewrite <- bpow_plus. reflexivity. }
  apply C52_hypot_overflow_refuted; auto.
  - rewrite V1, Rabs_R1. change 1 with (bpow radix2 0). apply bpow_le. discriminate.
  - rewrite V1, V2, Rabs_R1, Rmult_1_r, Rabs_pos_eq by apply bpow_ge_0. apply bpow_le. discriminate.
Qed.

(** C38 *)
Theorem C38_cxx11_cxx14_unary : forall a,
  gcem_exp Cxx11 a = gcem_exp Cxx14 a /\ gcem_expm1 Cxx11 a = gcem_expm1 Cxx14 a /\
  gcem_log Cxx11 a = gcem_log Cxx14 a /\ gcem_log1p Cxx11 a = gcem_log1p Cxx14 a /\
  gcem_log2 Cxx11 a = gcem_log2 Cxx14 a /\ gcem_log10 Cxx11 a = gcem_log10 Cxx14 a /\
  gcem_sinh Cxx11 a = gcem_sinh Cxx14 a /\ gcem_cosh Cxx11 a = gcem_cosh Cxx14 a /\
  gcem_tanh Cxx11 a = gcem_tanh Cxx14 a /\ gcem_asinh Cxx11 a = gcem_asinh Cxx14 a /\
  gcem_acosh Cxx11 a = gcem_acosh Cxx14 a /\ gcem_atanh Cxx11 a = gcem_atanh Cxx14 a /\
  gcem_lgamma Cxx11 a = gcem_lgamma Cxx14 a /\ (forall n, gcem_tgamma Cxx11 n a = gcem_tgamma Cxx14 n a) /\
  gcem_erf Cxx11 a = gcem_erf Cxx14 a /\ gcem_erf_inv Cxx11 a = gcem_erf_inv Cxx14 a /\
  (forall n, gcem_factorial Cxx11 n a = gcem_factorial Cxx14 n a) /\
  (forall n p, gcem_lmgamma Cxx11 n a p = gcem_lmgamma Cxx14 n a p).
Proof. exact api_11_14_unary. Qed.
Print Assumptions C38_cxx11_cxx14_unary.
Theorem C38_cxx11_cxx14_multi : forall a b c,
  gcem_pow Cxx11 a b = gcem_pow Cxx14 a b /\ gcem_lbeta Cxx11 a b = gcem_lbeta Cxx14 a b /\
  gcem_beta Cxx11 a b = gcem_beta Cxx14 a b /\
  gcem_log_binomial_coef Cxx11 a b = gcem_log_binomial_coef Cxx14 a b /\
  gcem_incomplete_gamma Cxx11 a b = gcem_incomplete_gamma Cxx14 a b /\
  gcem_incomplete_gamma_inv Cxx11 a b = gcem_incomplete_gamma_inv Cxx14 a b /\
  gcem_incomplete_beta Cxx11 a b c = gcem_incomplete_beta Cxx14 a b c /\
  gcem_incomplete_beta_inv Cxx11 a b c = gcem_incomplete_beta_inv Cxx14 a b c.
Proof. exact api_11_14_multi. Qed.
Print Assumptions C38_cxx11_cxx14_multi.
Theorem C38_cxx11_cxx14_atan : forall f (x : flt f), (Babs x <=. dlit f 25 1) = true ->
  gcem_atan Cxx11 (AFlt f x) = gcem_atan Cxx14 (AFlt f x).
Proof. exact api_11_14_atan. Qed.
Print Assumptions C38_cxx11_cxx14_atan.
Example C38_ex : gcem_atan Cxx11 (AFlt F32 (ofZ F32 (-2))) = gcem_atan Cxx14 (AFlt F32 (ofZ F32 (-2))).
Proof. apply C38_cxx11_cxx14_atan. vm_compute. reflexivity. Qed.

(** C39 *)
Theorem C39_atan_cxx11_cxx14_refuted : exists x : flt F64, finite x = true /\ exists w w',
  gcem_atan Cxx11 (AFlt F64 x) = Ok w /\ gcem_atan Cxx14 (AFlt F64 x) = Ok w' /\ B2R w <> B2R w'.
Proof. exact atan_11_14_differ. Qed.
Print Assumptions C39_atan_cxx11_cxx14_refuted.

(** C46 *)
Theorem C46_log_integral : forall v t z, (0 <= z)%Z -> gcem_log v (AInt t z) = gcem_log v (AFlt F64 (ofZ F64 z)).
Proof. exact log_int_nonneg. Qed.
Print Assumptions C46_log_integral.
Theorem C46_log_negative_integral_refuted : forall v t z, in_range t z -> (z < 0)%Z ->
  gcem_log v (AInt t z) = Ok (B754_zero false) /\ gcem_log v (AFlt F64 (ofZ F64 z)) = Ok B754_nan.
Proof. exact log_int_neg. Qed.
Print Assumptions C46_log_negative_integral_refuted.
Example C46_ex : gcem_log Cxx14 (AInt I8 (-5)) = Ok (B754_zero false).
Proof. refine (proj1 (C46_log_negative_integral_refuted Cxx14 I8 (-5) _ _)); [split; vm_compute; discriminate|reflexivity]. Qed.

(** C47 *)
Theorem C47_integral_unary : forall v n t z p, let a := AInt t z in let d := AFlt F64 (ofZ F64 z) in
  gcem_floor a = gcem_floor d /\ gcem_ceil a = gcem_ceil d /\ gcem_trunc a = gcem_trunc d /\ gcem_round a = gcem_round d /\
  gcem_sqrt a = gcem_sqrt d /\ gcem_inv_sqrt a = gcem_inv_sqrt d /\ gcem_exp v a = gcem_exp v d /\ gcem_expm1 v a = gcem_expm1 v d /\
  gcem_log1p v a = gcem_log1p v d /\ gcem_tan a = gcem_tan d /\ gcem_sin a = gcem_sin d /\ gcem_cos a = gcem_cos d /\
  gcem_atan v a = gcem_atan v d /\ gcem_asin v a = gcem_asin v d /\ gcem_acos v a = gcem_acos v d /\
  gcem_sinh v a = gcem_sinh v d /\ gcem_cosh v a = gcem_cosh v d /\ gcem_tanh v a = gcem_tanh v d /\
  gcem_asinh v a = gcem_asinh v d /\ gcem_acosh v a = gcem_acosh v d /\ gcem_atanh v a = gcem_atanh v d /\
  gcem_lgamma v a = gcem_lgamma v d /\ gcem_tgamma v n a = gcem_tgamma v n d /\ gcem_lmgamma v n a p = gcem_lmgamma v n d p /\
  gcem_erf v a = gcem_erf v d /\ gcem_erf_inv v a = gcem_erf_inv v d /\
  ((0 <= z)%Z -> gcem_log2 v a = gcem_log2 v d /\ gcem_log10 v a = gcem_log10 v d).
Proof. exact api_integral. Qed.
Print Assumptions C47_integral_unary.
Theorem C47_integral_binary : forall v s t x y, let a := AInt s x in let b := AInt t y in
  let c := AFlt F64 (ofZ F64 x) in let d := AFlt F64 (ofZ F64 y) in
  gcem_fmod a b = gcem_fmod c d /\ gcem_hypot a b = gcem_hypot c d /\ gcem_atan2 v a b = gcem_atan2 v c d /\
  gcem_log_binomial_coef v a b = gcem_log_binomial_coef v c d /\ gcem_incomplete_gamma v a b = gcem_incomplete_gamma v c d.
Proof. exact api_integral2. Qed.
Print Assumptions C47_integral_binary.

(** C50 *)
Theorem C50_tanh_range_refuted : forall v f, exists w, gcem_tanh v (AFlt f (ofZ f 100)) = Ok w /\ finite w = true /\ 1 < B2R w.
Proof. exact tanh_above_one. Qed.
Print Assumptions C50_tanh_range_refuted.

(** C53 *)
Theorem C53_atan2_origin : forall v f sy sx, rmap (AFlt _) (gcem_atan2 v (AFlt f (B754_zero sy)) (AFlt f (B754_zero sx))) =
  Ok (AFlt f (let m := if sx then conv f GCEM_PI else ofZ f 0 in if sy then -. m else m)).
Proof. exact api_atan2_origin. Qed.
Print Assumptions C53_atan2_origin.
Theorem C53_atan2_axis : forall v f (y x : flt f), tiny x -> ~ tiny y ->
  (above y 0 -> rmap (AFlt _) (gcem_atan2 v (AFlt f y) (AFlt f x)) = Ok (AFlt f (conv f GCEM_HALF_PI))) /\
  (below y 0 -> rmap (AFlt _) (gcem_atan2 v (AFlt f y) (AFlt f x)) = Ok (AFlt f (-. conv f GCEM_HALF_PI))).
Proof. exact api_atan2_axis. Qed.
Print Assumptions C53_atan2_axis.
Theorem C53_atan2_quadrants : forall v f (y x : flt f), is_nan y = false -> ~ tiny x ->
  (above x 0 -> rmap (AFlt _) (gcem_atan2 v (AFlt f y) (AFlt f x)) = rmap (AFlt _) (gcem_atan v (AFlt f (y /. x)))) /\
  (below x 0 -> below y 0 -> rmap (AFlt _) (gcem_atan2 v (AFlt f y) (AFlt f x)) = rmap (fun a : flt f => AFlt f (a -. conv f GCEM_PI)) (gcem_atan v (AFlt f (y /. x)))) /\
  (below x 0 -> ~ below y 0 -> rmap (AFlt _) (gcem_atan2 v (AFlt f y) (AFlt f x)) = rmap (fun a : flt f => AFlt f (a +. conv f GCEM_PI)) (gcem_atan v (AFlt f (y /. x)))).
Proof. exact api_atan2_quadrants. Qed.
Print Assumptions C53_atan2_quadrants.
(** The sign of a negative zero ordinate is lost in the left half plane. *)
Theorem C53_atan2_negzero_refuted : forall v f (x : flt f), below x 0 -> ~ tiny x ->
  rmap (AFlt _) (gcem_atan2 v (AFlt f (B754_zero true)) (AFlt f x)) = Ok (AFlt f (conv f GCEM_PI)).
Proof. exact api_atan2_negzero. Qed.
Print Assumptions C53_atan2_negzero_refuted.
Example C53_ex : rmap (AFlt _) (gcem_atan2 Cxx14 (AFlt F64 (B754_zero true)) (AFlt F64 (ofZ F64 (-1)))) = Ok (AFlt F64 (conv F64 GCEM_PI)).
Proof.
  destruct (ofZ_has_val F64 (-1) eq_refl) as (F & V). apply C53_atan2_negzero_refuted.
  - destruct (ofZ F64 (-1)); try discriminate F; unfold below; rewrite V; lra.
  - intros (_ & T). rewrite V, <- abs_IZR in T. apply (lt_bpow radix2 0 (2 - emax F64)) in T. discriminate T.
Qed.

(** C54 *)
Theorem C54_acos_reflect : forall v f (x : flt f), above x 0 ->
  gcem_acos v (AFlt f (-. x)) = (let* r := gcem_acos v (AFlt f x) in Ok ((conv f GCEM_PI : flt f) -. r)).
Proof. exact acos_reflect. Qed.
Print Assumptions C54_acos_reflect.
Example C54_ex : ok (gcem_acos Cxx14 (AFlt F64 (dec F64 5 1))).
Proof. apply sf_ok. vm_compute. reflexivity. Qed.
