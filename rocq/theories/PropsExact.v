(** * Exactness, monotonicity and special values (C116 to C118, C124, C125). *)
From Verif Require Import Base ModelBasic ModelInt ModelElem ModelApi Spec FltLemmas TotalProofs Exact Special.
From Coq Require Import Lra.
Open Scope R_scope.

(** C116 *)
Theorem C116_sqrt_square_refuted : forall f, exists n, (1 <= n <= 16)%Z /\ exists w, gcem_sqrt (AFlt f (ofZ f (n * n))) = Ok w /\ finite w = true /\ B2R w < IZR n /\
  exists z, gcem_floor (AFlt f w) = Ok z /\ finite z = true /\ B2R z = IZR (n - 1).
Proof. exact sqrt_square_bad. Qed.
Print Assumptions C116_sqrt_square_refuted.
Theorem C116_sqrt_integer_refuted : forall t, in_range t 169 -> exists w, gcem_sqrt (AInt t 169) = Ok w /\ finite w = true /\ B2R w < 13 /\
  exists z, gcem_floor (AFlt F64 w) = Ok z /\ finite z = true /\ B2R z = 12.
Proof. exact sqrt_square_int. Qed.
Print Assumptions C116_sqrt_integer_refuted.
Example C116_ex : in_range I32 169.
Proof. split; discriminate. Qed.

(** C117 *)
Theorem C117_log2_power_refuted : forall v f, exists k, (1 <= k <= 15)%Z /\ exists w, gcem_log2 v (AFlt f (ofZ f (2 ^ k))) = Ok w /\ finite w = true /\ B2R w < IZR k /\
  exists z, gcem_floor (AFlt f w) = Ok z /\ finite z = true /\ B2R z = IZR (k - 1).
Proof. exact log2_bad. Qed.
Print Assumptions C117_log2_power_refuted.
Theorem C117_log2_integer_refuted : forall v t, exists w, gcem_log2 v (AInt t 8) = Ok w /\ finite w = true /\ B2R w < 3 /\
  exists z, gcem_floor (AFlt F64 w) = Ok z /\ finite z = true /\ B2R z = 2.
Proof. exact log2_int. Qed.
Print Assumptions C117_log2_integer_refuted.
Theorem C117_log10_power_refuted : forall v f, exists k, (1 <= k <= 15)%Z /\ exists w, gcem_log10 v (AFlt f (ofZ f (10 ^ k))) = Ok w /\ finite w = true /\ B2R w <> IZR k.
Proof. exact log10_bad. Qed.
Print Assumptions C117_log10_power_refuted.
Theorem C117_pow_one_refuted : forall v f, exists n, (1 <= n <= 6)%Z /\ exists w, gcem_pow v (AFlt f (ofZ f n)) (AFlt f (ofZ f 1)) = Ok (AFlt f w) /\ finite w = true /\ B2R w < IZR n /\
  exists z, gcem_floor (AFlt f w) = Ok z /\ finite z = true /\ B2R z = IZR (n - 1).
Proof. exact pow_one_bad. Qed.
Print Assumptions C117_pow_one_refuted.
Theorem C117_pow_two_refuted : forall v, exists w, gcem_pow v (AFlt F64 (ofZ F64 2)) (AFlt F64 (ofZ F64 2)) = Ok (AFlt F64 w) /\ finite w = true /\ B2R w < 4 /\
  exists z, gcem_floor (AFlt F64 w) = Ok z /\ finite z = true /\ B2R z = 3.
Proof. exact pow_two_bad. Qed.
Print Assumptions C117_pow_two_refuted.

(** C118 *)
Theorem C118_atan_monotone_refuted : forall v f, exists x y a b : flt f, 0 < B2R x < B2R y /\ B2R y < 1 /\ finite x = true /\ finite y = true /\
  gcem_atan v (AFlt f x) = Ok a /\ gcem_atan v (AFlt f y) = Ok b /\ finite a = true /\ finite b = true /\ B2R b < B2R a.
Proof. exact atan_falls. Qed.
Print Assumptions C118_atan_monotone_refuted.
Theorem C118_sin_monotone_refuted : forall f, exists x y a b : flt f, 0 < B2R x < B2R y /\ B2R y < 1 /\ finite x = true /\ finite y = true /\
  gcem_sin (AFlt f x) = Ok a /\ gcem_sin (AFlt f y) = Ok b /\ finite a = true /\ finite b = true /\ B2R b < B2R a.
Proof. exact sin_falls. Qed.
Print Assumptions C118_sin_monotone_refuted.
Theorem C118_tanh_monotone_refuted : forall v f, exists x y a b : flt f, 0 < B2R x < B2R y /\ B2R y < 1 /\ finite x = true /\ finite y = true /\
  gcem_tanh v (AFlt f x) = Ok a /\ gcem_tanh v (AFlt f y) = Ok b /\ finite a = true /\ finite b = true /\ B2R b < B2R a.
Proof. exact tanh_falls. Qed.
Print Assumptions C118_tanh_monotone_refuted.

(** C124 *)
Theorem C124_infinite_unary_refuted : forall v f s, gcem_tanh v (AFlt f (B754_infinity s)) = Ok B754_nan /\ gcem_asinh v (AFlt f (B754_infinity true)) = Ok B754_nan.
Proof. exact special_unary. Qed.
Print Assumptions C124_infinite_unary_refuted.
Theorem C124_atan2_infinite_refuted : forall v f s t, gcem_atan2 v (AFlt f (B754_infinity s)) (AFlt f (B754_infinity t)) = Ok B754_nan.
Proof. exact special_atan2. Qed.
Print Assumptions C124_atan2_infinite_refuted.
Theorem C124_fmod_infinite_refuted : forall a g s, gcem_fmod a (AFlt g (B754_infinity s)) = Ok B754_nan.
Proof. exact special_fmod. Qed.
Print Assumptions C124_fmod_infinite_refuted.
Theorem C124_pow_special_refuted : forall v f s t, let z := (B754_zero s : flt f) in let w := (B754_zero t : flt f) in let i := (B754_infinity t : flt f) in
  gcem_pow v (AFlt f z) (AFlt f w) = Ok (AFlt f B754_nan) /\ gcem_pow v (AFlt f (B754_infinity false)) (AFlt f w) = Ok (AFlt f B754_nan) /\
  gcem_pow v (AFlt f (ofZ f 1)) (AFlt f i) = Ok (AFlt f B754_nan).
Proof. exact special_pow. Qed.
Print Assumptions C124_pow_special_refuted.

(** C125 *)
Theorem C125_hyperbolic_total : forall v f (x : flt f), (finite x = true -> Rabs (B2R x) <= IZR (2 ^ 63 - 1)) ->
  ok (gcem_sinh v (AFlt f x)) /\ ok (gcem_cosh v (AFlt f x)) /\ ok (gcem_expm1 v (AFlt f x)).
Proof. exact @hyp_ok. Qed.
Print Assumptions C125_hyperbolic_total.
Theorem C125_hyperbolic_large_refuted : forall v f (x : flt f), finite x = true -> (IZR (2 ^ 63) <= B2R x \/ B2R x < - IZR (2 ^ 63)) ->
  gcem_sinh v (AFlt f x) = Ub UbCast /\ gcem_cosh v (AFlt f x) = Ub UbCast /\ gcem_expm1 v (AFlt f x) = Ub UbCast.
Proof. exact @hyp_ub. Qed.
Print Assumptions C125_hyperbolic_large_refuted.
Theorem C125_pow_large_refuted : forall v f (x y : flt f), finite x = true -> finite y = true -> 2 <= B2R x -> bpow radix2 64 <= Rabs (B2R y) <= bpow radix2 (emax f - 16) ->
  gcem_pow v (AFlt f x) (AFlt f y) = Ub UbCast.
Proof. exact pow_ub. Qed.
Print Assumptions C125_pow_large_refuted.
Example C125_ex : ok (gcem_sinh Cxx14 (AFlt F64 (ofZ F64 1000))).
Proof. destruct (ofZ_small F64 1000 ltac:(lia)) as (V & _). apply (C125_hyperbolic_total Cxx14 F64 (ofZ F64 1000)). intros _. rewrite V, <- abs_IZR. apply IZR_le. discriminate. Qed.
Example C125_ex' : gcem_pow Cxx11 (AFlt F64 (ofZ F64 2)) (AFlt F64 (ofZ F64 (2 ^ 70))) = Ub UbCast.
Proof.
  destruct (ofZ_small F64 2 ltac:(lia)) as (V & F & _). apply C125_pow_large_refuted; auto. rewrite V. lra.
  assert (E : B2R (ofZ F64 (2 ^ 70)) = bpow radix2 70). { rewrite (MiscProofs.B2R_sf (ofZ F64 (2 ^ 70)) (SpecFloat.S754_finite false 4503599627370496 18)) by (vm_compute; reflexivity). unfold SF2R, F2R. cbn. lra. }
  rewrite E, Rabs_pos_eq by apply bpow_ge_0. split; apply bpow_le; discriminate.
Qed.
