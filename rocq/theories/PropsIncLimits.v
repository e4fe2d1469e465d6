(** * incomplete_gamma and tgamma at large arguments (C146 - C148). *)
From Verif Require Import Base ModelBasic ModelInt ModelElem ModelSpecial ModelApi Spec FltLemmas ConvLemmas BasicProofs IncLimits.
From Coq Require Import Lra Lia.
Open Scope R_scope.

(** C146: P(a, infinity) is 1, the code returns NaN *)
Theorem C146_incomplete_gamma_infinity_refuted : forall v f (a : flt f), finite a = true -> bpow radix2 (2 - emax f) <= B2R a ->
  rmap (AFlt _) (gcem_incomplete_gamma v (AFlt f a) (AFlt f (B754_infinity false))) = Ok (AFlt f B754_nan).
Proof. exact api_ig_inf. Qed.
Print Assumptions C146_incomplete_gamma_infinity_refuted.
(** so the probability 1 does not survive the round trip *)
Theorem C146_round_trip_one_refuted : forall v f (a p : flt f), finite a = true -> bpow radix2 (2 - emax f) <= B2R a -> has_val p 1 ->
  exists w, rmap (AFlt _) (gcem_incomplete_gamma_inv v (AFlt f a) (AFlt f p)) = Ok (AFlt f w) /\ rmap (AFlt _) (gcem_incomplete_gamma v (AFlt f a) (AFlt f w)) = Ok (AFlt f B754_nan).
Proof. exact ig_inv_one. Qed.
Print Assumptions C146_round_trip_one_refuted.
Example C146_ex : rmap (AFlt _) (gcem_incomplete_gamma Cxx11 (AFlt F64 (half F64)) (AFlt F64 (B754_infinity false))) = Ok (AFlt F64 B754_nan).
Proof.
  destruct (half_spec F64) as (V & F). apply C146_incomplete_gamma_infinity_refuted. exact F. rewrite V. change (/ 2) with (bpow radix2 (-1)). apply bpow_le. discriminate.
Qed.

(** C147: a large finite z *)
Theorem C147_incomplete_gamma_large_refuted : forall v f (a z : flt f), finite a = true -> finite z = true -> / 2 <= B2R a <= 9 -> 10000000000000000000 <= B2R z <= 18000000000000000000 ->
  gcem_incomplete_gamma v (AFlt f a) (AFlt f z) = Ub UbCast.
Proof. exact api_ig_big. Qed.
Print Assumptions C147_incomplete_gamma_large_refuted.
Example C147_ex : gcem_incomplete_gamma Cxx14 (AFlt F80 (half F80)) (AFlt F80 (ofZ F80 (10 ^ 19))) = Ub UbCast.
Proof.
  destruct (half_spec F80) as (V & F). apply C147_incomplete_gamma_large_refuted. exact F. vm_compute; reflexivity. rewrite V; lra. rewrite (proj2 (BasicProofs.ofZ_has_val F80 (10 ^ 19) eq_refl)). change (10 ^ 19)%Z with 10000000000000000000%Z. lra.
Qed.

(** C148: above its overflow threshold tgamma is infinite *)
Theorem C148_tgamma_overflow : forall v n f (x : flt f), finite x = true -> match f with F32 => 40 | F64 => 200 | F80 => 2000 end <= B2R x <= bpow radix2 50 ->
  gcem_tgamma v (S n) (AFlt f x) = Ok (B754_infinity false).
Proof. exact tgamma_overflow. Qed.
Print Assumptions C148_tgamma_overflow.
Example C148_ex : gcem_tgamma Cxx11 1 (AFlt F64 (ofZ F64 1000)) = Ok (B754_infinity false).
Proof.
  destruct (ofZ_small F64 1000 ltac:(lia)) as (V & F & _). apply C148_tgamma_overflow. exact F. rewrite V. change (bpow radix2 50) with 1125899906842624. lra.
Qed.
(** but not for every finite argument *)
Theorem C148_tgamma_huge_refuted : forall v f, gcem_tgamma v 1 (AFlt f (ofZ f (10 ^ 18))) = Ub UbCast.
Proof. exact tgamma_big. Qed.
Print Assumptions C148_tgamma_huge_refuted.
