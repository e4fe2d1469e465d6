(** * erf, incomplete_gamma and tgamma at one half (C155). *)
From Verif Require Import Base ModelBasic ModelInt ModelElem ModelSpecial ModelApi Spec FltLemmas ConvLemmas BasicProofs ErfGamma.
From Coq Require Import Lra Lia.
Open Scope R_scope.

(** C155: erf(x) is incomplete_gamma(1/2, x * x), the square being the rounded product *)
Theorem C155_erf_incomplete_gamma_low : forall v f (x : flt f), finite x = true -> 71 / 100 <= B2R x <= 99 / 100 ->
  exists w e : flt f, rmap (AFlt _) (gcem_incomplete_gamma v (AFlt f (half f)) (AFlt f (x *. x))) = Ok (AFlt f w) /\ gcem_erf v (AFlt f x) = Ok e /\ finite w = true /\ finite e = true /\
  abs_err (B2R w) (B2R e) (1741 * bpow radix2 (- prec f) + bpow radix2 (-48)).
Proof. exact ig_erf_low. Qed.
Print Assumptions C155_erf_incomplete_gamma_low.
Theorem C155_erf_incomplete_gamma_up : forall v f (x : flt f), finite x = true -> 325 / 100 <= B2R x <= 300 ->
  exists w e : flt f, rmap (AFlt _) (gcem_incomplete_gamma v (AFlt f (half f)) (AFlt f (x *. x))) = Ok (AFlt f w) /\ gcem_erf v (AFlt f x) = Ok e /\ finite w = true /\ finite e = true /\
  abs_err (B2R w) (B2R e) (29 * bpow radix2 (- prec f) + bpow radix2 (-54)).
Proof. exact ig_erf_up. Qed.
Print Assumptions C155_erf_incomplete_gamma_up.
Example C155_ex_low : exists w e : flt F64, rmap (AFlt _) (gcem_incomplete_gamma Cxx14 (AFlt F64 (half F64)) (AFlt F64 ((ofZ F64 3 /. ofZ F64 4) *. (ofZ F64 3 /. ofZ F64 4)))) = Ok (AFlt F64 w) /\ gcem_erf Cxx14 (AFlt F64 (ofZ F64 3 /. ofZ F64 4)) = Ok e /\ finite w = true /\ finite e = true /\
  abs_err (B2R w) (B2R e) (1741 * bpow radix2 (-53) + bpow radix2 (-48)).
Proof. apply (C155_erf_incomplete_gamma_low Cxx14 F64 (ofZ F64 3 /. ofZ F64 4)). vm_compute; reflexivity. replace (B2R (ofZ F64 3 /. ofZ F64 4)) with (3 / 4). lra. vm_compute. lra. Qed.
Example C155_ex_up : exists w e : flt F32, rmap (AFlt _) (gcem_incomplete_gamma Cxx11 (AFlt F32 (half F32)) (AFlt F32 (ofZ F32 4 *. ofZ F32 4))) = Ok (AFlt F32 w) /\ gcem_erf Cxx11 (AFlt F32 (ofZ F32 4)) = Ok e /\ finite w = true /\ finite e = true /\
  abs_err (B2R w) (B2R e) (29 * bpow radix2 (-24) + bpow radix2 (-54)).
Proof. destruct (ofZ_small F32 4 ltac:(lia)) as (V & F & _). apply (C155_erf_incomplete_gamma_up Cxx11 F32 (ofZ F32 4) F). rewrite V. lra. Qed.

(** tgamma(1/2) is the square root of pi *)
Theorem C155_tgamma_half : forall v n f, exists w : flt f, gcem_tgamma v (S n) (AFlt f (half f)) = Ok w /\ finite w = true /\ rel_err (B2R w) (sqrt PI) (178 * bpow radix2 (- prec f) + bpow radix2 (-51)).
Proof. exact tgamma_half. Qed.
Print Assumptions C155_tgamma_half.
Example C155_ex_half : B2R (half F64) = / 2 /\ exists w : flt F64, gcem_tgamma Cxx11 1 (AFlt F64 (half F64)) = Ok w /\ finite w = true /\ rel_err (B2R w) (sqrt PI) (178 * bpow radix2 (-53) + bpow radix2 (-51)).
Proof. split. apply half_spec. exact (C155_tgamma_half Cxx11 0 F64). Qed.
