(** * Identities between different functions (C151 - C153). *)
From Verif Require Import Base ModelBasic ModelInt ModelElem ModelSpecial ModelApi Spec FltLemmas ConvLemmas BasicProofs Identities.
From Coq Require Import Lra Lia.
From Interval Require Import Tactic.
Open Scope R_scope.

(** C151: asin and acos are complementary *)
Theorem C151_asin_plus_acos : forall v f (x : flt f), finite x = true -> bpow radix2 (3 - emax f) <= Rabs (B2R x) < 1 ->
  exists s c : flt f, gcem_asin v (AFlt f x) = Ok s /\ gcem_acos v (AFlt f x) = Ok c /\ finite s = true /\ finite c = true /\
  abs_err (B2R s + B2R c) (PI / 2) ((40 + 16 / 10 / sqrt (1 - B2R x * B2R x)) * bpow radix2 (- prec f) + bpow radix2 (-52)).
Proof. exact asin_plus_acos. Qed.
Print Assumptions C151_asin_plus_acos.
Example C151_ex : exists s c : flt F64, gcem_asin Cxx14 (AFlt F64 (half F64)) = Ok s /\ gcem_acos Cxx14 (AFlt F64 (half F64)) = Ok c /\ finite s = true /\ finite c = true /\
  abs_err (B2R s + B2R c) (PI / 2) ((40 + 16 / 10 / sqrt (1 - B2R (half F64) * B2R (half F64))) * bpow radix2 (-53) + bpow radix2 (-52)).
Proof. destruct (half_spec F64) as (V & F). apply (C151_asin_plus_acos Cxx14 F64 (half F64) F). rewrite V, Rabs_pos_eq by lra. split; [|lra]. change (/ 2) with (bpow radix2 (-1)). apply bpow_le. discriminate. Qed.

(** C152: exp(x) * exp(-x) = 1 *)
Theorem C152_exp_reciprocal_small : forall v f (x : flt f), finite x = true -> Rabs (B2R x) < 2 ->
  exists a b : flt f, gcem_exp v (AFlt f x) = Ok a /\ gcem_exp v (AFlt f (-. x)) = Ok b /\ finite a = true /\ finite b = true /\
  abs_err (B2R a * B2R b) 1 (213 * bpow radix2 (- prec f) + bpow radix2 (-53)).
Proof. exact exp_recip_small. Qed.
Print Assumptions C152_exp_reciprocal_small.
Theorem C152_exp_reciprocal : forall v f (x : flt f), finite x = true -> 2 <= B2R x <= 10000 -> exp (B2R x + 2) <= bpow radix2 (emax f - 9) ->
  exists a b : flt f, gcem_exp v (AFlt f x) = Ok a /\ gcem_exp v (AFlt f (-. x)) = Ok b /\ finite a = true /\ finite b = true /\
  abs_err (B2R a * B2R b) 1 (119 * bpow radix2 (- prec f) + bpow radix2 (-52) + (B2R x + 3) * bpow radix2 (-59)).
Proof. exact exp_recip_far. Qed.
Print Assumptions C152_exp_reciprocal.
Example C152_ex_small : exists a b : flt F80, gcem_exp Cxx11 (AFlt F80 (half F80)) = Ok a /\ gcem_exp Cxx11 (AFlt F80 (-. (half F80))) = Ok b /\ finite a = true /\ finite b = true /\
  abs_err (B2R a * B2R b) 1 (213 * bpow radix2 (-64) + bpow radix2 (-53)).
Proof. destruct (half_spec F80) as (V & F). apply (C152_exp_reciprocal_small Cxx11 F80 (half F80) F). rewrite V, Rabs_pos_eq; lra. Qed.
Example C152_ex : exists a b : flt F32, gcem_exp Cxx11 (AFlt F32 (ofZ F32 50)) = Ok a /\ gcem_exp Cxx11 (AFlt F32 (-. (ofZ F32 50))) = Ok b /\ finite a = true /\ finite b = true /\
  abs_err (B2R a * B2R b) 1 (119 * bpow radix2 (-24) + bpow radix2 (-52) + (B2R (ofZ F32 50) + 3) * bpow radix2 (-59)).
Proof.
  destruct (ofZ_small F32 50 ltac:(lia)) as (V & F & _). apply (C152_exp_reciprocal Cxx11 F32 (ofZ F32 50) F); rewrite V. lra.
  apply Rle_trans with (bpow radix2 100). cbn. interval. apply bpow_le. discriminate.
Qed.

(** C153: pow with exponent 1/2 is sqrt *)
Theorem C153_pow_half_is_sqrt : forall v f (x : flt f), finite x = true -> / 2 <= B2R x <= 100 ->
  exists p s : flt f, gcem_pow v (AFlt f x) (AFlt f (half f)) = Ok (AFlt f p) /\ gcem_sqrt (AFlt f x) = Ok s /\ finite p = true /\ finite s = true /\
  rel_err (B2R p) (B2R s) (127 * bpow radix2 (- prec f) + bpow radix2 (-53)).
Proof. exact pow_half_sqrt. Qed.
Print Assumptions C153_pow_half_is_sqrt.
Example C153_ex : exists p s : flt F64, gcem_pow Cxx14 (AFlt F64 (ofZ F64 2)) (AFlt F64 (half F64)) = Ok (AFlt F64 p) /\ gcem_sqrt (AFlt F64 (ofZ F64 2)) = Ok s /\ finite p = true /\ finite s = true /\
  rel_err (B2R p) (B2R s) (127 * bpow radix2 (-53) + bpow radix2 (-53)).
Proof. destruct (ofZ_small F64 2 ltac:(lia)) as (V & F & _). apply (C153_pow_half_is_sqrt Cxx14 F64 (ofZ F64 2) F). rewrite V. lra. Qed.
