(** * incomplete_gamma(1, z) and exp(-z) (C149). *)
From Verif Require Import Base ModelBasic ModelInt ModelElem ModelSpecial ModelApi Spec FltLemmas ConvLemmas BasicProofs ExpDist.
From Coq Require Import Lra Lia.
Open Scope R_scope.

(** C149: the two tails of the exponential distribution add up to one *)
Theorem C149_exponential_tails_low : forall v f (z : flt f), finite z = true -> / 2 <= B2R z <= 3 / 2 ->
  exists w e : flt f, rmap (AFlt _) (gcem_incomplete_gamma v (AFlt f (ofZ f 1)) (AFlt f z)) = Ok (AFlt f w) /\ gcem_exp v (AFlt f (-. z)) = Ok e /\ finite w = true /\ finite e = true /\
  abs_err (B2R w + B2R e) 1 (1320 * bpow radix2 (- prec f) + bpow radix2 (-49)).
Proof. exact expdist_low. Qed.
Print Assumptions C149_exponential_tails_low.
Theorem C149_exponential_tails_up : forall v f (z : flt f), finite z = true -> 11 <= B2R z <= 60 ->
  exists w e : flt f, rmap (AFlt _) (gcem_incomplete_gamma v (AFlt f (ofZ f 1)) (AFlt f z)) = Ok (AFlt f w) /\ gcem_exp v (AFlt f (-. z)) = Ok e /\ finite w = true /\ finite e = true /\
  abs_err (B2R w + B2R e) 1 (27 * bpow radix2 (- prec f) + bpow radix2 (-54)).
Proof. exact expdist_up. Qed.
Print Assumptions C149_exponential_tails_up.
Example C149_ex_low : exists w e : flt F64, rmap (AFlt _) (gcem_incomplete_gamma Cxx14 (AFlt F64 (ofZ F64 1)) (AFlt F64 (half F64))) = Ok (AFlt F64 w) /\ gcem_exp Cxx14 (AFlt F64 (-. (half F64))) = Ok e /\ finite w = true /\ finite e = true /\
  abs_err (B2R w + B2R e) 1 (1320 * bpow radix2 (-53) + bpow radix2 (-49)).
Proof. destruct (half_spec F64) as (V & F). apply (C149_exponential_tails_low Cxx14 F64 (half F64) F). rewrite V. lra. Qed.
Example C149_ex_up : exists w e : flt F32, rmap (AFlt _) (gcem_incomplete_gamma Cxx11 (AFlt F32 (ofZ F32 1)) (AFlt F32 (ofZ F32 20))) = Ok (AFlt F32 w) /\ gcem_exp Cxx11 (AFlt F32 (-. (ofZ F32 20))) = Ok e /\ finite w = true /\ finite e = true /\
  abs_err (B2R w + B2R e) 1 (27 * bpow radix2 (-24) + bpow radix2 (-54)).
Proof. destruct (ofZ_small F32 20 ltac:(lia)) as (V & F & _). apply (C149_exponential_tails_up Cxx11 F32 (ofZ F32 20) F). rewrite V. lra. Qed.
