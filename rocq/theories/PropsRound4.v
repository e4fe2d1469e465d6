(** * asinh, acosh and atanh undo sinh, cosh and tanh (C150). *)
From Verif Require Import Base ModelBasic ModelInt ModelElem ModelSpecial ModelApi Spec FltLemmas ConvLemmas BasicProofs RoundTrip4.
From Coq Require Import Lra Lia.
Open Scope R_scope.

(** C150: the argument is recovered up to an absolute error *)
Theorem C150_asinh_sinh_mid : forall v f (x : flt f), finite x = true -> / 100 <= B2R x < 2 ->
  exists s a : flt f, gcem_sinh v (AFlt f x) = Ok s /\ gcem_asinh v (AFlt f s) = Ok a /\ finite a = true /\
  abs_err (B2R a) (B2R x) (129 * bpow radix2 (- prec f) + bpow radix2 (-54)).
Proof. exact asinh_of_sinh_mid. Qed.
Print Assumptions C150_asinh_sinh_mid.
Theorem C150_asinh_sinh_far : forall v f (x : flt f), finite x = true -> 2 <= B2R x <= 40 ->
  exists s a : flt f, gcem_sinh v (AFlt f x) = Ok s /\ gcem_asinh v (AFlt f s) = Ok a /\ finite a = true /\
  abs_err (B2R a) (B2R x) ((23 + 6 * B2R x) * bpow radix2 (- prec f) + bpow radix2 (-52)).
Proof. exact asinh_of_sinh_far. Qed.
Print Assumptions C150_asinh_sinh_far.
Theorem C150_acosh_cosh : forall v f (x : flt f), finite x = true -> 2 <= B2R x <= 40 ->
  exists c a : flt f, gcem_cosh v (AFlt f x) = Ok c /\ gcem_acosh v (AFlt f c) = Ok a /\ finite a = true /\
  abs_err (B2R a) (B2R x) ((16 + 10 * B2R x) * bpow radix2 (- prec f) + bpow radix2 (-52)).
Proof. exact acosh_of_cosh. Qed.
Print Assumptions C150_acosh_cosh.
Theorem C150_atanh_tanh : forall v f (x : flt f), finite x = true -> / 100 <= B2R x <= 2 ->
  exists t a : flt f, gcem_tanh v (AFlt f x) = Ok t /\ gcem_atanh v (AFlt f t) = Ok a /\ finite a = true /\
  abs_err (B2R a) (B2R x) (217 * bpow radix2 (- prec f) + bpow radix2 (-62)).
Proof. exact atanh_of_tanh. Qed.
Print Assumptions C150_atanh_tanh.
Example C150_ex_mid : exists s a : flt F32, gcem_sinh Cxx11 (AFlt F32 (half F32)) = Ok s /\ gcem_asinh Cxx11 (AFlt F32 s) = Ok a /\ finite a = true /\
  abs_err (B2R a) (B2R (half F32)) (129 * bpow radix2 (-24) + bpow radix2 (-54)).
Proof. destruct (half_spec F32) as (V & F). apply (C150_asinh_sinh_mid Cxx11 F32 (half F32) F). rewrite V. lra. Qed.
Example C150_ex_far : exists s a : flt F64, gcem_sinh Cxx14 (AFlt F64 (ofZ F64 30)) = Ok s /\ gcem_asinh Cxx14 (AFlt F64 s) = Ok a /\ finite a = true /\
  abs_err (B2R a) (B2R (ofZ F64 30)) ((23 + 6 * B2R (ofZ F64 30)) * bpow radix2 (-53) + bpow radix2 (-52)).
Proof. destruct (ofZ_small F64 30 ltac:(lia)) as (V & F & _). apply (C150_asinh_sinh_far Cxx14 F64 (ofZ F64 30) F). rewrite V. lra. Qed.
Example C150_ex_cosh : exists c a : flt F80, gcem_cosh Cxx14 (AFlt F80 (ofZ F80 5)) = Ok c /\ gcem_acosh Cxx14 (AFlt F80 c) = Ok a /\ finite a = true /\
  abs_err (B2R a) (B2R (ofZ F80 5)) ((16 + 10 * B2R (ofZ F80 5)) * bpow radix2 (-64) + bpow radix2 (-52)).
Proof. destruct (ofZ_small F80 5 ltac:(lia)) as (V & F & _). apply (C150_acosh_cosh Cxx14 F80 (ofZ F80 5) F). rewrite V. lra. Qed.
Example C150_ex_tanh : exists t a : flt F64, gcem_tanh Cxx11 (AFlt F64 (ofZ F64 1)) = Ok t /\ gcem_atanh Cxx11 (AFlt F64 t) = Ok a /\ finite a = true /\
  abs_err (B2R a) (B2R (ofZ F64 1)) (217 * bpow radix2 (-53) + bpow radix2 (-62)).
Proof. destruct (ofZ_small F64 1 ltac:(lia)) as (V & F & _). apply (C150_atanh_tanh Cxx11 F64 (ofZ F64 1) F). rewrite V. lra. Qed.
