(** * Sums and negation of exponents of pow (C161). *)
From Verif Require Import Base ModelBasic ModelInt ModelElem ModelSpecial ModelApi Spec FltLemmas ConvLemmas BasicProofs PowSum.
From Coq Require Import Lra Lia.
From Interval Require Import Tactic.
Open Scope R_scope.

(** C161: x^a * x^b = x^(a+b), the sum being exact *)
Theorem C161_pow_sum : forall v f (x a b c : flt f), finite x = true -> finite a = true -> finite b = true -> finite c = true -> B2R c = B2R a + B2R b -> / 2 <= B2R x -> Rabs (B2R a * ln (B2R x)) + Rabs (B2R b * ln (B2R x)) <= 50 ->
  exists p q r : flt f, gcem_pow v (AFlt f x) (AFlt f a) = Ok (AFlt f p) /\ gcem_pow v (AFlt f x) (AFlt f b) = Ok (AFlt f q) /\ gcem_pow v (AFlt f x) (AFlt f c) = Ok (AFlt f r) /\ finite p = true /\ finite q = true /\ finite r = true /\
  rel_err (B2R p * B2R q) (B2R r) ((325 + 15 * (Rabs (B2R a * ln (B2R x)) + Rabs (B2R b * ln (B2R x)))) * bpow radix2 (- prec f) + bpow radix2 (-51)).
Proof. exact pow_sum. Qed.
Print Assumptions C161_pow_sum.
(** x^a * x^(-a) = 1 *)
Theorem C161_pow_neg : forall v f (x a : flt f), finite x = true -> finite a = true -> / 2 <= B2R x -> Rabs (B2R a * ln (B2R x)) <= 50 ->
  exists p q : flt f, gcem_pow v (AFlt f x) (AFlt f a) = Ok (AFlt f p) /\ gcem_pow v (AFlt f x) (AFlt f (-. a)) = Ok (AFlt f q) /\ finite p = true /\ finite q = true /\
  abs_err (B2R p * B2R q) 1 ((217 + 15 * Rabs (B2R a * ln (B2R x))) * bpow radix2 (- prec f) + bpow radix2 (-52)).
Proof. exact pow_neg. Qed.
Print Assumptions C161_pow_neg.
Example C161_ex : exists p q r : flt F64, gcem_pow Cxx11 (AFlt F64 (ofZ F64 7)) (AFlt F64 (half F64)) = Ok (AFlt F64 p) /\ gcem_pow Cxx11 (AFlt F64 (ofZ F64 7)) (AFlt F64 (half F64)) = Ok (AFlt F64 q) /\ gcem_pow Cxx11 (AFlt F64 (ofZ F64 7)) (AFlt F64 (ofZ F64 1)) = Ok (AFlt F64 r) /\ finite p = true /\ finite q = true /\ finite r = true /\
  rel_err (B2R p * B2R q) (B2R r) ((325 + 15 * (Rabs (B2R (half F64) * ln (B2R (ofZ F64 7))) + Rabs (B2R (half F64) * ln (B2R (ofZ F64 7))))) * bpow radix2 (-53) + bpow radix2 (-51)).
Proof.
  destruct (half_spec F64) as (V & F). destruct (ofZ_small F64 1 ltac:(lia)) as (V1 & F1 & _). destruct (ofZ_small F64 7 ltac:(lia)) as (V7 & F7 & _).
  apply (C161_pow_sum Cxx11 F64 (ofZ F64 7) (half F64) (half F64) (ofZ F64 1) F7 F F F1); rewrite ?V, ?V1, ?V7; try lra. interval.
Qed.
Example C161_neg_ex : exists p q : flt F64, gcem_pow Cxx11 (AFlt F64 (ofZ F64 7)) (AFlt F64 (half F64)) = Ok (AFlt F64 p) /\ gcem_pow Cxx11 (AFlt F64 (ofZ F64 7)) (AFlt F64 (-. half F64)) = Ok (AFlt F64 q) /\ finite p = true /\ finite q = true /\
  abs_err (B2R p * B2R q) 1 ((217 + 15 * Rabs (B2R (half F64) * ln (B2R (ofZ F64 7)))) * bpow radix2 (-53) + bpow radix2 (-52)).
Proof.
  destruct (half_spec F64) as (V & F). destruct (ofZ_small F64 7 ltac:(lia)) as (V7 & F7 & _).
  apply (C161_pow_neg Cxx11 F64 (ofZ F64 7) (half F64) F7 F); rewrite ?V, ?V7; try lra. interval.
Qed.
