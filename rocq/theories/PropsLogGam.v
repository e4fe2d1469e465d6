(** * log(tgamma(x)) and lgamma(x) (C154). *)
From Verif Require Import Base ModelBasic ModelInt ModelElem ModelSpecial ModelApi Spec FltLemmas ConvLemmas BasicProofs LogGam.
From Coq Require Import Lra Lia.
Open Scope R_scope.

(** C154: lgamma is the logarithm of tgamma *)
Theorem C154_log_tgamma_lgamma : forall v n f (x : flt f), finite x = true -> 2 <= B2R x <= match f with F32 => 32 | F64 => 170 | F80 => 1754 end ->
  exists g l w : flt f, gcem_tgamma v (S n) (AFlt f x) = Ok g /\ gcem_log v (AFlt f g) = Ok l /\ gcem_lgamma v (AFlt f x) = Ok w /\ finite l = true /\ finite w = true /\
  abs_err (B2R l) (B2R w) ((35 * B2R x * ln (B2R x + 5) + 226) * bpow radix2 (- prec f) + (4 * B2R x + 9) * bpow radix2 (-54)).
Proof. exact log_of_tgamma. Qed.
Print Assumptions C154_log_tgamma_lgamma.
Example C154_ex : exists g l w : flt F64, gcem_tgamma Cxx11 1 (AFlt F64 (ofZ F64 100)) = Ok g /\ gcem_log Cxx11 (AFlt F64 g) = Ok l /\ gcem_lgamma Cxx11 (AFlt F64 (ofZ F64 100)) = Ok w /\ finite l = true /\ finite w = true /\
  abs_err (B2R l) (B2R w) ((35 * B2R (ofZ F64 100) * ln (B2R (ofZ F64 100) + 5) + 226) * bpow radix2 (-53) + (4 * B2R (ofZ F64 100) + 9) * bpow radix2 (-54)).
Proof. destruct (ofZ_small F64 100 ltac:(lia)) as (V & F & _). apply (C154_log_tgamma_lgamma Cxx11 0 F64 (ofZ F64 100) F). rewrite V. lra. Qed.
