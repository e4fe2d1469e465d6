(** * tgamma(n + 1) and factorial(n) (C164). *)
From Verif Require Import Base ModelBasic ModelInt ModelElem ModelSpecial ModelApi Spec FltLemmas ConvLemmas BasicProofs FactGamma.
From Coq Require Import Lra Lia.
Open Scope R_scope.

(** C164: for integral x, tgamma(x + 1) is the exact factorial up to rounding *)
Theorem C164_tgamma_factorial : forall v k n t x, (0 <= x)%Z -> in_range t x -> in_range t (x + 1) -> in_range t (zfact x) -> (0 < k)%nat ->
  gcem_factorial v k (AInt t x) = Ok (AInt t (zfact x)) /\
  exists w : flt F64, gcem_tgamma v (S n) (AInt t (x + 1)) = Ok w /\ finite w = true /\ rel_err (B2R w) (IZR (zfact x)) ((15 * (IZR x + 1) * ln (IZR x + 6) + 165 + (IZR x + 4)) * bpow radix2 (-53)).
Proof. exact tgamma_factorial. Qed.
Print Assumptions C164_tgamma_factorial.
Example C164_ex : gcem_factorial Cxx14 1 (AInt I64 20) = Ok (AInt I64 2432902008176640000) /\
  exists w : flt F64, gcem_tgamma Cxx14 1 (AInt I64 21) = Ok w /\ finite w = true /\ rel_err (B2R w) 2432902008176640000 ((15 * (20 + 1) * ln (20 + 6) + 165 + (20 + 4)) * bpow radix2 (-53)).
Proof. apply (C164_tgamma_factorial Cxx14 1 0 I64 20); try (cbv; intuition discriminate). auto. Qed.
