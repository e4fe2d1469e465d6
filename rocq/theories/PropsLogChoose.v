(** * log_binomial_coef and binomial_coef (C163). *)
From Verif Require Import Base ModelBasic ModelInt ModelElem ModelSpecial ModelApi Spec FltLemmas ConvLemmas BasicProofs LogChoose.
From Coq Require Import Lra Lia.
Open Scope R_scope.

(** C163: log_binomial_coef(n, k) = log(binomial_coef(n, k)) whenever the latter is representable *)
Theorem C163_log_of_binomial_coef : forall v fuel s t N K c, in_range s N -> in_range t K -> in_range (common s t) N -> in_range (common s t) K -> (0 <= K <= N)%Z -> (N < 2 ^ 53)%Z -> (N < Z.of_nat fuel)%Z -> is_choose N K c -> in_range (common s t) c ->
  gcem_binomial_coef fuel (AInt s N) (AInt t K) = Ok (AInt (common s t) c) /\
  exists w l : flt F64, gcem_log_binomial_coef v (AInt s N) (AInt t K) = Ok w /\ gcem_log v (AInt (common s t) c) = Ok l /\ finite w = true /\ finite l = true /\
    abs_err (B2R w) (B2R l) ((34 * ((IZR N + 2) * ln (IZR N + 6) + 6) + 58 / 10 * ln (IZR c)) * bpow radix2 (-53)).
Proof. exact log_choose. Qed.
Print Assumptions C163_log_of_binomial_coef.
Example C163_ex : gcem_binomial_coef 11 (AInt I32 10) (AInt I32 4) = Ok (AInt I32 210) /\
  exists w l : flt F64, gcem_log_binomial_coef Cxx11 (AInt I32 10) (AInt I32 4) = Ok w /\ gcem_log Cxx11 (AInt I32 210) = Ok l /\ finite w = true /\ finite l = true /\
    abs_err (B2R w) (B2R l) ((34 * ((10 + 2) * ln (10 + 6) + 6) + 58 / 10 * ln 210) * bpow radix2 (-53)).
Proof. apply (C163_log_of_binomial_coef Cxx11 11 I32 I32 10 4 210); cbv; intuition discriminate. Qed.
