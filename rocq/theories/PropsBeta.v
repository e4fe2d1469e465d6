(** * Beta functions, binomial logarithm, multivariate gamma (C91-C96). *)
From Verif Require Import Base ModelBasic ModelInt ModelElem ModelSpecial ModelApi Spec SpecGamma FltLemmas ConvLemmas BasicProofs BetaApi.
From Coq Require Import Lra.
Open Scope R_scope.

(** C91 *)
Theorem C91_lbeta_accurate : forall v f (a b : flt f), finite a = true -> finite b = true -> / 2 <= B2R a -> / 2 <= B2R b -> B2R a + B2R b <= bpow radix2 54 ->
  exists w : flt f, rmap (AFlt _) (gcem_lbeta v (AFlt f a) (AFlt f b)) = Ok (AFlt f w) /\ finite w = true /\
    abs_err (B2R w) (ln (Beta (B2R a) (B2R b))) ((34 * ((B2R a + B2R b) * ln (B2R a + B2R b + 5)) + 170) * bpow radix2 (- prec f) + (2 * (B2R a + B2R b) + 10) * bpow radix2 (-54)).
Proof. exact api_lbeta. Qed.
Print Assumptions C91_lbeta_accurate.
Example C91_ex : let a := ofZ F32 3 in let b := half F32 in finite a = true /\ finite b = true /\ / 2 <= B2R a /\ / 2 <= B2R b /\ B2R a + B2R b <= bpow radix2 54.
Proof. destruct (ofZ_small F32 3 ltac:(lia)) as (V & F & _). destruct (half_spec F32) as (Vh & Fh). cbv zeta. rewrite V, Vh. repeat split; auto; try lra. change (bpow radix2 54) with 18014398509481984. lra. Qed.

(** C92 *)
Theorem C92_beta_accurate : forall v f (a b : flt f), finite a = true -> finite b = true -> / 2 <= B2R a -> / 2 <= B2R b -> B2R a + B2R b <= match f with F32 => 32 | F64 => 170 | F80 => 1754 end ->
  exists w : flt f, rmap (AFlt _) (gcem_beta v (AFlt f a) (AFlt f b)) = Ok (AFlt f w) /\ finite w = true /\
    rel_err (B2R w) (Beta (B2R a) (B2R b)) ((35 * ((B2R a + B2R b) * ln (B2R a + B2R b + 5)) + 280) * bpow radix2 (- prec f) + (3 * (B2R a + B2R b) + 15) * bpow radix2 (-54)).
Proof. exact api_beta. Qed.
Print Assumptions C92_beta_accurate.
Example C92_ex : let a := ofZ F64 100 in let b := half F64 in finite a = true /\ finite b = true /\ / 2 <= B2R a /\ / 2 <= B2R b /\ B2R a + B2R b <= 170.
Proof. destruct (ofZ_small F64 100 ltac:(lia)) as (V & F & _). destruct (half_spec F64) as (Vh & Fh). cbv zeta. rewrite V, Vh. repeat split; auto; lra. Qed.

(** C93 *)
Theorem C93_beta_int_accurate : forall v s t x y, (1 <= x)%Z -> (1 <= y)%Z -> (x + y <= 170)%Z -> in_range s x -> in_range t y -> in_range (arith s t) (x + y) ->
  exists w : flt F64, gcem_beta v (AInt s x) (AInt t y) = Ok w /\ finite w = true /\
    rel_err (B2R w) (IZR (zfact (x - 1)) * IZR (zfact (y - 1)) / IZR (zfact (x + y - 1))) (40 * (IZR (x + y) * ln (IZR (x + y) + 5) + 8) * bpow radix2 (-53)).
Proof. exact api_beta_int. Qed.
Print Assumptions C93_beta_int_accurate.
Example C93_ex : exists w : flt F64, gcem_beta Cxx14 (AInt I32 3) (AInt U64 4) = Ok w /\ finite w = true /\ rel_err (B2R w) (/ 60) (40 * (7 * ln 12 + 8) * bpow radix2 (-53)).
Proof.
  destruct (C93_beta_int_accurate Cxx14 I32 U64 3 4) as (w & E & F & R); try lia; try (split; discriminate). exists w. split; auto. split; auto.
  change (IZR (zfact (3 - 1))) with 2 in R. change (IZR (zfact (4 - 1))) with 6 in R. change (IZR (zfact (3 + 4 - 1))) with 720 in R. change (IZR (3 + 4)) with 7 in R. replace (2 * 6 / 720) with (/ 60) in R by lra. replace (7 + 5) with 12 in R by ring. exact R.
Qed.

(** C94: the sum of the arguments is formed in the integer type. *)
Theorem C94_beta_int_defined_refuted : forall v x y, in_range I32 x -> in_range I32 y -> (1 <= x)%Z -> (1 <= y)%Z -> (x + y > imax I32)%Z ->
  gcem_lbeta v (AInt I32 x) (AInt I32 y) = Ub UbOverflow /\ gcem_beta v (AInt I32 x) (AInt I32 y) = Ub UbOverflow.
Proof. exact api_lbeta_ub. Qed.
Print Assumptions C94_beta_int_defined_refuted.
Example C94_ex : in_range I32 2147483647 /\ in_range I32 1 /\ (2147483647 + 1 > imax I32)%Z.
Proof. repeat split; discriminate. Qed.

(** C95 *)
Theorem C95_log_binomial_coef_accurate : forall v f (n k : flt f) N K c, has_val n (IZR N) -> has_val k (IZR K) -> (0 <= K <= N)%Z -> (N < 2 ^ Z.min (prec f) 54)%Z -> is_choose N K c ->
  exists w : flt f, rmap (AFlt _) (gcem_log_binomial_coef v (AFlt f n) (AFlt f k)) = Ok (AFlt f w) /\ finite w = true /\
    abs_err (B2R w) (ln (IZR c)) ((32 * ((IZR N + 2) * ln (IZR N + 6)) + 170) * bpow radix2 (- prec f) + (2 * IZR N + 12) * bpow radix2 (-54)).
Proof. exact api_lbc. Qed.
Print Assumptions C95_log_binomial_coef_accurate.
Theorem C95_log_binomial_coef_int_accurate : forall v s t N K c, in_range s N -> in_range t K -> (0 <= K <= N)%Z -> (N < 2 ^ 53)%Z -> is_choose N K c ->
  exists w : flt F64, gcem_log_binomial_coef v (AInt s N) (AInt t K) = Ok w /\ finite w = true /\
    abs_err (B2R w) (ln (IZR c)) (34 * ((IZR N + 2) * ln (IZR N + 6) + 6) * bpow radix2 (-53)).
Proof. exact api_lbc_int. Qed.
Print Assumptions C95_log_binomial_coef_int_accurate.
Theorem C95_log_binomial_coef_symmetric : forall v s t N K, (0 <= K <= N)%Z -> (N < 2 ^ 53)%Z ->
  gcem_log_binomial_coef v (AInt s N) (AInt t (N - K)) = gcem_log_binomial_coef v (AInt s N) (AInt t K).
Proof. exact api_lbc_sym. Qed.
Print Assumptions C95_log_binomial_coef_symmetric.
Theorem C95_log_binomial_coef_symmetric_flt : forall v f (n k d : flt f) N K, has_val n (IZR N) -> has_val k (IZR K) -> has_val d (IZR (N - K)) -> (0 <= K <= N)%Z -> (N < 2 ^ Z.min (prec f) 54)%Z ->
  rmap (AFlt _) (gcem_log_binomial_coef v (AFlt f n) (AFlt f d)) = rmap (AFlt _) (gcem_log_binomial_coef v (AFlt f n) (AFlt f k)).
Proof. exact api_lbc_sym_flt. Qed.
Print Assumptions C95_log_binomial_coef_symmetric_flt.
Example C95_ex : exists w : flt F64, gcem_log_binomial_coef Cxx11 (AInt I32 10) (AInt I32 3) = Ok w /\ finite w = true /\ abs_err (B2R w) (ln 120) (34 * (12 * ln 16 + 6) * bpow radix2 (-53)).
Proof.
  destruct (C95_log_binomial_coef_int_accurate Cxx11 I32 I32 10 3 120) as (w & E & F & R); try lia; try (split; discriminate). exists w. split; auto. split; auto. replace (10 + 2) with 12 in R by ring. replace (10 + 6) with 16 in R by ring. exact R.
Qed.
Example C95_ex_flt : has_val (ofZ F32 10) 10 /\ has_val (ofZ F32 3) 3 /\ has_val (ofZ F32 7) (IZR (10 - 3)) /\ is_choose 10 3 120.
Proof. repeat split; try apply ofZ_small; lia. Qed.

(** C96 *)
Theorem C96_lmgamma_accurate : forall v f (a : flt f) p n, finite a = true -> (1 <= p <= 4096)%nat -> (p <= n)%nat -> INR p / 2 <= B2R a <= bpow radix2 22 ->
  exists w, gcem_lmgamma v n (AFlt f a) (Z.of_nat p) = Ok w /\ finite w = true /\
    abs_err (B2R w) (ln_mvgamma p (B2R a)) (INR p * ((17 + 4 * INR p) * (B2R a * ln (B2R a + 5) + 4) * bpow radix2 (- prec f) + (B2R a + 3) * bpow radix2 (-54))).
Proof. exact api_lmgamma. Qed.
Print Assumptions C96_lmgamma_accurate.
Example C96_ex : let a := ofZ F80 2 in finite a = true /\ (1 <= 3 <= 4096)%nat /\ INR 3 / 2 <= B2R a <= bpow radix2 22.
Proof. destruct (ofZ_small F80 2 ltac:(lia)) as (V & F & _). cbv zeta. rewrite V. split; auto. split. split; apply Nat.leb_le; reflexivity. change (bpow radix2 22) with 4194304. cbn. lra. Qed.
