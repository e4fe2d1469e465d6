(** * Incomplete gamma and beta functions (C97 to C102). *)
From Verif Require Import Base ModelBasic ModelInt ModelElem ModelSpecial ModelApi FltLemmas Spec SpecInc.
From Coq Require Import Lra.
From Verif Require Import IncBad IncFlat.
Open Scope R_scope.

(** C97 *)
Theorem C97_incomplete_gamma_range_refuted : forall v, exists w : flt F64,
  gcem_incomplete_gamma v (AFlt F64 (ofZ F64 1000)) (AFlt F64 (ofZ F64 1300)) = Ok w /\ finite w = true /\ 1 < B2R w.
Proof. exact (fun v => proj1 (ig_1000 v)). Qed.
Print Assumptions C97_incomplete_gamma_range_refuted.

(** C98 *)
Theorem C98_incomplete_gamma_monotone_refuted : forall v, exists w w' : flt F64,
  gcem_incomplete_gamma v (AFlt F64 (ofZ F64 1000)) (AFlt F64 (ofZ F64 1300)) = Ok w /\
  gcem_incomplete_gamma v (AFlt F64 (ofZ F64 1000)) (AFlt F64 (ofZ F64 4000)) = Ok w' /\
  finite w = true /\ finite w' = true /\ B2R w' < B2R w.
Proof. exact ig_decreases. Qed.
Print Assumptions C98_incomplete_gamma_monotone_refuted.

(** C99 *)
Theorem C99_incomplete_gamma_accurate_refuted : forall v, exists w : flt F64,
  gcem_incomplete_gamma v (AFlt F64 (ofZ F64 10)) (AFlt F64 (ofZ F64 30)) = Ok w /\ finite w = true /\
  B2R w <= 1 - / 8000 /\ 1 - / 100000 <= gamma_P 10 30.
Proof. exact ig_inaccurate. Qed.
Print Assumptions C99_incomplete_gamma_accurate_refuted.
Theorem C99_incomplete_gamma_flat_refuted : forall v f (a z z' : flt f), finite a = true -> finite z = true -> finite z' = true -> 10 <= B2R a <= 50 ->
  B2R a + 6 * sqrt (B2R a) <= B2R z <= 3 * B2R a -> B2R a + 6 * sqrt (B2R a) <= B2R z' <= 3 * B2R a ->
  gcem_incomplete_gamma v (AFlt f a) (AFlt f z) = gcem_incomplete_gamma v (AFlt f a) (AFlt f z').
Proof. exact ig_flat. Qed.
Print Assumptions C99_incomplete_gamma_flat_refuted.
Example C99_ex : gcem_incomplete_gamma Cxx14 (AFlt F32 (ofZ F32 16)) (AFlt F32 (ofZ F32 41)) = gcem_incomplete_gamma Cxx14 (AFlt F32 (ofZ F32 16)) (AFlt F32 (ofZ F32 48)).
Proof.
  destruct (ofZ_small F32 16 ltac:(cbn; lia)) as (V & F & _). destruct (ofZ_small F32 41 ltac:(cbn; lia)) as (V1 & F1 & _). destruct (ofZ_small F32 48 ltac:(cbn; lia)) as (V2 & F2 & _).
  assert (S : sqrt 16 = 4) by (replace 16 with (4 * 4) by ring; apply sqrt_square; lra).
  apply C99_incomplete_gamma_flat_refuted; auto; rewrite V, ?V1, ?V2, ?S; lra.
Qed.

(** C100 *)
Theorem C100_incomplete_gamma_inv_total_refuted : forall v,
  (gcem_incomplete_gamma_inv v (AFlt F64 (ofZ F64 2)) (AFlt F64 (dec F64 1 5)) = Ok B754_nan /\ exists x, 0 < x < 1 /\ gamma_P 2 x = B2R (dec F64 1 5)) /\
  gcem_incomplete_gamma_inv v (AFlt F32 (dec F32 5 1)) (AFlt F32 (dec F32 99999 5)) = Ub UbCast.
Proof. exact (fun v => conj (igi_bad v) (igi_ub v)). Qed.
Print Assumptions C100_incomplete_gamma_inv_total_refuted.

(** C101 *)
Theorem C101_incomplete_beta_inv_total_refuted : forall v,
  gcem_incomplete_beta_inv v (AFlt F64 (ofZ F64 2)) (AFlt F64 (ofZ F64 2)) (AFlt F64 (dec F64 999999999999 12)) = Ok B754_nan /\
  exists x, 0 < x < 1 /\ beta_I 2 2 x = B2R (dec F64 999999999999 12).
Proof. exact ibi_bad. Qed.
Print Assumptions C101_incomplete_beta_inv_total_refuted.

(** C102 *)
Theorem C102_incomplete_beta_domain_refuted : forall v f, exists w,
  rmap (AFlt _) (gcem_incomplete_beta v (AFlt f (dec f (-15) 1)) (AFlt f (ofZ f 2)) (AFlt f (dec f 5 1))) = Ok (AFlt f w) /\ has_val w 1.
Proof. exact ib_neg. Qed.
Print Assumptions C102_incomplete_beta_domain_refuted.
