(** * Accuracy of log, log2, log10, log1p and expm1 (C44, C45, C58-C63). *)
From Verif Require Import Base ModelBasic ModelInt ModelElem ModelApi Spec FltLemmas BasicProofs ConvLemmas LogApi LogMore LogBad Log1pAcc Expm1Acc.
From Coq Require Import Lra.
From Interval Require Import Tactic.
Open Scope R_scope.

(** C44 *)
Theorem C44_log_accurate : forall v f (x : flt f), finite x = true -> / 2 <= B2R x ->
  exists w, gcem_log v (AFlt f x) = Ok w /\ finite w = true /\ rel_err (B2R w) (ln (B2R x)) (56 / 10 * bpow radix2 (- prec f)).
Proof. exact api_log. Qed.
Print Assumptions C44_log_accurate.
Theorem C44_log_integer : forall v t z, in_range t z -> (1 <= z)%Z ->
  exists w, gcem_log v (AInt t z) = Ok w /\ finite w = true /\ rel_err (B2R w) (ln (IZR z)) (58 / 10 * bpow radix2 (-53)).
Proof. exact api_log_int. Qed.
Print Assumptions C44_log_integer.
Example C44_ex : exists w, gcem_log Cxx11 (AFlt F80 (ofZ F80 1000003)) = Ok w /\ finite w = true /\ rel_err (B2R w) (ln 1000003) (56 / 10 * bpow radix2 (-64)).
Proof. destruct (ofZ_small F80 1000003 ltac:(lia)) as (V & F & _). rewrite <- V. apply (C44_log_accurate Cxx11 F80 (ofZ F80 1000003)); auto. rewrite V. lra. Qed.
Example C44_ex_int : exists w, gcem_log Cxx14 (AInt U64 (2 ^ 64 - 1)) = Ok w /\ finite w = true /\ rel_err (B2R w) (ln (IZR (2 ^ 64 - 1))) (58 / 10 * bpow radix2 (-53)).
Proof. apply C44_log_integer. vm_compute; split; discriminate. lia. Qed.

(** C45 *)
Theorem C45_log_small_refuted : forall v f, exists x : flt f, finite x = true /\ bpow radix2 (2 - emax f) <= B2R x < / 2 /\
  exists w, gcem_log v (AFlt f x) = Ok w /\ finite w = true /\ 2 <= Rabs (B2R w - ln (B2R x)).
Proof. exact api_log_bad. Qed.
Print Assumptions C45_log_small_refuted.
Theorem C45_log_small_between_powers : forall v f (x : flt f) k, finite x = true -> bpow radix2 (2 - emax f) <= B2R x -> B2R x < / 2 -> (1 <= k)%nat -> 1 + / 100000 <= B2R x * 10 ^ k <= 10 - / 10000 ->
  exists w, gcem_log v (AFlt f x) = Ok w /\ finite w = true /\ rel_err (B2R w) (ln (B2R x)) (22 * bpow radix2 (- prec f)) /\
    ((2 <= k)%nat -> rel_err (B2R w) (ln (B2R x)) (12 * bpow radix2 (- prec f))).
Proof. exact api_log_small. Qed.
Print Assumptions C45_log_small_between_powers.
Example C45_ex : exists w, gcem_log Cxx14 (AFlt F64 (fmin F64)) = Ok w /\ finite w = true /\ rel_err (B2R w) (- 1022 * ln 2) (12 * bpow radix2 (-53)).
Proof.
  destruct (fmin_spec F64) as (V & F). destruct (C45_log_small_between_powers Cxx14 F64 (fmin F64) 308 F) as (w & E & Fw & _ & R); rewrite ?V.
  - lra.
  - change (bpow radix2 (2 - emax F64)) with (bpow radix2 (-1022)). apply Rle_lt_trans with (bpow radix2 (-2)). apply bpow_le; lia. cbn; lra.
  - lia.
  - change (bpow radix2 (2 - emax F64)) with (bpow radix2 (-1022)). rewrite bpow_exp. change (IZR radix2) with 2. replace (10 ^ 308) with (exp (308 * ln 10)). 2: { rewrite <- (exp_ln (10 ^ 308)) by (apply pow_lt; lra). f_equal. rewrite ln_pow by lra. f_equal. rewrite INR_IZR_INZ. reflexivity. }
    rewrite <- exp_plus. split; interval with (i_prec 80).
  - exists w. split. exact E. split; auto. specialize (R ltac:(lia)). rewrite V in R. change (bpow radix2 (2 - emax F64)) with (bpow radix2 (-1022)) in R. rewrite bpow_exp, ln_exp in R. exact R.
Qed.

(** C58 *)
Theorem C58_log2_accurate : forall v f (x : flt f), finite x = true -> / 2 <= B2R x ->
  exists w, gcem_log2 v (AFlt f x) = Ok w /\ finite w = true /\ rel_err (B2R w) (ln (B2R x) / ln 2) (77 / 10 * bpow radix2 (- prec f)).
Proof. exact api_log2. Qed.
Print Assumptions C58_log2_accurate.
Theorem C58_log10_accurate : forall v f (x : flt f), finite x = true -> / 2 <= B2R x ->
  exists w, gcem_log10 v (AFlt f x) = Ok w /\ finite w = true /\ rel_err (B2R w) (ln (B2R x) / ln 10) (77 / 10 * bpow radix2 (- prec f)).
Proof. exact api_log10. Qed.
Print Assumptions C58_log10_accurate.
Example C58_ex : exists w, gcem_log2 Cxx14 (AFlt F64 (ofZ F64 8)) = Ok w /\ finite w = true /\ rel_err (B2R w) 3 (77 / 10 * bpow radix2 (-53)).
Proof.
  destruct (ofZ_small F64 8 ltac:(lia)) as (V & F & _). destruct (C58_log2_accurate Cxx14 F64 (ofZ F64 8) F) as (w & E & Fw & R); rewrite ?V in * . lra. exists w. split. exact E. split; auto.
  replace (ln 8 / ln 2) with 3 in R. exact R. replace 8 with (2 ^ 3) by ring. rewrite ln_pow by lra. assert (L := ln_lt_2). cbn. field. lra.
Qed.

(** C59 *)
Theorem C59_log10_small_refuted : forall v f, exists x : flt f, finite x = true /\ bpow radix2 (2 - emax f) <= B2R x < / 2 /\
  exists w, gcem_log10 v (AFlt f x) = Ok w /\ finite w = true /\ 999 / 1000 <= Rabs (B2R w - ln (B2R x) / ln 10).
Proof. exact api_log10_bad. Qed.
Print Assumptions C59_log10_small_refuted.
(** The literal 0.01f: its decimal logarithm is computed as -1 instead of -2. *)
Example C59_ex : exists w, gcem_log10 Cxx14 (AFlt F32 (dlit F32 1 2)) = Ok w /\ finite w = true /\ B2R w = -1.
Proof. exact (bad_log10_val Cxx14 F32). Qed.

(** C60 *)
Theorem C60_log1p_small : forall v f (x : flt f), finite x = true -> bpow radix2 (2 - emax f) <= Rabs (B2R x) <= 9999 / 100000000 ->
  exists w, gcem_log1p v (AFlt f x) = Ok w /\ finite w = true /\ rel_err (B2R w) (ln (1 + B2R x)) (23 / 10 * bpow radix2 (- prec f)).
Proof. exact api_log1p_small. Qed.
Print Assumptions C60_log1p_small.
Theorem C60_log1p_absolute : forall v f (x : flt f), finite x = true -> - / 2 <= B2R x ->
  exists w, gcem_log1p v (AFlt f x) = Ok w /\ finite w = true /\
    Rabs (B2R w - ln (1 + B2R x)) <= 11 / 10 * bpow radix2 (- prec f) + 57 / 10 * bpow radix2 (- prec f) * Rabs (ln (1 + B2R x)).
Proof. exact api_log1p_abs. Qed.
Print Assumptions C60_log1p_absolute.
Example C60_ex : exists w, gcem_log1p Cxx14 (AFlt F64 (fmin F64)) = Ok w /\ finite w = true /\ rel_err (B2R w) (ln (1 + bpow radix2 (-1022))) (23 / 10 * bpow radix2 (-53)).
Proof.
  destruct (fmin_spec F64) as (V & F). destruct (C60_log1p_small Cxx14 F64 (fmin F64) F) as (w & E & Fw & R); rewrite ?V, ?Rabs_pos_eq in * by apply bpow_ge_0.
  - split. lra. apply Rle_trans with (bpow radix2 (-20)). apply bpow_le; cbn; lia. cbn; lra.
  - exists w. split. exact E. split; auto.
Qed.
Example C60_ex_large : exists w, gcem_log1p Cxx14 (AFlt F32 (ofZ F32 5)) = Ok w /\ finite w = true /\ Rabs (B2R w - ln 6) <= 12 * bpow radix2 (-24).
Proof.
  destruct (ofZ_small F32 5 ltac:(lia)) as (V & F & _). destruct (C60_log1p_absolute Cxx14 F32 (ofZ F32 5) F) as (w & E & Fw & R); rewrite ?V in * . lra. exists w. split. exact E. split; auto.
  replace (1 + 5) with 6 in R by ring. eapply Rle_trans. exact R. change (bpow radix2 (- prec F32)) with (bpow radix2 (-24)). cbn. interval.
Qed.

(** C61 *)
Theorem C61_log1p_relative_refuted : forall v f, exists x : flt f, finite x = true /\ / 10000 <= B2R x <= / 8000 /\
  exists w, gcem_log1p v (AFlt f x) = Ok w /\ finite w = true /\ 8000 * bpow radix2 (- prec f) * Rabs (ln (1 + B2R x)) <= Rabs (B2R w - ln (1 + B2R x)).
Proof. exact api_log1p_bad. Qed.
Print Assumptions C61_log1p_relative_refuted.

(** C62 *)
Theorem C62_expm1_small : forall v f (x : flt f), finite x = true -> bpow radix2 (2 - emax f) <= Rabs (B2R x) <= 9999 / 100000000 ->
  exists w, gcem_expm1 v (AFlt f x) = Ok w /\ finite w = true /\ rel_err (B2R w) (exp (B2R x) - 1) (23 / 10 * bpow radix2 (- prec f)).
Proof. exact api_expm1_small. Qed.
Print Assumptions C62_expm1_small.
Theorem C62_expm1_half : forall v f (x : flt f), finite x = true -> Rabs (B2R x) <= / 2 ->
  exists w, gcem_expm1 v (AFlt f x) = Ok w /\ finite w = true /\
    Rabs (B2R w - (exp (B2R x) - 1)) <= (8 * bpow radix2 (- prec f) + bpow radix2 (-55)) * exp (B2R x).
Proof. exact api_expm1_mid. Qed.
Print Assumptions C62_expm1_half.
Theorem C62_expm1_pos : forall v f (x : flt f), finite x = true -> 2 <= B2R x -> exp (B2R x + 2) <= bpow radix2 (emax f - 9) ->
  exists w, gcem_expm1 v (AFlt f x) = Ok w /\ finite w = true /\
    rel_err (B2R w) (exp (B2R x) - 1) (13 * bpow radix2 (- prec f) + bpow radix2 (-53) + (B2R x + 3) * bpow radix2 (-60)).
Proof. exact api_expm1_pos. Qed.
Print Assumptions C62_expm1_pos.
Theorem C62_expm1_neg : forall v f (x : flt f), finite x = true -> B2R x <= -2 -> exp (2 - B2R x) <= bpow radix2 (emax f - 9) ->
  exists w, gcem_expm1 v (AFlt f x) = Ok w /\ finite w = true /\
    rel_err (B2R w) (exp (B2R x) - 1) (19 * bpow radix2 (- prec f) + bpow radix2 (-56) + (3 - B2R x) * bpow radix2 (-63)).
Proof. exact api_expm1_neg. Qed.
Print Assumptions C62_expm1_neg.
Example C62_ex : exists w, gcem_expm1 Cxx14 (AFlt F64 (fmin F64)) = Ok w /\ finite w = true /\ rel_err (B2R w) (exp (bpow radix2 (-1022)) - 1) (23 / 10 * bpow radix2 (-53)).
Proof.
  destruct (fmin_spec F64) as (V & F). destruct (C62_expm1_small Cxx14 F64 (fmin F64) F) as (w & E & Fw & R); rewrite ?V, ?Rabs_pos_eq in * by apply bpow_ge_0.
  - split. lra. apply Rle_trans with (bpow radix2 (-20)). apply bpow_le; cbn; lia. cbn; lra.
  - exists w. split. exact E. split; auto.
Qed.
Example C62_ex_pos : exists w, gcem_expm1 Cxx14 (AFlt F64 (ofZ F64 700)) = Ok w /\ finite w = true /\ rel_err (B2R w) (exp 700 - 1) (21 * bpow radix2 (-53)).
Proof.
  destruct (ofZ_small F64 700 ltac:(lia)) as (V & F & _).
  destruct (C62_expm1_pos Cxx14 F64 (ofZ F64 700)) as (w & E & Fw & R); auto; rewrite ?V in * ; try lra.
  - change (emax F64 - 9)%Z with 1015%Z. rewrite bpow_exp. apply exp_le. change (IZR radix2) with 2. interval.
  - exists w. split. exact E. split; auto. unfold rel_err in * . eapply Rle_trans. apply R. apply Rmult_le_compat_r. apply Rabs_pos.
    change (bpow radix2 (- prec F64)) with (/ 9007199254740992). change (bpow radix2 (-60)) with (/ 1152921504606846976). change (bpow radix2 (-53)) with (/ 9007199254740992). lra.
Qed.
Example C62_ex_neg : exists w, gcem_expm1 Cxx11 (AFlt F32 (ofZ F32 (-50))) = Ok w /\ finite w = true /\ rel_err (B2R w) (exp (-50) - 1) (20 * bpow radix2 (-24)).
Proof.
  destruct (ofZ_small F32 (-50) ltac:(lia)) as (V & F & _).
  destruct (C62_expm1_neg Cxx11 F32 (ofZ F32 (-50))) as (w & E & Fw & R); auto; rewrite ?V in * ; try lra.
  - change (emax F32 - 9)%Z with 119%Z. rewrite bpow_exp. apply exp_le. change (IZR radix2) with 2. interval.
  - exists w. split. exact E. split; auto. unfold rel_err in * . eapply Rle_trans. apply R. apply Rmult_le_compat_r. apply Rabs_pos.
    change (bpow radix2 (- prec F32)) with (/ 16777216). change (bpow radix2 (-56)) with (/ 72057594037927936). change (bpow radix2 (-63)) with (/ 9223372036854775808). change (bpow radix2 (-24)) with (/ 16777216). lra.
Qed.

(** C63 *)
Theorem C63_expm1_relative_refuted : forall v f, exists x : flt f, finite x = true /\ / 10000 <= B2R x <= / 8000 /\
  exists w, gcem_expm1 v (AFlt f x) = Ok w /\ finite w = true /\ 8000 * bpow radix2 (- prec f) * Rabs (exp (B2R x) - 1) <= Rabs (B2R w - (exp (B2R x) - 1)).
Proof. exact api_expm1_bad. Qed.
Print Assumptions C63_expm1_relative_refuted.
