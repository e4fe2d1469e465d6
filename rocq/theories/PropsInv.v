(** * Accuracy of the inverse trigonometric and inverse hyperbolic functions (C69-C78). *)
From Verif Require Import Base ModelBasic ModelInt ModelElem ModelApi Spec FltLemmas ConvLemmas InvTrig Atan2Acc InvHyp.
From Coq Require Import Lra.
From Interval Require Import Tactic.
Open Scope R_scope.

(** C69 *)
Theorem C69_asin_accurate : forall v f (x : flt f), finite x = true -> bpow radix2 (3 - emax f) <= Rabs (B2R x) < 1 ->
  exists w, gcem_asin v (AFlt f x) = Ok w /\ finite w = true /\
    rel_err (B2R w) (asin (B2R x)) ((12 + 6 / 10 / sqrt (1 - B2R x * B2R x)) * bpow radix2 (- prec f) + bpow radix2 (-54)).
Proof. exact api_asin. Qed.
Print Assumptions C69_asin_accurate.
Example C69_ex : exists w, gcem_asin Cxx14 (AFlt F64 (dlit F64 5 1)) = Ok w /\ finite w = true /\ rel_err (B2R w) (PI / 6) (14 * bpow radix2 (-53)).
Proof.
  destruct (CFAcc.lit05 F64) as (F & V). destruct (C69_asin_accurate Cxx14 F64 (dlit F64 5 1) F) as (w & E & Fw & R); rewrite ?V in * .
  - rewrite Rabs_pos_eq by lra. split; [|lra]. apply Rle_trans with (bpow radix2 (-1)). apply bpow_le. discriminate. cbn; lra.
  - exists w. split. exact E. split; auto. replace (PI / 6) with (asin (/ 2)). 2: { replace (/ 2) with (sin (PI / 6)) by (rewrite sin_PI6; lra). apply asin_sin. split; interval. } eapply TanhAcc.rel_mono; [|exact R]. cbn -[sqrt]. interval.
Qed.

(** C70 *)
Theorem C70_acos_accurate : forall v f (x : flt f), finite x = true -> bpow radix2 (2 - emax f) <= B2R x < 1 ->
  exists w, gcem_acos v (AFlt f x) = Ok w /\ finite w = true /\
    rel_err (B2R w) (acos (B2R x)) ((12 + 6 / 10 / (1 - B2R x * B2R x)) * bpow radix2 (- prec f) + bpow radix2 (-54)).
Proof. exact api_acos. Qed.
Print Assumptions C70_acos_accurate.
Theorem C70_acos_absolute : forall v f (x : flt f), finite x = true -> Rabs (B2R x) < 1 ->
  exists w, gcem_acos v (AFlt f x) = Ok w /\ finite w = true /\
    Rabs (B2R w - acos (B2R x)) <= (21 + 6 / 10 / sqrt (1 - B2R x * B2R x)) * bpow radix2 (- prec f) + bpow radix2 (-53).
Proof. exact api_acos_abs. Qed.
Print Assumptions C70_acos_absolute.
Example C70_ex : exists w, gcem_acos Cxx11 (AFlt F64 (dlit F64 5 1)) = Ok w /\ finite w = true /\ rel_err (B2R w) (PI / 3) (14 * bpow radix2 (-53)) /\ Rabs (B2R w - PI / 3) <= 23 * bpow radix2 (-53).
Proof.
  destruct (CFAcc.lit05 F64) as (F & V). assert (AC : acos (/ 2) = PI / 3). { replace (/ 2) with (cos (PI / 3)) by (rewrite cos_PI3; lra). apply acos_cos. split; interval. } destruct (C70_acos_accurate Cxx11 F64 (dlit F64 5 1) F) as (w & E & Fw & R); [|destruct (C70_acos_absolute Cxx11 F64 (dlit F64 5 1) F) as (w' & E' & _ & R')]; rewrite ?V in * .
  - split; [|lra]. apply Rle_trans with (bpow radix2 (-1)). apply bpow_le. discriminate. cbn; lra.
  - rewrite Rabs_pos_eq; lra.
  - rewrite E in E'. injection E' as <-. rewrite AC in * . exists w. split. exact E. split; auto. split. eapply TanhAcc.rel_mono; [|exact R]. cbn; lra. apply Rle_trans with (1 := R'). cbn -[sqrt]. interval.
Qed.

(** C71 *)
Theorem C71_acos_near_one_refuted : forall v f, exists x : flt f, finite x = true /\ 999 / 1000 <= B2R x < 1 /\
  exists w, gcem_acos v (AFlt f x) = Ok w /\ finite w = true /\ bpow radix2 (- (prec f / 2) - 4) * acos (B2R x) <= Rabs (B2R w - acos (B2R x)).
Proof. exact api_acos_bad. Qed.
Print Assumptions C71_acos_near_one_refuted.

(** C72 *)
Theorem C72_atan2_right : forall v f (y x : flt f), finite y = true -> finite x = true -> bpow radix2 (2 - emax f) <= Rabs (B2R x) ->
  Rabs (B2R y / B2R x) <= bpow radix2 (emax f - 1) -> 0 < B2R x -> bpow radix2 (2 - emax f) <= Rabs (B2R y / B2R x) ->
  exists w : flt f, rmap (AFlt _) (gcem_atan2 v (AFlt f y) (AFlt f x)) = Ok (AFlt f w) /\ finite w = true /\
    rel_err (B2R w) (atan (B2R y / B2R x)) (10 * bpow radix2 (- prec f) + bpow radix2 (-54)).
Proof. exact api_atan2_right. Qed.
Print Assumptions C72_atan2_right.
Theorem C72_atan2_left : forall v f (y x : flt f), finite y = true -> finite x = true -> bpow radix2 (2 - emax f) <= Rabs (B2R x) ->
  Rabs (B2R y / B2R x) <= bpow radix2 (emax f - 1) -> B2R x < 0 ->
  exists w : flt f, rmap (AFlt _) (gcem_atan2 v (AFlt f y) (AFlt f x)) = Ok (AFlt f w) /\ finite w = true /\
    (0 <= B2R y -> rel_err (B2R w) (atan (B2R y / B2R x) + PI) (13 * bpow radix2 (- prec f) + bpow radix2 (-54))) /\
    (B2R y < 0 -> rel_err (B2R w) (atan (B2R y / B2R x) - PI) (13 * bpow radix2 (- prec f) + bpow radix2 (-54))).
Proof. exact api_atan2_left. Qed.
Print Assumptions C72_atan2_left.
Example C72_ex : (exists w : flt F64, rmap (AFlt _) (gcem_atan2 Cxx14 (AFlt F64 (ofZ F64 1)) (AFlt F64 (ofZ F64 1))) = Ok (AFlt F64 w) /\ rel_err (B2R w) (PI / 4) (11 * bpow radix2 (-53))) /\
  (exists w : flt F64, rmap (AFlt _) (gcem_atan2 Cxx14 (AFlt F64 (ofZ F64 1)) (AFlt F64 (ofZ F64 (-1)))) = Ok (AFlt F64 w) /\ rel_err (B2R w) (3 * PI / 4) (14 * bpow radix2 (-53))).
Proof.
  destruct (ofZ_small F64 1 ltac:(lia)) as (V1 & F1 & _). destruct (ofZ_small F64 (-1) ltac:(lia)) as (Vm & Fm & _). assert (B1 : bpow radix2 (2 - emax F64) <= 1) by (change 1 with (bpow radix2 0); apply bpow_le; discriminate). assert (B2 : 1 <= bpow radix2 (emax F64 - 1)) by (change 1 with (bpow radix2 0) at 1; apply bpow_le; discriminate). split.
  - destruct (C72_atan2_right Cxx14 F64 _ _ F1 F1) as (w & E & Fw & R); rewrite ?V1, ?Rdiv_1, ?Rabs_R1 in * ; try lra. all: replace (1 / 1) with 1 in * by field; rewrite ?Rabs_R1; try lra. exists w. split; auto. rewrite atan_1 in R. eapply TanhAcc.rel_mono; [|exact R]. cbn; lra.
  - assert (Q : 1 / -1 = - (1)) by field. destruct (C72_atan2_left Cxx14 F64 _ _ F1 Fm) as (w & E & Fw & R & _); rewrite ?V1, ?Vm, ?Q in * ; rewrite ?Rabs_Ropp, ?Rabs_R1; try lra. rewrite (Rabs_left (-1)); lra. exists w. split; auto. rewrite atan_opp, atan_1 in R. replace (3 * PI / 4) with (- (PI / 4) + PI) by field. eapply TanhAcc.rel_mono; [|apply R; lra]. cbn; lra.
Qed.

(** C73 *)
Theorem C73_asinh_accurate : forall v f (x : flt f), finite x = true -> 0 <= B2R x -> B2R x <= bpow radix2 (emax f / 2 - 1) ->
  exists w, gcem_asinh v (AFlt f x) = Ok w /\ finite w = true /\ Rabs (B2R w - arcsinh (B2R x)) <= (7 + 6 * arcsinh (B2R x)) * bpow radix2 (- prec f).
Proof. exact api_asinh. Qed.
Print Assumptions C73_asinh_accurate.
Theorem C73_asinh_relative : forall v f (x : flt f), finite x = true -> 0 <= B2R x -> B2R x <= bpow radix2 (emax f / 2 - 1) -> 1 <= B2R x ->
  exists w, gcem_asinh v (AFlt f x) = Ok w /\ finite w = true /\ rel_err (B2R w) (arcsinh (B2R x)) (14 * bpow radix2 (- prec f)).
Proof. exact api_asinh_rel. Qed.
Print Assumptions C73_asinh_relative.
Example C73_ex : exists w, gcem_asinh Cxx11 (AFlt F64 (ofZ F64 1000)) = Ok w /\ rel_err (B2R w) (arcsinh 1000) (14 * bpow radix2 (-53)) /\ 76 / 10 <= arcsinh 1000.
Proof.
  destruct (ofZ_small F64 1000 ltac:(lia)) as (V & F & _). destruct (C73_asinh_relative Cxx11 F64 _ F) as (w & E & _ & R); rewrite ?V in * ; try lra.
  - apply Rle_trans with (bpow radix2 10). cbn; lra. apply bpow_le. discriminate.
  - exists w. split. exact E. split. exact R. unfold arcsinh. interval.
Qed.

(** C74 *)
Theorem C74_asinh_tiny_refuted : forall v f (x : flt f), finite x = true -> Rabs (B2R x) <= bpow radix2 (- prec f - 2) ->
  exists w, gcem_asinh v (AFlt f x) = Ok w /\ finite w = true /\ B2R w = 0.
Proof. exact api_asinh_tiny. Qed.
Print Assumptions C74_asinh_tiny_refuted.
Example C74_ex : finite (fmin F64) = true /\ 0 < B2R (fmin F64) <= bpow radix2 (- prec F64 - 2).
Proof. destruct (fmin_spec F64) as (V & F). split; auto. rewrite V. split. apply bpow_gt_0. apply bpow_le. discriminate. Qed.

(** C75. The result is compared with every y >= 0 with cosh y = x. *)
Theorem C75_acosh_accurate : forall v f (x : flt f), finite x = true -> 1 < B2R x -> B2R x <= bpow radix2 (emax f / 2 - 1) -> forall y, 0 <= y -> cosh y = B2R x ->
  exists w, gcem_acosh v (AFlt f x) = Ok w /\ finite w = true /\ Rabs (B2R w - y) <= (6 / 10 / sqrt (B2R x * B2R x - 1) + 4 + 6 * y) * bpow radix2 (- prec f).
Proof. exact api_acosh. Qed.
Print Assumptions C75_acosh_accurate.
Theorem C75_acosh_relative : forall v f (x : flt f), finite x = true -> 1 < B2R x -> B2R x <= bpow radix2 (emax f / 2 - 1) -> forall y, 2 <= B2R x -> 0 <= y -> cosh y = B2R x ->
  exists w, gcem_acosh v (AFlt f x) = Ok w /\ finite w = true /\ rel_err (B2R w) y (10 * bpow radix2 (- prec f)).
Proof. exact api_acosh_rel. Qed.
Print Assumptions C75_acosh_relative.
Example C75_ex : exists w y, gcem_acosh Cxx14 (AFlt F32 (ofZ F32 3)) = Ok w /\ 17 / 10 <= y /\ cosh y = 3 /\ rel_err (B2R w) y (10 * bpow radix2 (-24)).
Proof.
  destruct (ofZ_small F32 3 ltac:(lia)) as (V & F & _). destruct (cosh_ln 3 ltac:(lra)) as (Y & C). destruct (C75_acosh_relative Cxx14 F32 _ F) with (y := ln (3 + sqrt (3 * 3 - 1))) as (w & E & _ & R); rewrite ?V in * ; auto; try lra.
  - apply Rle_trans with (bpow radix2 10). cbn; lra. apply bpow_le. discriminate.
  - exists w, (ln (3 + sqrt (3 * 3 - 1))). split. exact E. split. interval. auto.
Qed.

(** C76 *)
Theorem C76_acosh_near_one_refuted : forall v f, exists x : flt f, finite x = true /\ 1 < B2R x <= 1001 / 1000 /\
  exists w, gcem_acosh v (AFlt f x) = Ok w /\ finite w = true /\ exists y, 0 < y /\ cosh y = B2R x /\ bpow radix2 (- (prec f / 2) - 2) * y <= Rabs (B2R w - y).
Proof. exact api_acosh_bad. Qed.
Print Assumptions C76_acosh_near_one_refuted.

(** C77. The result is compared with every y with tanh y = x. *)
Theorem C77_atanh_accurate : forall v f (x : flt f), finite x = true -> -1 < B2R x -> B2R x < 1 -> forall y, - (3 / 10) <= B2R x -> tanh y = B2R x ->
  exists w, gcem_atanh v (AFlt f x) = Ok w /\ finite w = true /\ Rabs (B2R w - y) <= (2 + 7 * Rabs y) * bpow radix2 (- prec f).
Proof. exact api_atanh. Qed.
Print Assumptions C77_atanh_accurate.
Theorem C77_atanh_negative : forall v f (x : flt f), finite x = true -> -1 < B2R x -> B2R x < 1 -> forall y k, B2R x <= - (35 / 100) -> tanh y = B2R x ->
  (1 <= k)%nat -> 1 + / 50000 <= (1 + B2R x) / (1 - B2R x) * 10 ^ k <= 10 - / 5000 ->
  exists w, gcem_atanh v (AFlt f x) = Ok w /\ finite w = true /\ Rabs (B2R w - y) <= (2 + 24 * Rabs y) * bpow radix2 (- prec f).
Proof. exact api_atanh_neg. Qed.
Print Assumptions C77_atanh_negative.
Example C77_ex : exists y, tanh y = / 2 /\ (exists w, gcem_atanh Cxx11 (AFlt F64 (dlit F64 5 1)) = Ok w /\ Rabs (B2R w - y) <= 6 * bpow radix2 (-53)) /\
  exists w, gcem_atanh Cxx11 (AFlt F64 (-. dlit F64 5 1)) = Ok w /\ Rabs (B2R w - - y) <= 16 * bpow radix2 (-53).
Proof.
  destruct (CFAcc.lit05 F64) as (F & V). assert (T : forall s, s = 1 \/ s = -1 -> tanh (s * (ln 3 / 2)) = s * / 2).
  { intros s S. assert (E3 : exp (ln 3 / 2) * exp (ln 3 / 2) = 3) by (rewrite <- exp_plus; replace (ln 3 / 2 + ln 3 / 2) with (ln 3) by field; apply exp_ln; lra). assert (P := exp_pos (ln 3 / 2)). assert (EN : exp (- (ln 3 / 2)) = / exp (ln 3 / 2)) by apply exp_Ropp. assert (T1 : tanh (ln 3 / 2) = / 2). { unfold tanh, sinh, cosh. rewrite EN. set (e := exp _) in * . apply Rmult_eq_reg_r with 2; [|lra]. field_simplify; [|split; nra]. replace (e ^ 2) with 3 by (rewrite <- E3; ring). field. }
    destruct S as [-> | ->]. rewrite !Rmult_1_l; auto. replace (-1 * (ln 3 / 2)) with (- (ln 3 / 2)) by ring. unfold tanh, sinh, cosh in * . rewrite Ropp_involutive. assert (PN := exp_pos (- (ln 3 / 2))). replace ((exp (- (ln 3 / 2)) - exp (ln 3 / 2)) / 2 / ((exp (- (ln 3 / 2)) + exp (ln 3 / 2)) / 2)) with (- ((exp (ln 3 / 2) - exp (- (ln 3 / 2))) / 2 / ((exp (ln 3 / 2) + exp (- (ln 3 / 2))) / 2))) by (field; lra). lra. }
  exists (ln 3 / 2). assert (T1 := T 1 (or_introl eq_refl)). rewrite !Rmult_1_l in T1. split; auto. assert (L3 : 0 <= ln 3 / 2 <= 55 / 100) by (split; interval). split.
  - destruct (C77_atanh_accurate Cxx11 F64 _ F) with (y := ln 3 / 2) as (w & E & _ & R); rewrite ?V in * ; try lra. exists w. split. exact E. apply Rle_trans with (1 := R). rewrite Rabs_pos_eq by lra. cbn; lra.
  - assert (Tm := T (-1) (or_intror eq_refl)). replace (-1 * (ln 3 / 2)) with (- (ln 3 / 2)) in Tm by ring. destruct (C77_atanh_negative Cxx11 F64 (-. dlit F64 5 1)) with (y := - (ln 3 / 2)) (k := 1%nat) as (w & E & _ & R); rewrite ?fneg_finite, ?fneg_B2R, ?V in * ; auto; try lra; [split; interval|]. exists w. split. exact E. apply Rle_trans with (1 := R). rewrite Rabs_Ropp, Rabs_pos_eq by lra. cbn; lra.
Qed.

(** C78 *)
Theorem C78_atanh_tiny_refuted : forall v f (x : flt f), finite x = true -> Rabs (B2R x) <= bpow radix2 (- prec f - 2) ->
  exists w, gcem_atanh v (AFlt f x) = Ok w /\ finite w = true /\ B2R w = 0.
Proof. exact api_atanh_tiny. Qed.
Print Assumptions C78_atanh_tiny_refuted.
Example C78_ex : finite (fmin F64) = true /\ 0 < B2R (fmin F64) <= bpow radix2 (- prec F64 - 2).
Proof. destruct (fmin_spec F64) as (V & F). split; auto. rewrite V. split. apply bpow_gt_0. apply bpow_le. discriminate. Qed.
