(** * Accuracy of pow with a real exponent, cosh and sinh (C64-C68). *)
From Verif Require Import Base ModelBasic ModelInt ModelElem ModelApi Spec FltLemmas ConvLemmas PowReal SinhAcc.
From Coq Require Import Lra.
From Interval Require Import Tactic.
Open Scope R_scope.

(** C64. Here T = y ln x, so that x^y = e^T. *)
Theorem C64_pow_real_accurate : forall v f g (x : flt f) (y : flt g), finite x = true -> finite y = true -> / 2 <= B2R x ->
  exp (Rabs (B2R y * ln (B2R x)) + 3) <= bpow radix2 (emax (fmt_max f g) - 9) ->
  exists w, gcem_pow v (AFlt f x) (AFlt g y) = Ok (AFlt (fmt_max f g) w) /\ finite w = true /\
    rel_err (B2R w) (Rpower (B2R x) (B2R y)) ((108 + 7 * Rabs (B2R y * ln (B2R x))) * bpow radix2 (- prec (fmt_max f g)) + bpow radix2 (-54) + (Rabs (B2R y * ln (B2R x)) + 4) * bpow radix2 (-61)) /\
    ((Rabs (B2R y * ln (B2R x)) <= 49 / 100 \/ 201 / 100 <= B2R y * ln (B2R x)) ->
      rel_err (B2R w) (Rpower (B2R x) (B2R y)) ((10 + 7 * Rabs (B2R y * ln (B2R x))) * bpow radix2 (- prec (fmt_max f g)) + bpow radix2 (-54) + (Rabs (B2R y * ln (B2R x)) + 4) * bpow radix2 (-61))).
Proof. exact api_pow_real. Qed.
Print Assumptions C64_pow_real_accurate.
Theorem C64_pow_integer_base : forall v t z g (y : flt g), (1 <= z <= 2 ^ prec g)%Z -> finite y = true -> exp (Rabs (B2R y * ln (IZR z)) + 3) <= bpow radix2 (emax g - 9) ->
  exists w, gcem_pow v (AInt t z) (AFlt g y) = Ok (AFlt g w) /\ finite w = true /\
    rel_err (B2R w) (Rpower (IZR z) (B2R y)) ((108 + 7 * Rabs (B2R y * ln (IZR z))) * bpow radix2 (- prec g) + bpow radix2 (-54) + (Rabs (B2R y * ln (IZR z)) + 4) * bpow radix2 (-61)) /\
    ((Rabs (B2R y * ln (IZR z)) <= 49 / 100 \/ 201 / 100 <= B2R y * ln (IZR z)) ->
      rel_err (B2R w) (Rpower (IZR z) (B2R y)) ((10 + 7 * Rabs (B2R y * ln (IZR z))) * bpow radix2 (- prec g) + bpow radix2 (-54) + (Rabs (B2R y * ln (IZR z)) + 4) * bpow radix2 (-61))).
Proof. exact api_pow_real_int. Qed.
Print Assumptions C64_pow_integer_base.
(** pow(10.0f, 100.0): a float base and a double exponent. *)
Example C64_ex : exists w, gcem_pow Cxx11 (AFlt F32 (ofZ F32 10)) (AFlt F64 (ofZ F64 100)) = Ok (AFlt F64 w) /\ finite w = true /\ rel_err (B2R w) (10 ^ 100) (1624 * bpow radix2 (-53)).
Proof.
  destruct (ofZ_small F32 10 ltac:(lia)) as (Vx & Fx & _). destruct (ofZ_small F64 100 ltac:(lia)) as (Vy & Fy & _). destruct (C64_pow_real_accurate Cxx11 F32 F64 (ofZ F32 10) (ofZ F64 100) Fx Fy) as (w & E & Fw & _ & R); rewrite ?Vx, ?Vy in * .
  - lra.
  - change (emax (fmt_max F32 F64) - 9)%Z with 1015%Z. rewrite bpow_exp. change (IZR radix2) with 2. apply Raux.exp_le. interval.
  - assert (T : 230 <= 100 * ln 10 <= 2303 / 10) by (split; interval). exists w. split. exact E. split; auto. specialize (R ltac:(lra)). replace (Rpower 10 100) with (10 ^ 100) in R. 2: { replace 100 with (INR 100) by (rewrite INR_IZR_INZ; reflexivity). rewrite Rpower_pow by lra. reflexivity. }
    change (- prec (fmt_max F32 F64))%Z with (-53)%Z in R. eapply TanhAcc.rel_mono; [|exact R]. rewrite Rabs_pos_eq by lra. cbn. lra.
Qed.
Example C64_ex_int : exists w, gcem_pow Cxx14 (AInt I32 2) (AFlt F64 (dlit F64 5 1)) = Ok (AFlt F64 w) /\ finite w = true /\ rel_err (B2R w) (sqrt 2) (14 * bpow radix2 (-53)).
Proof.
  destruct (CFAcc.lit05 F64) as (F & V). destruct (C64_pow_integer_base Cxx14 I32 2 F64 (dlit F64 5 1)) as (w & E & Fw & _ & R); rewrite ?V in * ; auto.
  - vm_compute; split; discriminate.
  - apply Rle_trans with (exp 4). apply Raux.exp_le. interval. apply Rle_trans with (bpow radix2 6). cbn. interval. apply bpow_le. discriminate.
  - exists w. split. exact E. split; auto. assert (T : 0 <= / 2 * ln 2 <= 347 / 1000) by (split; interval). specialize (R ltac:(left; rewrite Rabs_pos_eq; lra)). rewrite Rpower_sqrt in R by lra. eapply TanhAcc.rel_mono; [|exact R]. rewrite Rabs_pos_eq by lra. cbn. lra.
Qed.

(** C65 *)
Theorem C65_pow_small_base_refuted : forall v f, exists x y : flt f, finite x = true /\ bpow radix2 (2 - emax f) <= B2R x < / 2 /\ Rabs (B2R y) = / 2 /\ finite y = true /\
  exists w, gcem_pow v (AFlt f x) (AFlt f y) = Ok (AFlt f w) /\ finite w = true /\ 2 * Rpower (B2R x) (B2R y) <= Rabs (B2R w - Rpower (B2R x) (B2R y)).
Proof. exact api_pow_bad. Qed.
Print Assumptions C65_pow_small_base_refuted.

(** C66 *)
Theorem C66_cosh_small : forall v f (x : flt f), finite x = true -> Rabs (B2R x) <= / 2 ->
  exists w, gcem_cosh v (AFlt f x) = Ok w /\ finite w = true /\ rel_err (B2R w) (cosh (B2R x)) (10 * bpow radix2 (- prec f) + bpow radix2 (-55)).
Proof. exact api_cosh_small. Qed.
Print Assumptions C66_cosh_small.
Theorem C66_cosh_accurate : forall v f (x : flt f), finite x = true -> exp (Rabs (B2R x) + 2) <= bpow radix2 (emax f - 9) ->
  exists w, gcem_cosh v (AFlt f x) = Ok w /\ finite w = true /\
    rel_err (B2R w) (cosh (B2R x)) ((if Rlt_dec (Rabs (B2R x)) 2 then 108 else 14) * bpow radix2 (- prec f) + bpow radix2 (-53) + (Rabs (B2R x) + 3) * bpow radix2 (-60)).
Proof. exact api_cosh. Qed.
Print Assumptions C66_cosh_accurate.
Example C66_ex : exists w, gcem_cosh Cxx14 (AFlt F64 (ofZ F64 (-700))) = Ok w /\ finite w = true /\ rel_err (B2R w) (cosh (-700)) (22 * bpow radix2 (-53)).
Proof.
  destruct (ofZ_small F64 (-700) ltac:(lia)) as (Vx & Fx & _). destruct (C66_cosh_accurate Cxx14 F64 _ Fx) as (w & E & Fw & R); rewrite Vx in * .
  - rewrite Rabs_left by lra. rewrite bpow_exp. change (IZR radix2) with 2. apply Raux.exp_le. change (emax F64 - 9)%Z with 1015%Z. interval.
  - exists w. split. exact E. split; auto. eapply TanhAcc.rel_mono; [|exact R]. rewrite Rabs_left by lra. clear R. destruct (Rlt_dec _ _). lra. cbn. lra.
Qed.

(** C67. The error of sinh is measured against cosh, that is relative for |x| >= 2. *)
Theorem C67_sinh_small : forall v f (x : flt f), finite x = true -> Rabs (B2R x) <= / 2 ->
  exists w, gcem_sinh v (AFlt f x) = Ok w /\ finite w = true /\ Rabs (B2R w - sinh (B2R x)) <= (11 * bpow radix2 (- prec f) + bpow radix2 (-55)) * cosh (B2R x).
Proof. exact api_sinh_small. Qed.
Print Assumptions C67_sinh_small.
Theorem C67_sinh_mid : forall v f (x : flt f), finite x = true -> Rabs (B2R x) < 2 ->
  exists w, gcem_sinh v (AFlt f x) = Ok w /\ finite w = true /\ Rabs (B2R w - sinh (B2R x)) <= (109 * bpow radix2 (- prec f) + bpow radix2 (-55)) * cosh (B2R x).
Proof. exact api_sinh_mid. Qed.
Print Assumptions C67_sinh_mid.
Theorem C67_sinh_far : forall v f (x : flt f), finite x = true -> 2 <= Rabs (B2R x) -> exp (Rabs (B2R x) + 2) <= bpow radix2 (emax f - 9) ->
  exists w, gcem_sinh v (AFlt f x) = Ok w /\ finite w = true /\
    rel_err (B2R w) (sinh (B2R x)) (15 * bpow radix2 (- prec f) + bpow radix2 (-53) + (Rabs (B2R x) + 3) * bpow radix2 (-60)).
Proof. exact api_sinh_far. Qed.
Print Assumptions C67_sinh_far.
Example C67_ex : exists w, gcem_sinh Cxx11 (AFlt F32 (ofZ F32 (-3))) = Ok w /\ finite w = true /\ rel_err (B2R w) (sinh (-3)) (16 * bpow radix2 (-24)).
Proof.
  destruct (ofZ_small F32 (-3) ltac:(lia)) as (Vx & Fx & _). destruct (C67_sinh_far Cxx11 F32 _ Fx) as (w & E & Fw & R); rewrite ?Vx in * .
  - rewrite Rabs_left; lra.
  - rewrite Rabs_left by lra. apply Rle_trans with (bpow radix2 10). cbn. interval. apply bpow_le. discriminate.
  - exists w. split. exact E. split; auto. eapply TanhAcc.rel_mono; [|exact R]. rewrite Rabs_left by lra. cbn. lra.
Qed.

(** C68 *)
Theorem C68_sinh_tiny_refuted : forall v f (x : flt f), finite x = true -> Rabs (B2R x) <= bpow radix2 (- prec f - 2) ->
  exists w, gcem_sinh v (AFlt f x) = Ok w /\ finite w = true /\ B2R w = 0.
Proof. exact api_sinh_tiny. Qed.
Print Assumptions C68_sinh_tiny_refuted.
(** The smallest normal double has a positive hyperbolic sine; so does every other one up to 2^-55. *)
Example C68_ex : finite (fmin F64) = true /\ 0 < B2R (fmin F64) <= bpow radix2 (- prec F64 - 2) /\ 0 < sinh (B2R (fmin F64)).
Proof.
  destruct (fmin_spec F64) as (V & F). split; auto. rewrite V. split. split. apply bpow_gt_0. apply bpow_le. discriminate.
  unfold sinh. assert (0 < bpow radix2 (2 - emax F64)) by apply bpow_gt_0. assert (exp (- bpow radix2 (2 - emax F64)) < exp (bpow radix2 (2 - emax F64))) by (apply exp_increasing; lra). lra.
Qed.
