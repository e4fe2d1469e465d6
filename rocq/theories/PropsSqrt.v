(** * Accuracy of sqrt (C40, C41). *)
From Verif Require Import Base ModelBasic ModelInt ModelApi Spec FltLemmas BasicProofs ConvLemmas SqrtAcc SqrtSimp InvSqrtAcc HypotAcc.
From Coq Require Import Lra.
From Interval Require Import Tactic.
Open Scope R_scope.

(** C40 *)
Theorem C40_sqrt_accurate : forall f (x : flt f), finite x = true -> bpow radix2 (2 - emax f) <= B2R x -> bpow radix2 (-170) <= B2R x -> B2R x <= 100 ->
  exists w, gcem_sqrt (AFlt f x) = Ok w /\ finite w = true /\ rel_err (B2R w) (sqrt (B2R x)) (17 / 10 * bpow radix2 (- prec f)).
Proof. exact api_sqrt_small. Qed.
Print Assumptions C40_sqrt_accurate.
Theorem C40_sqrt_accurate_large : forall f (x : flt f), finite x = true -> 100 < B2R x ->
  exists w, gcem_sqrt (AFlt f x) = Ok w /\ finite w = true /\ rel_err (B2R w) (sqrt (B2R x)) ((4 + ln (B2R x) / 10) * bpow radix2 (- prec f)).
Proof. exact api_sqrt_large. Qed.
Print Assumptions C40_sqrt_accurate_large.
Example C40_ex : exists w, gcem_sqrt (AFlt F64 (ofZ F64 2)) = Ok w /\ finite w = true /\ rel_err (B2R w) (sqrt 2) (17 / 10 * bpow radix2 (-53)).
Proof.
  destruct (ofZ_small F64 2 ltac:(lia)) as (V & F & _). rewrite <- V. apply (C40_sqrt_accurate F64 (ofZ F64 2)); auto; rewrite V.
  - apply Rle_trans with (bpow radix2 0); [apply bpow_le; cbn; lia|cbn; lra].
  - apply Rle_trans with (bpow radix2 0); [apply bpow_le; cbn; lia|cbn; lra].
  - lra.
Qed.
Example C40_ex_large : exists w, gcem_sqrt (AFlt F32 (ofZ F32 1000003)) = Ok w /\ finite w = true /\ rel_err (B2R w) (sqrt 1000003) (54 / 10 * bpow radix2 (-24)).
Proof.
  destruct (ofZ_small F32 1000003 ltac:(lia)) as (V & F & _). destruct (C40_sqrt_accurate_large F32 (ofZ F32 1000003) F) as (w & E & Fw & R); rewrite ?V in * . lra.
  exists w. split. exact E. split; auto. unfold rel_err in * . eapply Rle_trans. exact R. apply Rmult_le_compat_r. apply Rabs_pos. apply Rmult_le_compat_r. apply bpow_ge_0. interval.
Qed.

(** C41 *)
Theorem C41_sqrt_tiny_refuted : forall f (x : flt f), finite x = true -> bpow radix2 (2 - emax f) <= B2R x -> B2R x <= bpow radix2 (-210) ->
  exists w, gcem_sqrt (AFlt f x) = Ok w /\ finite w = true /\ 32 * sqrt (B2R x) <= B2R w.
Proof. exact api_sqrt_tiny. Qed.
Print Assumptions C41_sqrt_tiny_refuted.
Example C41_ex : exists w, gcem_sqrt (AFlt F64 (fmin F64)) = Ok w /\ finite w = true /\ 32 * bpow radix2 (-511) <= B2R w.
Proof.
  destruct (fmin_spec F64) as (V & F). destruct (C41_sqrt_tiny_refuted F64 (fmin F64) F) as (w & E & Fw & R); rewrite ?V in * . lra. apply bpow_le; cbn; lia.
  exists w. split. exact E. split; auto. change (bpow radix2 (2 - emax F64)) with (bpow radix2 (-511 + -511)) in R. rewrite bpow_plus, sqrt_square in R by apply bpow_ge_0. exact R.
Qed.

(** C55 *)
Theorem C55_inv_sqrt_accurate : forall f (x : flt f), finite x = true -> bpow radix2 (-58) <= B2R x <= bpow radix2 58 ->
  exists w, gcem_inv_sqrt (AFlt f x) = Ok w /\ finite w = true /\ rel_err (B2R w) (/ sqrt (B2R x)) (22 / 10 * bpow radix2 (- prec f)).
Proof. exact api_inv_sqrt_acc. Qed.
Print Assumptions C55_inv_sqrt_accurate.
Example C55_ex : exists w, gcem_inv_sqrt (AFlt F80 (ofZ F80 2)) = Ok w /\ finite w = true /\ rel_err (B2R w) (/ sqrt 2) (22 / 10 * bpow radix2 (-64)).
Proof. destruct (ofZ_small F80 2 ltac:(lia)) as (V & F & _). rewrite <- V. apply (C55_inv_sqrt_accurate F80 (ofZ F80 2)); auto. rewrite V. split; cbn; lra. Qed.

(** C56 *)
Theorem C56_inv_sqrt_extreme_refuted : forall f (x : flt f), finite x = true -> bpow radix2 (2 - emax f) <= B2R x -> B2R x <= bpow radix2 (-80) \/ bpow radix2 80 <= B2R x ->
  exists w, gcem_inv_sqrt (AFlt f x) = Ok w /\ (w = B754_infinity false \/ (finite w = true /\ bpow radix2 19 * / sqrt (B2R x) <= B2R w)).
Proof. exact api_inv_sqrt_far. Qed.
Print Assumptions C56_inv_sqrt_extreme_refuted.
Example C56_ex : exists w, gcem_inv_sqrt (AFlt F64 (fmin F64)) = Ok w /\ (w = B754_infinity false \/ (finite w = true /\ bpow radix2 530 <= B2R w)).
Proof.
  destruct (fmin_spec F64) as (V & F). destruct (C56_inv_sqrt_extreme_refuted F64 (fmin F64) F) as (w & E & R); rewrite ?V in * . lra. left. apply bpow_le; cbn; lia.
  exists w. split. exact E. destruct R as [R|(Fw & R)]. left; exact R. right. split; auto. change (bpow radix2 (2 - emax F64)) with (bpow radix2 (-511 + -511)) in R. rewrite bpow_plus, sqrt_square in R by apply bpow_ge_0. rewrite <- bpow_opp, <- bpow_plus in R. exact R.
Qed.

(** C57 *)
Theorem C57_hypot_accurate : forall f (x y : flt f), finite x = true -> finite y = true -> bpow radix2 (2 - emax f) <= Rabs (B2R x) -> bpow radix2 (2 - emax f) <= Rabs (B2R y) ->
  Rabs (B2R y) <= 9 * Rabs (B2R x) -> sqrt (B2R x * B2R x + B2R y * B2R y) <= bpow radix2 (emax f - 1) ->
  exists w : flt f, rmap (AFlt _) (gcem_hypot (AFlt f x) (AFlt f y)) = Ok (AFlt f w) /\ finite w = true /\
  rel_err (B2R w) (sqrt (B2R x * B2R x + B2R y * B2R y)) (48 / 10 * bpow radix2 (- prec f)).
Proof. exact api_hypot_acc. Qed.
Print Assumptions C57_hypot_accurate.
Theorem C57_hypot_accurate_any : forall f (x y : flt f), finite x = true -> finite y = true -> bpow radix2 (2 - emax f) <= Rabs (B2R x) -> bpow radix2 (2 - emax f) <= Rabs (B2R y) ->
  Rabs (B2R y) <= bpow radix2 (emax f / 2 - 2) * Rabs (B2R x) -> sqrt (B2R x * B2R x + B2R y * B2R y) <= bpow radix2 (emax f - 1) ->
  exists w : flt f, rmap (AFlt _) (gcem_hypot (AFlt f x) (AFlt f y)) = Ok (AFlt f w) /\ finite w = true /\
  rel_err (B2R w) (sqrt (B2R x * B2R x + B2R y * B2R y)) ((71 / 10 + ln (1 + (B2R y / B2R x) * (B2R y / B2R x)) / 10) * bpow radix2 (- prec f)).
Proof. exact api_hypot_any. Qed.
Print Assumptions C57_hypot_accurate_any.
Example C57_ex : exists w : flt F64, rmap (AFlt _) (gcem_hypot (AFlt F64 (ofZ F64 3)) (AFlt F64 (ofZ F64 (-4)))) = Ok (AFlt F64 w) /\ finite w = true /\ rel_err (B2R w) 5 (48 / 10 * bpow radix2 (-53)).
Proof.
  destruct (ofZ_small F64 3 ltac:(lia)) as (V3 & F3 & _). destruct (ofZ_small F64 (-4) ltac:(lia)) as (V4 & F4 & _). assert (B : bpow radix2 (2 - emax F64) <= 1) by (apply (bpow_le radix2 _ 0); discriminate).
  assert (S : sqrt (3 * 3 + -4 * -4) = 5) by (replace (3 * 3 + -4 * -4) with (5 * 5) by ring; apply sqrt_square; lra). assert (A : Rabs 3 = 3 /\ Rabs (-4) = 4) by (split; [apply Rabs_pos_eq; lra|rewrite Rabs_left; lra]).
  destruct (C57_hypot_accurate F64 (ofZ F64 3) (ofZ F64 (-4)) F3 F4) as (w & E & Fw & R); rewrite ?V3, ?V4, ?S in *; try lra. { apply Rle_trans with (bpow radix2 3). cbn; lra. apply bpow_le; discriminate. }
  exists w. auto.
Qed.
