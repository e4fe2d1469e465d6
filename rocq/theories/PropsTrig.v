(** * Accuracy of atan, tan, sin, cos and tanh (C48, C49, C51). *)
From Verif Require Import Base ModelBasic ModelInt ModelElem ModelApi Spec FltLemmas TrigApi.
From Coq Require Import Lra.
Open Scope R_scope.

(** C48 *)
Theorem C48_atan_accurate : forall v f (x : flt f), finite x = true -> bpow radix2 (2 - emax f) <= Rabs (B2R x) ->
  exists w, gcem_atan v (AFlt f x) = Ok w /\ finite w = true /\
    rel_err (B2R w) (atan (B2R x)) (8 * bpow radix2 (- prec f) + bpow radix2 (-54)).
Proof. exact api_atan. Qed.
Print Assumptions C48_atan_accurate.
Theorem C48_atan_accurate_small : forall v f (x : flt f), finite x = true -> bpow radix2 (2 - emax f) <= Rabs (B2R x) < 2 ->
  exists w, gcem_atan v (AFlt f x) = Ok w /\ finite w = true /\
    rel_err (B2R w) (atan (B2R x)) (8 * bpow radix2 (- prec f) + bpow radix2 (-57)).
Proof. exact api_atan2. Qed.
Print Assumptions C48_atan_accurate_small.
Theorem C48_atan_bounded : forall v f (x : flt f), finite x = true ->
  exists w, gcem_atan v (AFlt f x) = Ok w /\ finite w = true /\ Rabs (B2R w) <= PI / 2 + bpow radix2 (- prec f).
Proof. exact api_atan_bound. Qed.
Print Assumptions C48_atan_bounded.
Example C48_ex : exists w, gcem_atan Cxx11 (AFlt F64 (ofZ F64 (-7))) = Ok w /\ finite w = true /\ rel_err (B2R w) (atan (-7)) (85 / 10 * bpow radix2 (-53)).
Proof.
  destruct (ofZ_small F64 (-7) ltac:(lia)) as (V & F & _).
  destruct (C48_atan_accurate Cxx11 F64 (ofZ F64 (-7)) F) as (w & E & Fw & R); rewrite ?V in * .
  - rewrite Rabs_left by lra. apply Rle_trans with (bpow radix2 0); [apply bpow_le; cbn; lia|cbn; lra].
  - exists w. split. exact E. split; auto. replace (85 / 10 * bpow radix2 (-53)) with (8 * bpow radix2 (- prec F64) + bpow radix2 (-54)). exact R. cbn. lra.
Qed.

(** C49 *)
Theorem C49_tan_accurate : forall f (x : flt f), finite x = true -> bpow radix2 (2 - emax f) <= Rabs (B2R x) <= 1 ->
  exists w, gcem_tan (AFlt f x) = Ok w /\ finite w = true /\
    rel_err (B2R w) (tan (B2R x)) (4 * bpow radix2 (- prec f) + bpow radix2 (-80)).
Proof. exact api_tan. Qed.
Print Assumptions C49_tan_accurate.
Theorem C49_tan_accurate_wide : forall f (x : flt f), finite x = true -> bpow radix2 (2 - emax f) <= Rabs (B2R x) <= 3 / 2 ->
  exists w, gcem_tan (AFlt f x) = Ok w /\ finite w = true /\
    rel_err (B2R w) (tan (B2R x)) (36 * bpow radix2 (- prec f) + bpow radix2 (-80)).
Proof. exact api_tan2. Qed.
Print Assumptions C49_tan_accurate_wide.
Theorem C49_sin_accurate : forall f (x : flt f), finite x = true -> bpow radix2 (3 - emax f) <= Rabs (B2R x) <= 2 ->
  exists w, gcem_sin (AFlt f x) = Ok w /\ finite w = true /\
    rel_err (B2R w) (sin (B2R x)) (10 * bpow radix2 (- prec f) + bpow radix2 (-79)).
Proof. exact api_sin. Qed.
Print Assumptions C49_sin_accurate.
Theorem C49_sin_accurate_wide : forall f (x : flt f), finite x = true -> bpow radix2 (3 - emax f) <= Rabs (B2R x) <= 3 ->
  exists w, gcem_sin (AFlt f x) = Ok w /\ finite w = true /\
    rel_err (B2R w) (sin (B2R x)) (42 * bpow radix2 (- prec f) + bpow radix2 (-79)).
Proof. exact api_sin2. Qed.
Print Assumptions C49_sin_accurate_wide.
Theorem C49_cos_accurate : forall f (x : flt f), finite x = true -> Rabs (B2R x) <= 2 ->
  exists w, gcem_cos (AFlt f x) = Ok w /\ finite w = true /\
    abs_err (B2R w) (cos (B2R x)) (11 * bpow radix2 (- prec f) + bpow radix2 (-79)).
Proof. exact api_cos. Qed.
Print Assumptions C49_cos_accurate.
Theorem C49_cos_accurate_wide : forall f (x : flt f), finite x = true -> Rabs (B2R x) <= 3 ->
  exists w, gcem_cos (AFlt f x) = Ok w /\ finite w = true /\
    abs_err (B2R w) (cos (B2R x)) (43 * bpow radix2 (- prec f) + bpow radix2 (-79)).
Proof. exact api_cos2. Qed.
Print Assumptions C49_cos_accurate_wide.
Example C49_ex : exists w, gcem_sin (AFlt F64 (ofZ F64 2)) = Ok w /\ finite w = true /\ rel_err (B2R w) (sin 2) (11 * bpow radix2 (-53)).
Proof.
  destruct (ofZ_small F64 2 ltac:(lia)) as (V & F & _).
  destruct (C49_sin_accurate F64 (ofZ F64 2) F) as (w & E & Fw & R); rewrite ?V in * .
  - rewrite Rabs_pos_eq by lra. split; [|lra]. apply Rle_trans with (bpow radix2 0); [apply bpow_le; cbn; lia|cbn; lra].
  - exists w. split. exact E. split; auto. unfold rel_err in * . eapply Rle_trans. exact R. apply Rmult_le_compat_r. apply Rabs_pos. cbn. lra.
Qed.
Example C49_ex_tan : exists w, gcem_tan (AFlt F32 (ofZ F32 1)) = Ok w /\ finite w = true /\ rel_err (B2R w) (tan 1) (5 * bpow radix2 (-24)).
Proof.
  destruct (ofZ_small F32 1 ltac:(lia)) as (V & F & _).
  destruct (C49_tan_accurate F32 (ofZ F32 1) F) as (w & E & Fw & R); rewrite ?V in * .
  - rewrite Rabs_pos_eq by lra. split; [|lra]. apply Rle_trans with (bpow radix2 0); [apply bpow_le; cbn; lia|cbn; lra].
  - exists w. split. exact E. split; auto. unfold rel_err in * . eapply Rle_trans. exact R. apply Rmult_le_compat_r. apply Rabs_pos. cbn. lra.
Qed.
Example C49_ex_cos : exists w, gcem_cos (AFlt F64 (ofZ F64 (-3))) = Ok w /\ finite w = true /\ abs_err (B2R w) (cos (-3)) (44 * bpow radix2 (-53)).
Proof.
  destruct (ofZ_small F64 (-3) ltac:(lia)) as (V & F & _).
  destruct (C49_cos_accurate_wide F64 (ofZ F64 (-3)) F) as (w & E & Fw & R); rewrite ?V in * .
  - rewrite Rabs_left by lra. lra.
  - exists w. split. exact E. split; auto. unfold abs_err in * . eapply Rle_trans. exact R. cbn. lra.
Qed.

(** C51 *)
Theorem C51_tanh_accurate : forall v f (x : flt f), finite x = true -> bpow radix2 (2 - emax f) <= Rabs (B2R x) <= 1 ->
  exists w, gcem_tanh v (AFlt f x) = Ok w /\ finite w = true /\
    rel_err (B2R w) (tanh (B2R x)) (3 * bpow radix2 (- prec f) + bpow radix2 (-96)).
Proof. exact api_tanh1. Qed.
Print Assumptions C51_tanh_accurate.
Theorem C51_tanh_accurate_wide : forall v f (x : flt f), finite x = true -> bpow radix2 (2 - emax f) <= Rabs (B2R x) <= 20 ->
  exists w, gcem_tanh v (AFlt f x) = Ok w /\ finite w = true /\
    rel_err (B2R w) (tanh (B2R x)) (14 * bpow radix2 (- prec f) + bpow radix2 (-66)).
Proof. exact api_tanh20. Qed.
Print Assumptions C51_tanh_accurate_wide.
Theorem C51_tanh_accurate_25 : forall v f (x : flt f), finite x = true -> bpow radix2 (2 - emax f) <= Rabs (B2R x) <= 25 ->
  exists w, gcem_tanh v (AFlt f x) = Ok w /\ finite w = true /\
    rel_err (B2R w) (tanh (B2R x)) (16 * bpow radix2 (- prec f) + bpow radix2 (-54)).
Proof. exact api_tanh25. Qed.
Print Assumptions C51_tanh_accurate_25.
Example C51_ex : exists w, gcem_tanh Cxx14 (AFlt F80 (ofZ F80 20)) = Ok w /\ finite w = true /\ rel_err (B2R w) (tanh 20) (15 * bpow radix2 (-64)).
Proof.
  destruct (ofZ_small F80 20 ltac:(lia)) as (V & F & _).
  destruct (C51_tanh_accurate_wide Cxx14 F80 (ofZ F80 20) F) as (w & E & Fw & R); rewrite ?V in * .
  - rewrite Rabs_pos_eq by lra. split; [|lra]. apply Rle_trans with (bpow radix2 0); [apply bpow_le; cbn; lia|cbn; lra].
  - exists w. split. exact E. split; auto. unfold rel_err in * . eapply Rle_trans. exact R. apply Rmult_le_compat_r. apply Rabs_pos. cbn. lra.
Qed.
