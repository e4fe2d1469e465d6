(** * Accuracy of the incomplete gamma function (C105 to C107). *)
From Verif Require Import Base ModelBasic ModelInt ModelElem ModelSpecial ModelApi Spec SpecGamma SpecInc FltLemmas ConvLemmas BasicProofs IncGamApi IncBad.
From Coq Require Import Lra.
Open Scope R_scope.

(** C105 *)
Theorem C105_incomplete_gamma_accurate : forall v f (a z : flt f), finite a = true -> finite z = true -> / 2 <= B2R a < 10 -> / 2 <= B2R z <= B2R a + / 2 ->
  exists w, gcem_incomplete_gamma v (AFlt f a) (AFlt f z) = Ok w /\ finite w = true /\
    rel_err (B2R w) (gamma_P (B2R a) (B2R z)) (1600 * bpow radix2 (- prec f) + bpow radix2 (-49)).
Proof. exact api_ig_low. Qed.
Print Assumptions C105_incomplete_gamma_accurate.
Example C105_ex : exists w, gcem_incomplete_gamma Cxx11 (AFlt F64 (ofZ F64 5)) (AFlt F64 (ofZ F64 4)) = Ok w /\ finite w = true /\
  rel_err (B2R w) (gamma_P 5 4) (1616 * bpow radix2 (-53)).
Proof.
  destruct (ofZ_small F64 5 ltac:(lia)) as (V & F & _). destruct (ofZ_small F64 4 ltac:(lia)) as (V1 & F1 & _).
  destruct (C105_incomplete_gamma_accurate Cxx11 F64 (ofZ F64 5) (ofZ F64 4) F F1) as (w & E & Fw & R). rewrite V; lra. rewrite V, V1; lra. rewrite V, V1 in R.
  exists w. split. exact E. split. exact Fw. change (- prec F64)%Z with (-53)%Z in R. replace (bpow radix2 (-49)) with (16 * bpow radix2 (-53)) in R. replace (1616 * bpow radix2 (-53)) with (1600 * bpow radix2 (-53) + 16 * bpow radix2 (-53)) by ring. exact R.
  change 16 with (bpow radix2 4). rewrite <- bpow_plus. reflexivity.
Qed.

(** C106 *)
Theorem C106_incomplete_gamma_upper_accurate : forall v f (a z : flt f), finite a = true -> finite z = true -> / 2 <= B2R a < 10 -> B2R a + 10 <= B2R z <= 100000 ->
  exists w, gcem_incomplete_gamma v (AFlt f a) (AFlt f z) = Ok w /\ finite w = true /\
    abs_err (B2R w) (gamma_P (B2R a) (B2R z)) (26 * bpow radix2 (- prec f) + bpow radix2 (-55)).
Proof. exact api_ig_up. Qed.
Print Assumptions C106_incomplete_gamma_upper_accurate.
Example C106_ex : exists w, gcem_incomplete_gamma Cxx11 (AFlt F64 (ofZ F64 5)) (AFlt F64 (ofZ F64 30)) = Ok w /\ finite w = true /\
  abs_err (B2R w) (gamma_P 5 30) (27 * bpow radix2 (-53)).
Proof.
  destruct (ofZ_small F64 5 ltac:(lia)) as (V & F & _). destruct (ofZ_small F64 30 ltac:(lia)) as (V1 & F1 & _).
  destruct (C106_incomplete_gamma_upper_accurate Cxx11 F64 (ofZ F64 5) (ofZ F64 30) F F1) as (w & E & Fw & R). rewrite V; lra. rewrite V, V1; lra. rewrite V, V1 in R.
  exists w. split. exact E. split. exact Fw. change (- prec F64)%Z with (-53)%Z in R. unfold abs_err in * . eapply Rle_trans. exact R.
  assert (H := bpow_le radix2 (-55) (-53) ltac:(lia)). lra.
Qed.

(** C107 *)
Theorem C107_incomplete_gamma_small_range_refuted : forall v, exists w : flt F32,
  gcem_incomplete_gamma v (AFlt F32 (ofZ F32 1)) (AFlt F32 (dec F32 109 1)) = Ok w /\ finite w = true /\ 1 + / 10000 < B2R w.
Proof. exact ig_above_one. Qed.
Print Assumptions C107_incomplete_gamma_small_range_refuted.
