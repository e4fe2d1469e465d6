(** * atan2 with exchanged and with reflected arguments (C162). *)
From Verif Require Import Base ModelBasic ModelInt ModelElem ModelSpecial ModelApi Spec FltLemmas ConvLemmas BasicProofs Atan2Sum.
From Coq Require Import Lra Lia.
Open Scope R_scope.

(** C162: the angles of (x, y) and (y, x) in the first quadrant add up to a right angle *)
Theorem C162_atan2_swap : forall v f (y x : flt f), finite y = true -> finite x = true -> bpow radix2 (2 - emax f) <= B2R x -> bpow radix2 (2 - emax f) <= B2R y -> bpow radix2 (2 - emax f) <= B2R y / B2R x <= bpow radix2 (emax f - 2) ->
  exists a b : flt f, rmap (AFlt _) (gcem_atan2 v (AFlt f y) (AFlt f x)) = Ok (AFlt f a) /\ rmap (AFlt _) (gcem_atan2 v (AFlt f x) (AFlt f y)) = Ok (AFlt f b) /\ finite a = true /\ finite b = true /\
  abs_err (B2R a + B2R b) (PI / 2) (16 * bpow radix2 (- prec f) + bpow radix2 (-53)).
Proof. exact atan2_swap. Qed.
Print Assumptions C162_atan2_swap.
(** the angles of (x, y) and (-x, y) add up to a straight angle *)
Theorem C162_atan2_mirror : forall v f (y x : flt f), finite y = true -> finite x = true -> bpow radix2 (2 - emax f) <= B2R x -> bpow radix2 (2 - emax f) <= B2R y / B2R x <= bpow radix2 (emax f - 1) ->
  exists a b : flt f, rmap (AFlt _) (gcem_atan2 v (AFlt f y) (AFlt f x)) = Ok (AFlt f a) /\ rmap (AFlt _) (gcem_atan2 v (AFlt f y) (AFlt f (-. x))) = Ok (AFlt f b) /\ finite a = true /\ finite b = true /\
  abs_err (B2R a + B2R b) PI (57 * bpow radix2 (- prec f) + bpow radix2 (-51)).
Proof. exact atan2_mirror. Qed.
Print Assumptions C162_atan2_mirror.
Example C162_ex : exists a b : flt F64, rmap (AFlt _) (gcem_atan2 Cxx11 (AFlt F64 (ofZ F64 3)) (AFlt F64 (ofZ F64 4))) = Ok (AFlt F64 a) /\ rmap (AFlt _) (gcem_atan2 Cxx11 (AFlt F64 (ofZ F64 4)) (AFlt F64 (ofZ F64 3))) = Ok (AFlt F64 b) /\ finite a = true /\ finite b = true /\
  abs_err (B2R a + B2R b) (PI / 2) (16 * bpow radix2 (-53) + bpow radix2 (-53)).
Proof.
  destruct (ofZ_small F64 3 ltac:(lia)) as (V3 & F3 & _). destruct (ofZ_small F64 4 ltac:(lia)) as (V4 & F4 & _).
  assert (L : bpow radix2 (2 - emax F64) <= bpow radix2 (-1)) by (apply bpow_le; discriminate). assert (H : bpow radix2 0 <= bpow radix2 (emax F64 - 2)) by (apply bpow_le; discriminate). change (bpow radix2 (-1)) with (/ 2) in L. change (bpow radix2 0) with 1 in H.
  apply (C162_atan2_swap Cxx11 F64 (ofZ F64 3) (ofZ F64 4) F3 F4); rewrite ?V3, ?V4; lra.
Qed.
Example C162_mirror_ex : exists a b : flt F64, rmap (AFlt _) (gcem_atan2 Cxx11 (AFlt F64 (ofZ F64 3)) (AFlt F64 (ofZ F64 4))) = Ok (AFlt F64 a) /\ rmap (AFlt _) (gcem_atan2 Cxx11 (AFlt F64 (ofZ F64 3)) (AFlt F64 (-. ofZ F64 4))) = Ok (AFlt F64 b) /\ finite a = true /\ finite b = true /\
  abs_err (B2R a + B2R b) PI (57 * bpow radix2 (-53) + bpow radix2 (-51)).
Proof.
  destruct (ofZ_small F64 3 ltac:(lia)) as (V3 & F3 & _). destruct (ofZ_small F64 4 ltac:(lia)) as (V4 & F4 & _).
  assert (L : bpow radix2 (2 - emax F64) <= bpow radix2 (-1)) by (apply bpow_le; discriminate). assert (H : bpow radix2 0 <= bpow radix2 (emax F64 - 1)) by (apply bpow_le; discriminate). change (bpow radix2 (-1)) with (/ 2) in L. change (bpow radix2 0) with 1 in H.
  apply (C162_atan2_mirror Cxx11 F64 (ofZ F64 3) (ofZ F64 4) F3 F4); rewrite ?V3, ?V4; lra.
Qed.
