(** * sin, cos and tan of large arguments (C112 to C115). *)
From Verif Require Import Base ModelBasic ModelInt ModelElem ModelApi Spec FltLemmas TrigLarge.
From Coq Require Import Lra.
Open Scope R_scope.

(** C112 *)
Theorem C112_sin_large : forall f (x : flt f), finite x = true -> Rabs (B2R x) <= bpow radix2 (prec f - 5) ->
  exists w, gcem_sin (AFlt f x) = Ok w /\ finite w = true /\
    abs_err (B2R w) (sin (B2R x)) ((70 + 17 / 10 * Rabs (B2R x)) * bpow radix2 (- prec f) + bpow radix2 (-52)).
Proof. exact api_sin_large. Qed.
Print Assumptions C112_sin_large.
Theorem C112_cos_large : forall f (x : flt f), finite x = true -> Rabs (B2R x) <= bpow radix2 (prec f - 5) ->
  exists w, gcem_cos (AFlt f x) = Ok w /\ finite w = true /\
    abs_err (B2R w) (cos (B2R x)) ((70 + 17 / 10 * Rabs (B2R x)) * bpow radix2 (- prec f) + bpow radix2 (-52)).
Proof. exact api_cos_large. Qed.
Print Assumptions C112_cos_large.
Theorem C112_sin_integer : forall t n, (Z.abs n <= 2 ^ 48)%Z -> exists w, gcem_sin (AInt t n) = Ok w /\ finite w = true /\
  abs_err (B2R w) (sin (IZR n)) ((72 + 17 / 10 * Rabs (IZR n)) * bpow radix2 (-53)).
Proof. exact api_sin_int. Qed.
Print Assumptions C112_sin_integer.
Theorem C112_cos_integer : forall t n, (Z.abs n <= 2 ^ 48)%Z -> exists w, gcem_cos (AInt t n) = Ok w /\ finite w = true /\
  abs_err (B2R w) (cos (IZR n)) ((72 + 17 / 10 * Rabs (IZR n)) * bpow radix2 (-53)).
Proof. exact api_cos_int. Qed.
Print Assumptions C112_cos_integer.
(** one million radians: about ten digits are left *)
Example C112_ex : exists w, gcem_sin (AInt I32 1000000) = Ok w /\ finite w = true /\ abs_err (B2R w) (sin 1000000) (/ 5000000000).
Proof.
  destruct (C112_sin_integer I32 1000000 ltac:(lia)) as (w & E & F & A). exists w. split. exact E. split. exact F. unfold abs_err in * . eapply Rle_trans. exact A.
  rewrite Rabs_pos_eq by lra. change (bpow radix2 (-53)) with (/ 9007199254740992). lra.
Qed.

(** C113 *)
Theorem C113_tan_backward : forall f (x : flt f), finite x = true -> Rabs (B2R x) <= bpow radix2 (prec f - 6) ->
  exists w y, gcem_tan (AFlt f x) = Ok w /\ finite w = true /\ cos y <> 0 /\ B2R w = tan y /\
    abs_err y (B2R x) ((32 + 17 / 10 * Rabs (B2R x)) * bpow radix2 (- prec f) + bpow radix2 (-52)).
Proof. exact api_tan_large. Qed.
Print Assumptions C113_tan_backward.
(** 11 is close to a pole: 7 pi / 2 = 10.9956 *)
Example C113_ex : exists w y, gcem_tan (AFlt F64 (ofZ F64 11)) = Ok w /\ finite w = true /\ cos y <> 0 /\ B2R w = tan y /\ abs_err y 11 (/ 100000000000000).
Proof.
  destruct (ofZ_small F64 11 ltac:(lia)) as (V & F & _). destruct (C113_tan_backward F64 (ofZ F64 11) F) as (w & y & E & Fw & Cy & Vw & A).
  - rewrite V, Rabs_pos_eq by lra. apply Rle_trans with (bpow radix2 4); [change (bpow radix2 4) with 16; lra|apply bpow_le; cbn; lia].
  - exists w, y. split. exact E. split. exact Fw. split. exact Cy. split. exact Vw. rewrite V, Rabs_pos_eq in A by lra. unfold abs_err in * . eapply Rle_trans. exact A.
    change (- prec F64)%Z with (-53)%Z. change (bpow radix2 (-53)) with (/ 9007199254740992). change (bpow radix2 (-52)) with (/ 4503599627370496). lra.
Qed.

(** C114 *)
Theorem C114_unit_circle : forall f (x : flt f), finite x = true -> Rabs (B2R x) <= bpow radix2 (prec f - 5) ->
  exists s c, gcem_sin (AFlt f x) = Ok s /\ gcem_cos (AFlt f x) = Ok c /\ finite s = true /\ finite c = true /\
    Rabs (B2R s * B2R s + B2R c * B2R c - 1) <= 16 * bpow radix2 (- prec f).
Proof. exact pythagoras. Qed.
Print Assumptions C114_unit_circle.
Example C114_ex : exists s c, gcem_sin (AFlt F32 (ofZ F32 (-500000))) = Ok s /\ gcem_cos (AFlt F32 (ofZ F32 (-500000))) = Ok c /\ finite s = true /\ finite c = true /\
  Rabs (B2R s * B2R s + B2R c * B2R c - 1) <= 16 * bpow radix2 (-24).
Proof.
  destruct (ofZ_small F32 (-500000) ltac:(lia)) as (V & F & _). apply (C114_unit_circle F32 (ofZ F32 (-500000)) F).
  rewrite V, Rabs_left by lra. change (bpow radix2 (prec F32 - 5)) with 524288. lra.
Qed.

(** C115 *)
Theorem C115_cos_far_refuted : forall f, exists x : flt f, finite x = true /\ 0 < B2R x <= bpow radix2 (prec f + 5) /\
  (exists w, gcem_cos (AFlt f x) = Ok w /\ B2R w = 1) /\ (exists w, gcem_sin (AFlt f x) = Ok w /\ B2R w = 0) /\ cos (B2R x) <= - (1 / 3).
Proof. exact cos_far. Qed.
Print Assumptions C115_cos_far_refuted.
