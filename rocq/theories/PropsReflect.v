(** * Reflection of incomplete_beta (C156), double angle formulas (C157). *)
From Verif Require Import Base ModelBasic ModelInt ModelElem ModelSpecial ModelApi Spec FltLemmas ConvLemmas BasicProofs Reflect.
From Coq Require Import Lra Lia.
Open Scope R_scope.

(** C156: I_z(a,b) + I_(1-z)(b,a) = 1, the complement 1 - z being the rounded difference *)
Theorem C156_incomplete_beta_reflection : forall v f (a b z : flt f), finite a = true -> finite b = true -> finite z = true -> / 2 <= B2R a <= 10 -> / 2 <= B2R b <= 10 -> 13 / 100 <= B2R z <= 87 / 100 ->
  exists w w' : flt f, rmap (AFlt _) (gcem_incomplete_beta v (AFlt f a) (AFlt f b) (AFlt f z)) = Ok (AFlt f w) /\ rmap (AFlt _) (gcem_incomplete_beta v (AFlt f b) (AFlt f a) (AFlt f (ofZ f 1 -. z))) = Ok (AFlt f w') /\ finite w = true /\ finite w' = true /\
  abs_err (B2R w + B2R w') 1 (169400 * bpow radix2 (- prec f) + bpow radix2 (-42)).
Proof. exact ib_reflect. Qed.
Print Assumptions C156_incomplete_beta_reflection.
Example C156_ex : exists w w' : flt F64, rmap (AFlt _) (gcem_incomplete_beta Cxx11 (AFlt F64 (ofZ F64 2)) (AFlt F64 (ofZ F64 3)) (AFlt F64 (half F64))) = Ok (AFlt F64 w) /\ rmap (AFlt _) (gcem_incomplete_beta Cxx11 (AFlt F64 (ofZ F64 3)) (AFlt F64 (ofZ F64 2)) (AFlt F64 (ofZ F64 1 -. half F64))) = Ok (AFlt F64 w') /\ finite w = true /\ finite w' = true /\
  abs_err (B2R w + B2R w') 1 (169400 * bpow radix2 (-53) + bpow radix2 (-42)).
Proof.
  destruct (half_spec F64) as (V & F). destruct (ofZ_small F64 2 ltac:(lia)) as (V2 & F2 & _). destruct (ofZ_small F64 3 ltac:(lia)) as (V3 & F3 & _).
  apply (C156_incomplete_beta_reflection Cxx11 F64 (ofZ F64 2) (ofZ F64 3) (half F64) F2 F3 F); rewrite ?V, ?V2, ?V3; lra.
Qed.

(** C157: sin 2x = 2 sin x cos x and cos 2x = 2 cos^2 x - 1 *)
Theorem C157_double_angle : forall f (x y : flt f), finite x = true -> finite y = true -> B2R y = 2 * B2R x -> Rabs (B2R x) <= bpow radix2 (prec f - 6) ->
  exists s c s2 c2 : flt f, gcem_sin (AFlt f x) = Ok s /\ gcem_cos (AFlt f x) = Ok c /\ gcem_sin (AFlt f y) = Ok s2 /\ gcem_cos (AFlt f y) = Ok c2 /\ finite s2 = true /\ finite c2 = true /\
  abs_err (B2R s2) (2 * B2R s * B2R c) ((350 + 11 * Rabs (B2R x)) * bpow radix2 (- prec f) + bpow radix2 (-49)) /\
  abs_err (B2R c2) (2 * B2R c * B2R c - 1) ((350 + 11 * Rabs (B2R x)) * bpow radix2 (- prec f) + bpow radix2 (-49)).
Proof. exact double_angle. Qed.
Print Assumptions C157_double_angle.
Example C157_ex : exists s c s2 c2 : flt F64, gcem_sin (AFlt F64 (ofZ F64 5)) = Ok s /\ gcem_cos (AFlt F64 (ofZ F64 5)) = Ok c /\ gcem_sin (AFlt F64 (ofZ F64 10)) = Ok s2 /\ gcem_cos (AFlt F64 (ofZ F64 10)) = Ok c2 /\ finite s2 = true /\ finite c2 = true /\
  abs_err (B2R s2) (2 * B2R s * B2R c) ((350 + 11 * Rabs (B2R (ofZ F64 5))) * bpow radix2 (-53) + bpow radix2 (-49)) /\
  abs_err (B2R c2) (2 * B2R c * B2R c - 1) ((350 + 11 * Rabs (B2R (ofZ F64 5))) * bpow radix2 (-53) + bpow radix2 (-49)).
Proof.
  destruct (ofZ_small F64 5 ltac:(lia)) as (V & F & _). destruct (ofZ_small F64 10 ltac:(lia)) as (V2 & F2 & _).
  apply (C157_double_angle F64 (ofZ F64 5) (ofZ F64 10) F F2). rewrite V, V2; lra. rewrite V, Rabs_pos_eq by lra. apply Rle_trans with (bpow radix2 3). cbn; lra. apply bpow_le. discriminate.
Qed.
