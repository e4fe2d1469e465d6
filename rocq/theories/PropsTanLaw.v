(** * tan(x) cos(x) = sin(x) (C158). *)
From Verif Require Import Base ModelBasic ModelInt ModelElem ModelSpecial ModelApi Spec FltLemmas ConvLemmas BasicProofs TanLaw.
From Coq Require Import Lra Lia.
Open Scope R_scope.

(** C158: the product of the returned tan and cos is the returned sin *)
Theorem C158_tan_cos_sin : forall f (x : flt f), finite x = true -> bpow radix2 (3 - emax f) <= Rabs (B2R x) <= 1 ->
  exists t c s : flt f, gcem_tan (AFlt f x) = Ok t /\ gcem_cos (AFlt f x) = Ok c /\ gcem_sin (AFlt f x) = Ok s /\ finite t = true /\ finite c = true /\ finite s = true /\
  abs_err (B2R t * B2R c) (B2R s) (32 * bpow radix2 (- prec f) + bpow radix2 (-76)).
Proof. exact tan_cos_sin. Qed.
Print Assumptions C158_tan_cos_sin.
(** up to 3/2, where tan grows to 14.1 *)
Theorem C158_tan_cos_sin_wide : forall f (x : flt f), finite x = true -> bpow radix2 (3 - emax f) <= Rabs (B2R x) <= 3 / 2 ->
  exists t c s : flt f, gcem_tan (AFlt f x) = Ok t /\ gcem_cos (AFlt f x) = Ok c /\ gcem_sin (AFlt f x) = Ok s /\ finite t = true /\ finite c = true /\ finite s = true /\
  abs_err (B2R t * B2R c) (B2R s) (203 * bpow radix2 (- prec f) + bpow radix2 (-74)).
Proof. exact tan_cos_sin_wide. Qed.
Print Assumptions C158_tan_cos_sin_wide.
Example C158_ex : exists t c s : flt F64, gcem_tan (AFlt F64 (half F64)) = Ok t /\ gcem_cos (AFlt F64 (half F64)) = Ok c /\ gcem_sin (AFlt F64 (half F64)) = Ok s /\ finite t = true /\ finite c = true /\ finite s = true /\
  abs_err (B2R t * B2R c) (B2R s) (32 * bpow radix2 (-53) + bpow radix2 (-76)).
Proof.
  destruct (half_spec F64) as (V & F). apply (C158_tan_cos_sin F64 (half F64) F). rewrite V, Rabs_pos_eq by lra. split; [|lra]. apply Rle_trans with (bpow radix2 (-1)). apply bpow_le. discriminate. cbn; lra.
Qed.
