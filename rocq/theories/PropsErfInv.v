(** * Accuracy of the inverse error function (C104). *)
From Verif Require Import Base ModelBasic ModelInt ModelElem ModelSpecial ModelApi Spec SpecErf FltLemmas ConvLemmas BasicProofs ErfInvAcc.
From Coq Require Import Lra.
Open Scope R_scope.

(** C104: the returned w solves erf w = p up to a relative error of a few
    units, and lies that close (times the condition number) to any solution *)
Theorem C104_erf_inv_accurate : forall v f (p : flt f), finite p = true -> 2 * bpow radix2 (2 - emax f) <= Rabs (B2R p) <= 94 / 100 ->
  exists w, gcem_erf_inv v (AFlt f p) = Ok w /\ finite w = true /\
  rel_err (erf_real (B2R w)) (B2R p)
    (if Rle_dec (Rabs (B2R p)) (52 / 100) then 28 * bpow radix2 (- prec f) + bpow radix2 (-53) else
     if Rle_dec (Rabs (B2R p)) (84 / 100) then 188 * bpow radix2 (- prec f) + bpow radix2 (-53) else
     751 * bpow radix2 (- prec f) + bpow radix2 (-52)) /\
  forall t, erf_real t = B2R p -> rel_err (B2R w) t
    (if Rle_dec (Rabs (B2R p)) (52 / 100) then 36 * bpow radix2 (- prec f) + bpow radix2 (-52) else
     if Rle_dec (Rabs (B2R p)) (84 / 100) then 512 * bpow radix2 (- prec f) + bpow radix2 (-51) else
     4650 * bpow radix2 (- prec f) + bpow radix2 (-49)).
Proof. exact api_erf_inv. Qed.
Print Assumptions C104_erf_inv_accurate.
Theorem C104_erf_inv_zero : forall v f s, gcem_erf_inv v (AFlt f (B754_zero s)) = Ok (B754_zero s).
Proof. exact erf_inv_zero. Qed.
Print Assumptions C104_erf_inv_zero.
Example C104_ex : exists w, gcem_erf_inv Cxx14 (AFlt F64 (half F64)) = Ok w /\ finite w = true /\ rel_err (erf_real (B2R w)) (/ 2) (29 * bpow radix2 (-53)).
Proof.
  destruct (half_spec F64) as (V & F). destruct (C104_erf_inv_accurate Cxx14 F64 (half F64) F) as (w & E & Fw & R & _); rewrite V in * .
  - rewrite Rabs_pos_eq by lra. split; [|lra]. change (2 * bpow radix2 (2 - emax F64)) with (bpow radix2 1 * bpow radix2 (2 - emax F64)). rewrite <- bpow_plus. apply Rle_trans with (bpow radix2 (-1)). apply bpow_le. discriminate. cbn; lra.
  - exists w. split. exact E. split; auto. rewrite Rabs_pos_eq in R by lra. destruct (Rle_dec (/ 2) (52 / 100)) as [_|N]; [|exfalso; apply N; lra]. change (- prec F64)%Z with (-53)%Z in R. unfold rel_err in * . lra.
Qed.
