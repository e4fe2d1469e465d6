(** * Accuracy of the error function (C79-C83). *)
From Verif Require Import Base ModelBasic ModelInt ModelElem ModelSpecial ModelApi Spec SpecErf FltLemmas ConvLemmas BasicProofs ErfApi.
From Coq Require Import Lra.
Open Scope R_scope.

(** C79 *)
Theorem C79_erf_accurate : forall v f (x : flt f), finite x = true -> bpow radix2 (2 - emax f) <= Rabs (B2R x) <= 3000000000 ->
  exists w, gcem_erf v (AFlt f x) = Ok w /\ finite w = true /\
    rel_err (B2R w) (erf_real (B2R x))
      (if Rle_dec (Rabs (B2R x)) (/ 2) then 18 * bpow radix2 (- prec f) + bpow radix2 (-54)
       else if Rle_dec (Rabs (B2R x)) 1 then 139 * bpow radix2 (- prec f) + bpow radix2 (-54)
       else if Rle_dec (Rabs (B2R x)) (3 / 2) then 566 * bpow radix2 (- prec f) + bpow radix2 (-53)
       else 45700 * bpow radix2 (- prec f) + bpow radix2 (-53)).
Proof. exact api_erf. Qed.
Print Assumptions C79_erf_accurate.
Theorem C79_erf_large : forall v f (x : flt f), finite x = true -> 211 / 100 <= Rabs (B2R x) <= 3000000000 ->
  exists w, gcem_erf v (AFlt f x) = Ok w /\ finite w = true /\
    abs_err (B2R w) (erf_real (B2R x)) (2 * bpow radix2 (- prec f) + bpow radix2 (-60)).
Proof. exact api_erf_large. Qed.
Print Assumptions C79_erf_large.
Example C79_ex : exists w, gcem_erf Cxx11 (AFlt F64 (dlit F64 5 1)) = Ok w /\ finite w = true /\ rel_err (B2R w) (erf_real (/ 2)) (19 * bpow radix2 (-53)).
Proof.
  destruct (CFAcc.lit05 F64) as (F & V). destruct (C79_erf_accurate Cxx11 F64 (dlit F64 5 1) F) as (w & E & Fw & R); rewrite ?V in * .
  - rewrite Rabs_pos_eq by lra. split; [|lra]. apply Rle_trans with (bpow radix2 (-1)). apply bpow_le. discriminate. cbn; lra.
  - exists w. split. exact E. split; auto. eapply TanhAcc.rel_mono; [|exact R]. rewrite Rabs_pos_eq by lra. destruct (Rle_dec (/ 2) (/ 2)) as [_|N]; [|exfalso; apply N; lra]. change (- prec F64)%Z with (-53)%Z. assert (bpow radix2 (-53) = 2 * bpow radix2 (-54)) by (cbn; lra). assert (0 < bpow radix2 (-54)) by apply bpow_gt_0. lra.
Qed.
Example C79_ex' : exists w, gcem_erf Cxx14 (AFlt F32 (ofZ F32 (-3))) = Ok w /\ finite w = true /\ abs_err (B2R w) (erf_real (-3)) (3 * bpow radix2 (-24)).
Proof.
  destruct (ofZ_small F32 (-3) ltac:(lia)) as (V & F & _). destruct (C79_erf_large Cxx14 F32 (ofZ F32 (-3)) F) as (w & E & Fw & R); rewrite V in * .
  - replace (-3) with (- (3)) by lra. rewrite Rabs_Ropp, Rabs_pos_eq; lra.
  - exists w. split. exact E. split; auto. unfold abs_err in * . eapply Rle_trans. exact R. change (- prec F32)%Z with (-24)%Z. assert (bpow radix2 (-60) <= bpow radix2 (-24)) by (apply bpow_le; discriminate). lra.
Qed.

(** C80 *)
Theorem C80_erf_range : forall v f (x : flt f), finite x = true -> Rabs (B2R x) <= 3000000000 ->
  exists w, gcem_erf v (AFlt f x) = Ok w /\ finite w = true /\ Rabs (B2R w) <= 1.
Proof. exact api_erf_bound. Qed.
Print Assumptions C80_erf_range.
Example C80_ex : exists w, gcem_erf Cxx14 (AFlt F80 (ofZ F80 1000000)) = Ok w /\ finite w = true /\ Rabs (B2R w) <= 1.
Proof. destruct (ofZ_small F80 1000000 ltac:(lia)) as (V & F & _). apply C80_erf_range; auto. rewrite V, Rabs_pos_eq; lra. Qed.

(** C81 *)
Theorem C81_erf_digits_refuted : forall v f, exists x w : flt f, finite x = true /\ 2 <= B2R x <= 5 / 2 /\
  gcem_erf v (AFlt f x) = Ok w /\ finite w = true /\ ~ rel_err (B2R w) (erf_real (B2R x)) (1000 * bpow radix2 (- prec f)).
Proof. exact api_erf_bad. Qed.
Print Assumptions C81_erf_digits_refuted.

(** C82 *)
Theorem C82_erf_monotone_refuted : forall v f, exists x y wx wy : flt f, finite x = true /\ finite y = true /\ B2R x < B2R y /\
  gcem_erf v (AFlt f x) = Ok wx /\ gcem_erf v (AFlt f y) = Ok wy /\
  finite wx = true /\ finite wy = true /\ B2R wy + 1000 * bpow radix2 (- prec f) < B2R wx.
Proof. exact api_erf_mono_bad. Qed.
Print Assumptions C82_erf_monotone_refuted.

(** C83 *)
Theorem C83_erf_large_refuted : forall v f (x : flt f), finite x = true -> 3100000000 <= Rabs (B2R x) <= 9000000000000000000 ->
  gcem_erf v (AFlt f x) = Ub UbCast.
Proof. exact api_erf_ub. Qed.
Print Assumptions C83_erf_large_refuted.
Example C83_ex : gcem_erf Cxx14 (AFlt F64 (ofZ F64 (10 ^ 10))) = Ub UbCast.
Proof.
  apply C83_erf_large_refuted. vm_compute; reflexivity. rewrite (proj2 (BasicProofs.ofZ_has_val F64 (10 ^ 10) eq_refl)). rewrite Rabs_pos_eq; cbn; lra.
Qed.
