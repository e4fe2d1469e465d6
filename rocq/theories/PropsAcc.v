(** * Accuracy properties (C09, C42, C43). *)
From Verif Require Import Base ModelBasic ModelInt ModelElem ModelSpecial ModelApi Spec FltLemmas ConvLemmas IntProofs BasicProofs MiscProofs ExpAcc.
From Coq Require Import Lra.
From Interval Require Import Tactic.
Open Scope R_scope.

(** C09 *)
Theorem C09_pow_accurate : forall v f (x : flt f) t n, in_range t n -> (0 <= n)%Z -> n <> imax t -> finite x = true ->
  IZR n * bpow radix2 (- prec f) <= / 4 -> bpow radix2 (3 - emax f) <= Rabs (B2R x ^ Z.to_nat n) <= bpow radix2 (emax f - 1) ->
  exists w, gcem_pow v (AFlt f x) (AInt t n) = Ok (AFlt f w) /\ finite w = true /\
    rel_err (B2R w) (B2R x ^ Z.to_nat n) (2 * IZR n * bpow radix2 (- prec f)).
Proof. exact api_pow_near. Qed.
Print Assumptions C09_pow_accurate.
Theorem C09_pow_accurate_neg : forall v f (x : flt f) t n,
  in_range t n -> isigned t = true -> (n < 0)%Z -> n <> imin t -> (- n)%Z <> imax (promote t) -> finite x = true ->
  (2 * IZR (- n) + 1) * bpow radix2 (- prec f) <= / 4 ->
  bpow radix2 (3 - emax f) <= Rabs (B2R x ^ Z.to_nat (- n)) <= bpow radix2 (emax f - 3) ->
  exists w, gcem_pow v (AFlt f x) (AInt t n) = Ok (AFlt f w) /\ finite w = true /\
    rel_err (B2R w) (/ B2R x ^ Z.to_nat (- n)) ((4 * IZR (- n) + 2) * bpow radix2 (- prec f)).
Proof. exact api_pow_near_neg. Qed.
Print Assumptions C09_pow_accurate_neg.
Example C09_ex : exists w, gcem_pow Cxx14 (AFlt F64 (ofZ F64 3)) (AInt I32 100) = Ok (AFlt F64 w) /\ finite w = true /\
  rel_err (B2R w) (3 ^ 100) (2 * 100 * bpow radix2 (-53)).
Proof.
  destruct (ofZ_small F64 3 ltac:(lia)) as (V & F & _). rewrite <- V.
  refine (C09_pow_accurate Cxx14 F64 (ofZ F64 3) I32 100 _ _ _ F _ _).
  - split; discriminate.
  - discriminate.
  - discriminate.
  - change (bpow radix2 (- prec F64)) with (/ 9007199254740992). lra.
  - rewrite V. change (Z.to_nat 100) with 100%nat. rewrite Rabs_pos_eq by (apply pow_le; lra). change (3 - emax F64)%Z with (-1021)%Z. change (emax F64 - 1)%Z with 1023%Z. split.
    apply Rle_trans with (bpow radix2 0). apply bpow_le; lia. cbn [bpow]. apply pow_R1_Rle; lra.
    apply Rle_trans with (bpow radix2 200); [|apply bpow_le; lia]. cbn. lra.
Qed.

(** C42 *)
Theorem C42_exp_half : forall v f (x : flt f), finite x = true -> Rabs (B2R x) <= / 2 ->
  exists w, gcem_exp v (AFlt f x) = Ok w /\ finite w = true /\
    rel_err (B2R w) (exp (B2R x)) (8 * bpow radix2 (- prec f) + bpow radix2 (-55)).
Proof. exact api_exp_tiny. Qed.
Print Assumptions C42_exp_half.
Theorem C42_exp_small : forall v f (x : flt f), finite x = true -> Rabs (B2R x) < 2 ->
  exists w, gcem_exp v (AFlt f x) = Ok w /\ finite w = true /\
    rel_err (B2R w) (exp (B2R x)) (106 * bpow radix2 (- prec f) + bpow radix2 (-55)).
Proof. exact api_exp_small. Qed.
Print Assumptions C42_exp_small.
Theorem C42_exp_pos : forall v f (x : flt f), finite x = true -> 2 <= B2R x -> exp (B2R x + 2) <= bpow radix2 (emax f - 9) ->
  exists w, gcem_exp v (AFlt f x) = Ok w /\ finite w = true /\
    rel_err (B2R w) (exp (B2R x)) (10 * bpow radix2 (- prec f) + bpow radix2 (-54) + (B2R x + 3) * bpow radix2 (-61)).
Proof. exact api_exp_pos. Qed.
Print Assumptions C42_exp_pos.
Theorem C42_exp_neg : forall v f (x : flt f), finite x = true -> B2R x <= -2 -> exp (2 - B2R x) <= bpow radix2 (emax f - 9) ->
  exists w, gcem_exp v (AFlt f x) = Ok w /\ finite w = true /\
    rel_err (B2R w) (exp (B2R x)) (108 * bpow radix2 (- prec f) + bpow radix2 (-54) + (3 - B2R x) * bpow radix2 (-61)).
Proof. exact api_exp_neg. Qed.
Print Assumptions C42_exp_neg.
Example C42_ex : exists w, gcem_exp Cxx14 (AFlt F64 (ofZ F64 700)) = Ok w /\ finite w = true /\ rel_err (B2R w) (exp 700) (14 * bpow radix2 (-53)).
Proof.
  destruct (ofZ_small F64 700 ltac:(lia)) as (V & F & _).
  destruct (C42_exp_pos Cxx14 F64 (ofZ F64 700)) as (w & E & Fw & R); auto; rewrite ?V in * ; try lra.
  - change (emax F64 - 9)%Z with 1015%Z. rewrite bpow_exp. apply exp_le. change (IZR radix2) with 2. interval.
  - exists w. split. exact E. split; auto. unfold rel_err in * . eapply Rle_trans. apply R. apply Rmult_le_compat_r. apply Rabs_pos.
    change (bpow radix2 (- prec F64)) with (/ 9007199254740992). change (bpow radix2 (-54)) with (/ 18014398509481984). change (bpow radix2 (-53)) with (/ 9007199254740992).
    change (bpow radix2 (-61)) with (/ 2305843009213693952). lra.
Qed.

(** C43 *)
Theorem C43_exp_range : forall v f (x : flt f), finite x = true -> Rabs (B2R x) <= IZR (2 ^ 63 - 1) ->
  exists w, gcem_exp v (AFlt f x) = Ok w /\ BinarySingleNaN.is_nan w = false /\ Bsign w = false /\
    (bpow radix2 (emax f + 4) <= exp (B2R x) -> w = B754_infinity false) /\
    (B2R x < 0 -> finite w = true /\ B2R w <= 5 * exp (B2R x) + bpow radix2 (emin f + 5)).
Proof. exact api_exp_range. Qed.
Print Assumptions C43_exp_range.
Example C43_ex : gcem_exp Cxx14 (AFlt F64 (ofZ F64 (2 ^ 50))) = Ok (B754_infinity false) /\ Rabs (B2R (ofZ F64 (2 ^ 50))) <= IZR (2 ^ 63 - 1).
Proof.
  split. apply (@ok_sf F64). vm_compute. reflexivity. destruct (ofZ_has_val F64 (2 ^ 50) eq_refl) as (_ & V). rewrite V, Rabs_pos_eq. apply IZR_le. lia. apply IZR_le. lia.
Qed.
