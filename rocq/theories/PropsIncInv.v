(** * Accuracy of the inverse incomplete gamma function (C132, C133). *)
From Verif Require Import Base ModelBasic ModelInt ModelElem ModelSpecial ModelApi Spec SpecGamma SpecInc FltLemmas ConvLemmas BasicProofs IncInvApi.
From Coq Require Import Lra.
Open Scope R_scope.

(** C132: the returned w solves P(a,w) = p, and lies close to any solution *)
Theorem C132_incomplete_gamma_inv_accurate : forall v f (a p : flt f) n, finite a = true -> finite p = true -> B2R a = IZR n -> (2 <= n <= 9)%Z -> 16 / 100 <= B2R p <= / 2 ->
  exists w, gcem_incomplete_gamma_inv v (AFlt f a) (AFlt f p) = Ok w /\ finite w = true /\ / 2 <= B2R w <= B2R a + / 2 /\
  abs_err (gamma_P (B2R a) (B2R w)) (B2R p) (1400 * bpow radix2 (- prec f) + bpow radix2 (-49)) /\
  forall t, 0 < t -> gamma_P (B2R a) t = B2R p -> abs_err (B2R w) t (15000 * bpow radix2 (- prec f) + bpow radix2 (-45)).
Proof. exact api_ig_inv. Qed.
Print Assumptions C132_incomplete_gamma_inv_accurate.
Example C132_ex : exists w, gcem_incomplete_gamma_inv Cxx14 (AFlt F64 (ofZ F64 5)) (AFlt F64 (half F64)) = Ok w /\ finite w = true /\
  abs_err (gamma_P 5 (B2R w)) (/ 2) (1416 * bpow radix2 (-53)).
Proof.
  destruct (ofZ_small F64 5 ltac:(lia)) as (V & F & _). destruct (half_spec F64) as (Vh & Fh).
  destruct (C132_incomplete_gamma_inv_accurate Cxx14 F64 (ofZ F64 5) (half F64) 5 F Fh V ltac:(lia)) as (w & E & Fw & _ & R & _). rewrite Vh; lra. rewrite V, Vh in R.
  exists w. split. exact E. split. exact Fw. change (- prec F64)%Z with (-53)%Z in R. replace (1416 * bpow radix2 (-53)) with (1400 * bpow radix2 (-53) + bpow radix2 (-49)). exact R.
  replace (bpow radix2 (-49)) with (bpow radix2 4 * bpow radix2 (-53)) by (rewrite <- bpow_plus; reflexivity). change (bpow radix2 4) with 16. ring.
Qed.

(** C133: incomplete_gamma(a, incomplete_gamma_inv(a, p)) gives p back *)
Theorem C133_incomplete_gamma_round_trip : forall v f (a p : flt f) n, finite a = true -> finite p = true -> B2R a = IZR n -> (2 <= n <= 9)%Z -> 16 / 100 <= B2R p <= / 2 ->
  exists w q : flt f, rmap (AFlt _) (gcem_incomplete_gamma_inv v (AFlt f a) (AFlt f p)) = Ok (AFlt f w) /\
  rmap (AFlt _) (gcem_incomplete_gamma v (AFlt f a) (AFlt f w)) = Ok (AFlt f q) /\ finite q = true /\
  abs_err (B2R q) (B2R p) (2250 * bpow radix2 (- prec f) + bpow radix2 (-48)).
Proof. exact api_ig_rt. Qed.
Print Assumptions C133_incomplete_gamma_round_trip.
Example C133_ex : exists w q : flt F32, rmap (AFlt _) (gcem_incomplete_gamma_inv Cxx11 (AFlt F32 (ofZ F32 2)) (AFlt F32 (half F32))) = Ok (AFlt F32 w) /\
  rmap (AFlt _) (gcem_incomplete_gamma Cxx11 (AFlt F32 (ofZ F32 2)) (AFlt F32 w)) = Ok (AFlt F32 q) /\ Rabs (B2R q - / 2) <= / 1000.
Proof.
  destruct (ofZ_small F32 2 ltac:(lia)) as (V & F & _). destruct (half_spec F32) as (Vh & Fh).
  destruct (C133_incomplete_gamma_round_trip Cxx11 F32 (ofZ F32 2) (half F32) 2 F Fh V ltac:(lia)) as (w & q & E & E2 & _ & R). rewrite Vh; lra. rewrite Vh in R.
  exists w, q. split. exact E. split. exact E2. unfold abs_err in R. change (- prec F32)%Z with (-24)%Z in R. eapply Rle_trans. exact R. change (bpow radix2 (-24)) with (/ 16777216). change (bpow radix2 (-48)) with (/ 281474976710656). lra.
Qed.
