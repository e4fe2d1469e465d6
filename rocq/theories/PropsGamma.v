(** * Accuracy of the gamma functions (C84-C90, C103). *)
From Verif Require Import Base ModelBasic ModelInt ModelElem ModelSpecial ModelApi Spec SpecGamma SpecInc FltLemmas ConvLemmas BasicProofs ExpAcc GammaApi TgammaNeg.
From Coq Require Import Lra.
Open Scope R_scope.

(** C84 *)
Theorem C84_lgamma_accurate : forall v f (x : flt f), finite x = true -> / 2 <= B2R x <= bpow radix2 55 ->
  exists w, gcem_lgamma v (AFlt f x) = Ok w /\ finite w = true /\
    abs_err (B2R w) (ln (Gamma (B2R x))) ((14 * B2R x * ln (B2R x + 5) + 54) * bpow radix2 (- prec f) + (B2R x + 3) * bpow radix2 (-54)).
Proof. exact api_lgamma. Qed.
Print Assumptions C84_lgamma_accurate.
Theorem C84_lgamma_accurate_small : forall v f (x : flt f), finite x = true -> 4 * bpow radix2 (- prec f) <= B2R x < / 2 -> bpow radix2 (-54) <= B2R x ->
  exists w, gcem_lgamma v (AFlt f x) = Ok w /\ finite w = true /\
    abs_err (B2R w) (ln (Gamma (B2R x))) ((60 + 8 * ln (/ B2R x) + 2 / B2R x) * bpow radix2 (- prec f) + bpow radix2 (-48)).
Proof. exact api_lgamma_small. Qed.
Print Assumptions C84_lgamma_accurate_small.
Example C84_ex : exists w, gcem_lgamma Cxx14 (AFlt F64 (ofZ F64 1000)) = Ok w /\ finite w = true /\ abs_err (B2R w) (ln (Gamma 1000)) ((14 * 1000 * ln 1005 + 54) * bpow radix2 (-53) + 1003 * bpow radix2 (-54)).
Proof.
  destruct (ofZ_small F64 1000 ltac:(lia)) as (V & F & _). destruct (C84_lgamma_accurate Cxx14 F64 (ofZ F64 1000) F) as (w & E & Fw & R); rewrite V in * .
  cbn; lra. exists w. split. exact E. split; auto. replace (1000 + 5) with 1005 in R by ring. replace (1000 + 3) with 1003 in R by ring. exact R.
Qed.

(** C85: lgamma is infinite on a whole interval of positive numbers. *)
Theorem C85_lgamma_finite_refuted : forall v f (x : flt f), finite x = true -> bpow radix2 (2 - emax f) <= B2R x < bpow radix2 (- prec f - 1) ->
  gcem_lgamma v (AFlt f x) = Ok (B754_infinity false) /\ ln (/ B2R x) - 1 <= ln (Gamma (B2R x)) <= ln (/ B2R x) + 1.
Proof. exact api_lgamma_tiny. Qed.
Print Assumptions C85_lgamma_finite_refuted.
Example C85_ex : let x := fmin F64 in finite x = true /\ bpow radix2 (2 - emax F64) <= B2R x < bpow radix2 (- prec F64 - 1).
Proof. cbv zeta. destruct (fmin_spec F64) as (V & F). split; auto. rewrite V. split. apply Rle_refl. apply bpow_lt. reflexivity. Qed.

(** C86 *)
Theorem C86_gamma_infinity_refuted : forall v f, gcem_lgamma v (AFlt f (B754_infinity false)) = Ok B754_nan /\ gcem_tgamma v 1 (AFlt f (B754_infinity false)) = Ok B754_nan.
Proof. exact gamma_infinite. Qed.
Print Assumptions C86_gamma_infinity_refuted.

(** C87 *)
Theorem C87_tgamma_accurate : forall v n f (x : flt f), finite x = true -> / 2 <= B2R x <= match f with F32 => 32 | F64 => 170 | F80 => 1754 end ->
  exists w, gcem_tgamma v (S n) (AFlt f x) = Ok w /\ finite w = true /\
    rel_err (B2R w) (Gamma (B2R x)) ((15 * B2R x * ln (B2R x + 5) + 165) * bpow radix2 (- prec f) + (2 * B2R x + 5) * bpow radix2 (-54)).
Proof. exact api_tgamma. Qed.
Print Assumptions C87_tgamma_accurate.
Theorem C87_tgamma_accurate_small : forall v n f (x : flt f), finite x = true -> 4096 * bpow radix2 (- prec f) <= B2R x < / 2 ->
  exists w, gcem_tgamma v (S n) (AFlt f x) = Ok w /\ finite w = true /\
    rel_err (B2R w) (Gamma (B2R x)) ((170 + 9 * ln (/ B2R x) + 3 / B2R x) * bpow radix2 (- prec f) + bpow radix2 (-47)).
Proof. exact api_tgamma_small. Qed.
Print Assumptions C87_tgamma_accurate_small.
Example C87_ex : exists w, gcem_tgamma Cxx11 1 (AFlt F32 (ofZ F32 10)) = Ok w /\ finite w = true /\ rel_err (B2R w) (Gamma 10) ((150 * ln 15 + 165) * bpow radix2 (-24) + 25 * bpow radix2 (-54)).
Proof.
  destruct (ofZ_small F32 10 ltac:(lia)) as (V & F & _). destruct (C87_tgamma_accurate Cxx11 0 F32 (ofZ F32 10) F) as (w & E & Fw & R); rewrite V in * .
  lra. exists w. split. exact E. split; auto. replace (10 + 5) with 15 in R by ring. replace (2 * 10 + 5) with 25 in R by ring. replace (15 * 10) with 150 in R by ring. exact R.
Qed.

(** C88 *)
Theorem C88_tgamma_small_refuted : forall v n f (x : flt f), finite x = true -> bpow radix2 (2 - emax f) <= B2R x < bpow radix2 (- prec f - 1) ->
  gcem_tgamma v (S n) (AFlt f x) = Ok (B754_infinity false) /\ Gamma (B2R x) <= 3 / B2R x.
Proof. exact api_tgamma_tiny. Qed.
Print Assumptions C88_tgamma_small_refuted.
Example C88_ex : let x := fmin F80 in finite x = true /\ bpow radix2 (2 - emax F80) <= B2R x < bpow radix2 (- prec F80 - 1).
Proof. cbv zeta. destruct (fmin_spec F80) as (V & F). split; auto. rewrite V. split. apply Rle_refl. apply bpow_lt. reflexivity. Qed.

(** C89 *)
Theorem C89_factorial_flt_accurate : forall v n f (x : flt f) k, has_val x (IZR k) -> (0 <= k <= match f with F32 => 31 | F64 => 169 | F80 => 1753 end)%Z ->
  exists w : flt f, gcem_factorial v (S n) (AFlt f x) = Ok (AFlt f w) /\ finite w = true /\
    rel_err (B2R w) (IZR (zfact k)) ((15 * (IZR k + 1) * ln (IZR k + 6) + 165) * bpow radix2 (- prec f) + (2 * IZR k + 7) * bpow radix2 (-54)).
Proof. exact api_factorial. Qed.
Print Assumptions C89_factorial_flt_accurate.
Example C89_ex : exists w : flt F64, gcem_factorial Cxx14 1 (AFlt F64 (ofZ F64 5)) = Ok (AFlt F64 w) /\ finite w = true /\ rel_err (B2R w) 120 ((15 * (5 + 1) * ln (5 + 6) + 165) * bpow radix2 (-53) + (2 * 5 + 7) * bpow radix2 (-54)).
Proof. apply (C89_factorial_flt_accurate Cxx14 0 F64 (ofZ F64 5) 5). apply BasicProofs.ofZ_has_val; reflexivity. lia. Qed.

(** C90 *)
Theorem C90_factorial_flt_exact_refuted : forall v,
  (exists w : flt F64, gcem_factorial v 1 (AFlt F64 (ofZ F64 2)) = Ok (AFlt F64 w) /\ finite w = true /\ B2R w < 2) /\
  (exists w : flt F32, gcem_factorial v 1 (AFlt F32 (ofZ F32 3)) = Ok (AFlt F32 w) /\ finite w = true /\ B2R w < 6) /\
  (exists w : flt F80, gcem_factorial v 1 (AFlt F80 (ofZ F80 4)) = Ok (AFlt F80 w) /\ finite w = true /\ B2R w < 24).
Proof. exact factorial_inexact. Qed.
Print Assumptions C90_factorial_flt_exact_refuted.

(** C103 *)
Theorem C103_tgamma_negative_accurate : forall v k n f (x : flt f), finite x = true -> (1 <= n)%nat -> INR n <= match f with F32 => 31 | F64 => 169 | F80 => 1753 end ->
  bpow radix2 (2 - emax f) <= Rabs (B2R x) -> 4096 * bpow radix2 (- prec f) <= B2R x + INR n < 1 ->
  exists w, gcem_tgamma v (n + S k) (AFlt f x) = Ok w /\ finite w = true /\
    rel_err (B2R w) (Gamma_below n (B2R x)) ((206 + 9 * ln (/ (B2R x + INR n)) + 3 / (B2R x + INR n) + 11 / 10 * INR n) * bpow radix2 (- prec f) + bpow radix2 (-47)).
Proof. exact api_tgamma_neg. Qed.
Print Assumptions C103_tgamma_negative_accurate.
Example C103_ex : let x := dec F64 (-25) 1 in finite x = true /\ B2R x = - 5 / 2 /\ bpow radix2 (2 - emax F64) <= Rabs (B2R x) /\ 4096 * bpow radix2 (- prec F64) <= B2R x + INR 3 < 1.
Proof.
  cbv zeta. destruct (sf_val (dec F64 (-25) 1) true 5629499534213120 (-51)) as (F & V). vm_compute; reflexivity. assert (V' : B2R (dec F64 (-25) 1) = - 5 / 2) by (rewrite V; unfold F2R; cbn; lra).
  split. exact F. split. exact V'. rewrite V'. split. rewrite Rabs_left by lra. apply Rle_trans with (bpow radix2 0). apply bpow_le. discriminate. cbn. lra. change (bpow radix2 (- prec F64)) with (/ 9007199254740992). cbn. lra.
Qed.
