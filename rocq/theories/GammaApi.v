(** * Gamma functions on the public interface *)
From Verif Require Import Base ModelBasic ModelInt ModelElem ModelSpecial ModelApi FltLemmas ConvLemmas BasicProofs SymLemmas LogBad.
From Coq Require Import Lra Psatz.
From Coquelicot Require Import Coquelicot.
From Interval Require Import Tactic.
From Verif Require Import Spec SpecGamma Lanczos GammaInt GammaReal.
From Verif Require Import RangeProofs PF FPErr CFBound ExpAcc MiscProofs SinAcc TanhAcc SqrtAcc LogAcc LogApi Log1pAcc InvTrig PowReal ErfAcc GammaAcc TgammaAcc.
Open Scope R_scope.

Lemma api_lgamma : forall v f (x : flt f), finite x = true -> / 2 <= B2R x <= bpow radix2 55 ->
  exists w, gcem_lgamma v (AFlt f x) = Ok w /\ finite w = true /\
    abs_err (B2R w) (ln (Gamma (B2R x))) ((14 * B2R x * ln (B2R x + 5) + 54) * bpow radix2 (- prec f) + (B2R x + 3) * bpow radix2 (-54)).
Proof. intros v f x Fx X. change (bpow radix2 55) with 36028797018963968 in X. apply (lgamma_large v x Fx); lra. Qed.
Lemma api_lgamma_small : forall v f (x : flt f), finite x = true -> 4 * bpow radix2 (- prec f) <= B2R x < / 2 -> bpow radix2 (-54) <= B2R x ->
  exists w, gcem_lgamma v (AFlt f x) = Ok w /\ finite w = true /\
    abs_err (B2R w) (ln (Gamma (B2R x))) ((60 + 8 * ln (/ B2R x) + 2 / B2R x) * bpow radix2 (- prec f) + bpow radix2 (-48)).
Proof. intros v f x Fx X L. change (bpow radix2 (-54)) with (/ 18014398509481984) in L. apply (lgamma_small v x Fx); try lra. exact X. Qed.
Lemma api_tgamma : forall v n f (x : flt f), finite x = true -> / 2 <= B2R x <= match f with F32 => 32 | F64 => 170 | F80 => 1754 end ->
  exists w, gcem_tgamma v (S n) (AFlt f x) = Ok w /\ finite w = true /\
    rel_err (B2R w) (Gamma (B2R x)) ((15 * B2R x * ln (B2R x + 5) + 165) * bpow radix2 (- prec f) + (2 * B2R x + 5) * bpow radix2 (-54)).
Proof. intros v n f x Fx X. assert (G := gmax_rng f). fold (gmax f) in X. apply (tgamma_large v x Fx); lra. Qed.
Lemma api_tgamma_small : forall v n f (x : flt f), finite x = true -> 4096 * bpow radix2 (- prec f) <= B2R x < / 2 ->
  exists w, gcem_tgamma v (S n) (AFlt f x) = Ok w /\ finite w = true /\
    rel_err (B2R w) (Gamma (B2R x)) ((170 + 9 * ln (/ B2R x) + 3 / B2R x) * bpow radix2 (- prec f) + bpow radix2 (-47)).
Proof. intros v n f x Fx X. assert (G := uf_ge f). fold (uf f) in X. apply (tgamma_small v x Fx); lra. Qed.

(** ** Arguments so small that x - 1 rounds to -1 *)
Lemma sub_tiny {f} (x : flt f) : finite x = true -> 0 < B2R x < bpow radix2 (- prec f - 1) -> x -. ofZ f 1 = ofZ f (-1).
Proof.
  intros Fx X. destruct (one_val (f := f)) as (V1 & F1). assert (u1 := uf_le f). change (bpow radix2 (-24)) with (/ 16777216) in u1. assert (E : bpow radix2 (- prec f - 1) = uf f / 2) by (unfold Z.sub; rewrite bpow_plus; reflexivity). rewrite E in X.
  destruct (op_sub x (ofZ f 1) Fx F1) as (Fw & Vw). { rewrite V1. apply Rabs_le. lra. } rewrite V1 in Vw. set (w := x -. ofZ f 1) in * .
  assert (D : Rabs (B2R w - (B2R x - 1)) <= uf f / 2). { rewrite Vw. apply rnd_half_u. rewrite Rabs_left by lra. lra. } apply Rabs_le_inv in D.
  destruct (ofZ_small f (-1) ltac:(lia)) as (Vm & Fm & Sm).
  assert (V : B2R w = -1).
  { destruct (Req_dec (B2R w) (-1)) as [|N]; auto. exfalso.
    assert (G := gap_one (-. w)). rewrite fneg_B2R, fneg_finite in G. specialize (G Fw ltac:(lra) ltac:(lra)). change (bpow radix2 (- prec f)) with (uf f) in G.
    assert (L : -1 <= B2R w). { rewrite Vw. rewrite <- Vm. apply rnd_ge_fmt. apply fmt_format. rewrite Vm. lra. }
    rewrite Rabs_left1 in G by lra. lra. }
  apply flt_inj_nz; auto; lra.
Qed.
Lemma begin_m1 v f : lgamma_begin v (ofZ f (-1)) = Ok (B754_infinity false).
Proof. destruct f, v; apply ok_sf; vm_compute; reflexivity. Qed.
Lemma exp_inf v f : exp_check v (B754_infinity false : flt f) = Ok (B754_infinity false).
Proof. destruct f, v; apply ok_sf; vm_compute; reflexivity. Qed.
Lemma api_gamma_tiny : forall v n f (x : flt f), finite x = true -> bpow radix2 (2 - emax f) <= B2R x < bpow radix2 (- prec f - 1) ->
  gcem_lgamma v (AFlt f x) = Ok (B754_infinity false) /\ gcem_tgamma v (S n) (AFlt f x) = Ok (B754_infinity false).
Proof.
  intros v n f x Fx X. assert (P := bpow_gt_0 radix2 (2 - emax f)). assert (T := sub_tiny x Fx ltac:(lra)). destruct (fmin_spec f) as (Vm & Fm). destruct (ofZ_small f (-1) ltac:(lia)) as (V1 & F1 & _). destruct (ofZ_small f 0 ltac:(lia)) as (V0 & F0 & _).
  assert (M1 : bpow radix2 (2 - emax f) <= 1). { change 1 with (bpow radix2 0). apply bpow_le. destruct f; discriminate. }
  assert (C : lgamma_check v x = Ok (B754_infinity false)).
  { unfold lgamma_check. rewrite finite_not_nan by auto. rewrite T. rewrite flt_false; auto. 2: rewrite abs_finite; auto. 2: { rewrite abs_B2R, V1, Vm, Rabs_left by lra. lra. }
    rewrite flt_false; auto. apply begin_m1. lra. }
  split. exact C. change (tgamma_check v (S n) x = Ok (B754_infinity false)). cbn [tgamma_check]. rewrite finite_not_nan by auto. rewrite T. rewrite flt_false; auto. 2: rewrite abs_finite; auto. 2: { rewrite abs_B2R, V1, Vm, Rabs_left by lra. lra. }
  rewrite flt_false; auto. 2: rewrite abs_finite; auto. 2: rewrite abs_B2R, Rabs_pos_eq by lra; lra. rewrite flt_false; auto. 2: lra. rewrite C. cbn [bind]. apply exp_inf.
Qed.
(** ... while the true values are moderate. *)
Lemma lnGamma_tiny_val x : 0 < x <= 1 -> ln (/ x) - 1 <= ln (Gamma x) <= ln (/ x) + 1.
Proof. intros X. assert (G := lnGamma_unit x ltac:(lra)). rewrite (Rplus_comm 1), lnGamma_S in G by lra. rewrite ln_Rinv by lra. lra. Qed.

(** ** factorial of floating-point arguments *)
Lemma nfact_fact n : IZR (nfact n) = INR (fact n).
Proof. induction n as [|n IH]. reflexivity. change (nfact (S n)) with (Z.of_nat (S n) * nfact n)%Z. change (fact (S n)) with (S n * fact n)%nat. rewrite mult_IZR, mult_INR, IH, <- INR_IZR_INZ. reflexivity. Qed.
Lemma Gamma_zfact k : (0 <= k)%Z -> Gamma (IZR k + 1) = IZR (zfact k).
Proof. intros K. unfold zfact. rewrite nfact_fact, <- Gamma_fact. rewrite INR_IZR_INZ, Z2Nat.id; auto. Qed.
Lemma api_factorial : forall v n f (x : flt f) k, has_val x (IZR k) -> (0 <= k <= match f with F32 => 31 | F64 => 169 | F80 => 1753 end)%Z ->
  exists w : flt f, gcem_factorial v (S n) (AFlt f x) = Ok (AFlt f w) /\ finite w = true /\
    rel_err (B2R w) (IZR (zfact k)) ((15 * (IZR k + 1) * ln (IZR k + 6) + 165) * bpow radix2 (- prec f) + (2 * IZR k + 7) * bpow radix2 (-54)).
Proof.
  intros v n f x k (Fx & Vx) K. assert (K1 : (k <= 1753)%Z) by (destruct f; lia). assert (KR : 0 <= IZR k <= 1753) by (split; apply IZR_le; lia).
  destruct (one_val (f := f)) as (V1 & F1). destruct (op_add x (ofZ f 1) Fx F1) as (Fy & Vy). { rewrite Vx, V1. apply Rabs_le. lra. }
  assert (E : B2R (x +. ofZ f 1) = IZR k + 1). { rewrite Vy, Vx, V1. rewrite <- plus_IZR. apply rnd_id. apply fmt_IZR. destruct f; cbn; lia. }
  destruct (api_tgamma v n f (x +. ofZ f 1) Fy) as (w & Ew & Fw & Rw).
  { rewrite E. assert (G : IZR k <= gmax f - 1). { destruct f; cbn; apply IZR_le in K1; destruct K as (_ & K); apply IZR_le in K; lra. } unfold gmax in G. lra. }
  exists w. unfold gcem_factorial, factorial_flt. change (tgamma_check v (S n) (x +. ofZ f 1) = Ok w) in Ew. rewrite Ew. split; auto. split; auto. rewrite E, Gamma_zfact in Rw by lia.
  replace (IZR k + 1 + 5) with (IZR k + 6) in Rw by ring. replace (2 * (IZR k + 1) + 5) with (2 * IZR k + 7) in Rw by ring. exact Rw.
Qed.
Lemma factorial_inexact : forall v,
  (exists w : flt F64, gcem_factorial v 1 (AFlt F64 (ofZ F64 2)) = Ok (AFlt F64 w) /\ finite w = true /\ B2R w < 2) /\
  (exists w : flt F32, gcem_factorial v 1 (AFlt F32 (ofZ F32 3)) = Ok (AFlt F32 w) /\ finite w = true /\ B2R w < 6) /\
  (exists w : flt F80, gcem_factorial v 1 (AFlt F80 (ofZ F80 4)) = Ok (AFlt F80 w) /\ finite w = true /\ B2R w < 24).
Proof.
  intros v. unfold gcem_factorial. split; [|split].
  - destruct (res_val (factorial_flt v 1 (ofZ F64 2)) false 9007199254740984 (-52)) as (w & E & F & V). destruct v; vm_compute; reflexivity.
    exists w. rewrite E. split; auto. split; auto. rewrite V. unfold F2R. cbn [Fnum Fexp cond_Zopp]. change (bpow radix2 (-52)) with (/ 4503599627370496). lra.
  - destruct (res_val (factorial_flt v 1 (ofZ F32 3)) false 12582911 (-21)) as (w & E & F & V). destruct v; vm_compute; reflexivity.
    exists w. rewrite E. split; auto. split; auto. rewrite V. unfold F2R. cbn [Fnum Fexp cond_Zopp]. change (bpow radix2 (-21)) with (/ 2097152). lra.
  - destruct (res_val (factorial_flt v 1 (ofZ F80 4)) false 13835058055282163708 (-59)) as (w & E & F & V). destruct v; vm_compute; reflexivity.
    exists w. rewrite E. split; auto. split; auto. rewrite V. unfold F2R. cbn [Fnum Fexp cond_Zopp]. change (bpow radix2 (-59)) with (/ 576460752303423488). lra.
Qed.
Lemma gamma_infinite : forall v f, gcem_lgamma v (AFlt f (B754_infinity false)) = Ok B754_nan /\ gcem_tgamma v 1 (AFlt f (B754_infinity false)) = Ok B754_nan.
Proof. intros v f. split; destruct f, v; apply (ok_sf (f := _)); vm_compute; reflexivity. Qed.
Lemma api_lgamma_tiny : forall v f (x : flt f), finite x = true -> bpow radix2 (2 - emax f) <= B2R x < bpow radix2 (- prec f - 1) ->
  gcem_lgamma v (AFlt f x) = Ok (B754_infinity false) /\ ln (/ B2R x) - 1 <= ln (Gamma (B2R x)) <= ln (/ B2R x) + 1.
Proof.
  intros v f x Fx X. assert (P := bpow_gt_0 radix2 (2 - emax f)). assert (bpow radix2 (- prec f - 1) <= 1). { change 1 with (bpow radix2 0). apply bpow_le. destruct f; discriminate. }
  split. apply (api_gamma_tiny v 0 f x Fx X). apply lnGamma_tiny_val. lra.
Qed.
Lemma api_tgamma_tiny : forall v n f (x : flt f), finite x = true -> bpow radix2 (2 - emax f) <= B2R x < bpow radix2 (- prec f - 1) ->
  gcem_tgamma v (S n) (AFlt f x) = Ok (B754_infinity false) /\ Gamma (B2R x) <= 3 / B2R x.
Proof.
  intros v n f x Fx X. assert (P := bpow_gt_0 radix2 (2 - emax f)). assert (bpow radix2 (- prec f - 1) <= 1). { change 1 with (bpow radix2 0). apply bpow_le. destruct f; discriminate. }
  split. apply (api_gamma_tiny v n f x Fx X). destruct (lnGamma_tiny_val (B2R x) ltac:(lra)) as (_ & U). assert (I : 0 < / B2R x) by (apply Rinv_0_lt_compat; lra).
  rewrite <- (exp_ln (Gamma (B2R x))) by (apply Gamma_pos; lra). apply Rle_trans with (exp (ln (/ B2R x) + 1)). apply Raux.exp_le; auto. rewrite exp_plus, exp_ln by auto. assert (exp 1 <= 3) by interval. unfold Rdiv. rewrite Rmult_comm. apply Rmult_le_compat_r; lra.
Qed.
